(** Model of the input helpers of src/skfolio/utils/tools.py: [input_to_array],
    [validate_input_list], [deduplicate_names], [cache_method], and of
    [commutation_matrix] of src/skfolio/utils/stats.py. *)
Require Import String Ascii List Arith ZArith Bool QArith DecimalString.
Import ListNotations.
Open Scope string_scope.

(** ** Errors *)
Inductive error := ValueError | TypeError | KeyError.
Inductive result (A : Type) := Ok (a : A) | Err (e : error).
Arguments Ok {A} a.
Arguments Err {A} e.

(** ** Arrays *)

(** The elements: a number ([NaN] apart), a string, or Python's None. *)
Inductive val := Num (q : Q) | NaN | Str (s : string) | PyNone.

Definition is_str (v : val) : bool := match v with Str _ => true | _ => false end.
Definition is_nan (v : val) : bool := match v with NaN => true | _ => false end.
Definition is_number (v : val) : bool :=
  match v with Num _ | NaN => true | _ => false end.

(** A numpy array: its shape and its elements in row-major order. *)
Record ndarray := { shape : list nat; data : list val }.

(** A dictionary value: a scalar, or a list (the groups of one asset). *)
Inductive dval := Scalar (v : val) | Elems (l : list val).

(** [items]: a dictionary (its pairs in insertion order, keys distinct) or
    something [np.asarray] turned into an array. *)
Inductive items := Dict (d : list (string * dval)) | Array (a : ndarray).

(** [items.get(asset)]. *)
Fixpoint get {A : Type} (d : list (string * A)) (k : string) : option A :=
  match d with
  | [] => None
  | (k', x) :: d' => if String.eqb k k' then Some x else get d' k
  end.

(** [np.array([...])] of one row of dictionary values, tools.py 405. Lists inside
    a one-dimensional request give a two-dimensional or ragged array; both are
    refused below ([arr.ndim != dim], or numpy's own ValueError), so they are
    modelled as ValueError. *)
Fixpoint scalars (l : list dval) : option (list val) :=
  match l with
  | [] => Some []
  | Scalar v :: l' => option_map (cons v) (scalars l')
  | Elems _ :: _ => None
  end.

(** tools.py 408-417: the list of one asset starts with its own name. *)
Definition row_of (d : list (string * dval)) (asset : string) : list val :=
  match get d asset with
  | None => [Str asset]
  | Some (Scalar PyNone) => [Str asset]
  | Some (Scalar v) => [Str asset; v]
  | Some (Elems l) => Str asset :: l
  end.

(** tools.py 418-423: DataFrame.from_dict(orient="index") pads the shorter rows
    with None; the transposed values are returned. *)
Definition widest (rows : list (list val)) : nat :=
  fold_right (fun r m => Nat.max (List.length r) m) 0%nat rows.
Definition transposed (rows : list (list val)) : ndarray :=
  {| shape := [widest rows; List.length rows];
     data := flat_map (fun g => map (fun r => nth g r PyNone) rows)
               (seq 0 (widest rows)) |}.

(** [np.isnan(arr).any()], tools.py 430: raises TypeError when an element is not a
    number. *)
Definition isnan_any (a : ndarray) : result bool :=
  if forallb is_number (data a) then Ok (existsb is_nan (data a)) else Err TypeError.

(** tools.py 357-442. [names] is None when the input was not a DataFrame. *)
Definition input_to_array (it : items) (n_assets : nat) (fill_value : val) (dim : nat)
    (names : option (list string)) : result ndarray :=
  if negb ((dim =? 1) || (dim =? 2))%nat then Err ValueError
  else
    let arr : result ndarray :=
      match it with
      | Array a => Ok a
      | Dict d =>
          match names with
          | None => Err ValueError
          | Some names =>
              if (dim =? 1)%nat then
                match scalars (map (fun a => match get d a with
                                             | Some x => x
                                             | None => Scalar fill_value
                                             end) names) with
                | Some l => Ok {| shape := [List.length l]; data := l |}
                | None => Err ValueError
                end
              else Ok (transposed (map (row_of d) names))
          end
      end in
    match arr with
    | Err e => Err e
    | Ok a =>
        if negb (List.length (shape a) =? dim)%nat then Err ValueError
        else
          let nan : result bool := if is_str fill_value then Ok false else isnan_any a in
          match nan with
          | Err e => Err e
          | Ok true => Err ValueError
          | Ok false =>
              if negb (last (shape a) 0 =? n_assets)%nat then Err ValueError else Ok a
          end
    end.

(** ** Lists of assets *)

(** An item: an integer or a string. *)
Inductive item := Idx (z : Z) | Name (s : string).

Definition item_eqb (a b : item) : bool :=
  match a, b with
  | Idx x, Idx y => Z.eqb x y
  | Name x, Name y => String.eqb x y
  | _, _ => false
  end.

(** [len(set(items)) != len(items)] *)
Fixpoint has_duplicates (l : list item) : bool :=
  match l with
  | [] => false
  | x :: l' => existsb (item_eqb x) l' || has_duplicates l'
  end.

(** [np.where(assets_names == asset)[0][0]] *)
Fixpoint first_index (names : list string) (s : string) : option nat :=
  match names with
  | [] => None
  | x :: names' => if String.eqb x s then Some 0%nat else option_map S (first_index names' s)
  end.

(** tools.py 482-502, the loop. *)
Fixpoint resolve (l : list item) (n_assets : nat) (names : option (list string))
    (strict : bool) : result (list nat) :=
  match l with
  | [] => Ok []
  | Name s :: l' =>
      match names with
      | None => Err ValueError
      | Some ns =>
          match first_index ns s with
          | Some i =>
              match resolve l' n_assets names strict with
              | Ok r => Ok (i :: r)
              | Err e => Err e
              end
          | None => if strict then Err ValueError else resolve l' n_assets names strict
          end
      end
  | Idx z :: l' =>
      if (0 <=? z)%Z && (z <? Z.of_nat n_assets)%Z then
        match resolve l' n_assets names strict with
        | Ok r => Ok (Z.to_nat z :: r)
        | Err e => Err e
        end
      else Err ValueError
  end.

(** tools.py 445-503. *)
Definition validate_input_list (l : list item) (n_assets : nat)
    (names : option (list string)) (raise_if_string_missing : bool) : result (list nat) :=
  if has_duplicates l then Err ValueError
  else resolve l n_assets names raise_if_string_missing.

(** ** Names *)

(** f"{col}_{k}" *)
Definition decimal (k : nat) : string := NilEmpty.string_of_uint (Nat.to_uint k).
Definition suffixed (col : string) (k : nat) : string := col ++ "_" ++ decimal k.

(** tools.py 704-726: the loop with its dictionary [counts]. *)
Definition counts_get (counts : list (string * nat)) (c : string) : nat :=
  match get counts c with Some k => k | None => 0%nat end.
Fixpoint dedup_loop (names : list string) (counts : list (string * nat)) : list string :=
  match names with
  | [] => []
  | col :: rest =>
      let cur_count := counts_get counts col in
      (if (0 <? cur_count)%nat then suffixed col cur_count else col)
        :: dedup_loop rest ((col, S cur_count) :: counts)
  end.
Definition deduplicate_names (names : list string) : list string := dedup_loop names [].

(** ** Cached methods *)

Section Cache.
  Variables obj value : Type.
  (** The hash of one object; None for an unhashable one. *)
  Variable hash_obj : obj -> option Z.
  Variable of_string : string -> obj.
  (** Python combines the hashes of the elements of a tuple. *)
  Variable hash_tuple : list Z -> Z.

  Record call := { method : string; args : list obj; kwargs : list (string * obj) }.

  Fixpoint all_hashes (l : list obj) : option (list Z) :=
    match l with
    | [] => Some []
    | x :: l' =>
        match hash_obj x, all_hashes l' with
        | Some h, Some hs => Some (h :: hs)
        | _, _ => None
        end
    end.

  (** tools.py 118-124: the keyword arguments are appended to the positional ones. *)
  Definition flatten (c : call) : list obj :=
    args c ++ flat_map (fun kv => [of_string (fst kv); snd kv]) (kwargs c).
  Definition make_key (c : call) : option Z :=
    option_map hash_tuple (all_hashes (flatten c)).

  (** The cache: method name to key to value. *)
  Definition cache := list (string * (Z * value)).
  Fixpoint cache_get (m : string) (k : Z) (ch : cache) : option value :=
    match ch with
    | [] => None
    | (m', (k', v)) :: ch' =>
        if String.eqb m m' && Z.eqb k k' then Some v else cache_get m k ch'
    end.

  (** The undecorated method; None when it raises. *)
  Variable run : call -> option value.

  (** tools.py 280-302: [wrapper]. *)
  Definition wrapper (ch : cache) (c : call) : result value * cache :=
    match make_key c with
    | None => (Err TypeError, ch)
    | Some k =>
        match cache_get (method c) k ch with
        | Some v => (Ok v, ch)
        | None =>
            match run c with
            | Some v => (Ok v, (method c, (k, v)) :: ch)
            | None => (Err ValueError, ch)
            end
        end
    end.

  Fixpoint history (ch : cache) (l : list call) : list (result value) :=
    match l with
    | [] => []
    | c :: l' => fst (wrapper ch c) :: history (snd (wrapper ch c)) l'
    end.
End Cache.

(** Python's hash of an integer (CPython, 64 bits): modulo 2^61 - 1, with the sign
    of the integer, and -2 instead of -1. *)
Definition hash_int (z : Z) : Z :=
  let h := Z.rem z (2 ^ 61 - 1) in if (h =? -1)%Z then (-2)%Z else h.

(** ** Commutation matrix, stats.py 403-422 *)

(** [np.arange(m * n).reshape((m, n), order="F").ravel()] at position [r]. *)
Definition fortran_col (m n r : nat) : nat := (r / n + (r mod n) * m)%nat.
(** The entry of the sparse matrix: ones at (r, col r). *)
Definition commutation (m n r c : nat) : Z := if (c =? fortran_col m n r)%nat then 1%Z else 0%Z.
