(** Model of conditional sampling of the vine copula:
    src/skfolio/distribution/multivariate/_vine_copula.py [sample] and
    [_init_conditioning]. Real arithmetic; NaN is not modelled. *)
Require Import String List Arith ZArith Bool Reals.
From Verif Require Import ToolsModel VineModel.
Import ListNotations.
Open Scope R_scope.

(** Bounds may be infinite. *)
Inductive ext := NegInf | Fin (r : R) | PosInf.
Definition ext_ge (a b : ext) : bool :=
  match a, b with
  | PosInf, _ => true
  | _, NegInf => true
  | Fin x, Fin y => if Rle_dec y x then true else false
  | _, _ => false
  end.

(** np.clip(x, a_min, a_max) *)
Definition clip_ext (lo hi : ext) (x : R) : R :=
  let x := match lo with Fin l => Rmax l x | _ => x end in
  match hi with Fin h => Rmin h x | _ => x end.

(** A conditioning value: a tuple (None standing for an open end), a number, a
    scalar that is not a number, or an array-like with its number of dimensions. *)
Inductive cond_value :=
  | Tuple (l : list (option ext))
  | Number (v : R)
  | NotANumber
  | ArrayLike (ndim : nat) (l : list R).

Inductive clean_value := Bounds (lo hi : ext) | Value (v : R) | Values (l : list R).

(** conditioning_clean[var] = ... *)
Fixpoint dict_set {A : Type} (d : list (nat * A)) (k : nat) (x : A) : list (nat * A) :=
  match d with
  | [] => [(k, x)]
  | (k', y) :: d' => if (k =? k')%nat then (k, x) :: d' else (k', y) :: dict_set d' k x
  end.
Fixpoint dict_get {A : Type} (d : list (nat * A)) (k : nat) : option A :=
  match d with
  | [] => None
  | (k', x) :: d' => if (k =? k')%nat then Some x else dict_get d' k
  end.

Section Sampling.
  (** The fitted model. *)
  Variable C : Type.
  Variables hu hv hinv : C -> R -> R -> R.
  Variable copula : nat -> nat -> C.
  Variable enum : list nat -> list nat.
  Variable n_assets : nat.
  Variable names : option (list string).
  Variable ts : list tree.
  Variable fit_marginals : bool.
  Variables cdf ppf : nat -> R -> R.
  Variable log_transform : nat -> bool.

  (** The random numbers: [rng.uniform] of the j-th condition at row s, as standard
      uniforms, and [X_rand]. *)
  Variable u_bounds : nat -> nat -> R.
  Variable x_rand : nat -> nat -> R.

  (** np.log1p; arguments are above -1. *)
  Definition log1p (x : R) : R := ln (1 + x).

  (** _vine_copula.py 810-820, 824-830: a value on the uniform scale. *)
  Definition to_uniform (var : nat) (v : R) : R :=
    let v := if log_transform var then log1p v else v in
    if fit_marginals then cdf var v else v.

  (** _vine_copula.py 789-803: a bound on the uniform scale; an infinite bound without
      fitted marginals makes rng.uniform raise. *)
  Definition bound_uniform (var : nat) (b : ext) : option R :=
    match b with
    | Fin v => Some (to_uniform var v)
    | NegInf => if fit_marginals then Some 0 else None
    | PosInf => if fit_marginals then Some 1 else None
    end.

  Definition or_inf (d : ext) (b : option ext) : ext := match b with Some e => e | None => d end.

  (** One pass of the loop, _vine_copula.py 770-836. *)
  Definition init_one (n_samples j var : nat) (value : cond_value)
    : result (clean_value * (nat -> R)) :=
    match value with
    | Tuple [lo; hi] =>
        let lo := or_inf NegInf lo in
        let hi := or_inf PosInf hi in
        if ext_ge lo hi then Err ValueError
        else match bound_uniform var lo, bound_uniform var hi with
             | Some u_min, Some u_max =>
                 Ok (Bounds lo hi, fun s => u_min + (u_max - u_min) * u_bounds j s)
             | _, _ => Err ValueError
             end
    | Tuple _ => Err ValueError
    | Number v => Ok (Value v, fun _ => to_uniform var v)
    | NotANumber => Err ValueError
    | ArrayLike ndim l =>
        if ((ndim =? 1) && (List.length l =? n_samples))%nat
        then Ok (Values l, fun s => to_uniform var (nth s l 0))
        else Err ValueError
    end.

  Fixpoint init_loop (n_samples j : nat) (vars : list nat) (values : list cond_value)
      (clean : list (nat * clean_value)) (unif : list (nat * (nat -> R)))
    : result (list (nat * clean_value) * list (nat * (nat -> R))) :=
    match vars, values with
    | var :: vars', value :: values' =>
        match init_one n_samples j var value with
        | Ok (c, u) => init_loop n_samples (S j) vars' values' (dict_set clean var c)
                         (dict_set unif var u)
        | Err e => Err e
        end
    | _, _ => Ok (clean, unif)
    end.

  (** [_init_conditioning], _vine_copula.py 676-839, for a dictionary. *)
  Definition init_conditioning (n_samples : nat) (conditioning : list (item * cond_value))
    : result (list nat * (list (nat * clean_value) * list (nat * (nat -> R)))) :=
    match validate_input_list (map fst conditioning) n_assets names true with
    | Err e => Err e
    | Ok vars =>
        if (n_assets <=? List.length vars)%nat then Err ValueError
        else match init_loop n_samples 0 vars (map snd conditioning) [] [] with
             | Err e => Err e
             | Ok r => Ok (nodup Nat.eq_dec vars, r)
             end
    end.

  (** _vine_copula.py 606-631: ppf of the marginal, then the reverse log transform,
      linear above log 3. *)
  Definition back (var : nat) (y : R) : R :=
    let y := if fit_marginals then ppf var y else y in
    if log_transform var
    then if Rle_dec y (ln 3) then exp y - 1 else exp (ln 3) + (y - ln 3) - 1
    else y.

  (** _vine_copula.py 638-642: the conditions are forced back. *)
  Definition force (clean : list (nat * clean_value)) (s var : nat) (y : R) : R :=
    match dict_get clean var with
    | Some (Bounds lo hi) => clip_ext lo hi y
    | Some (Value v) => v
    | Some (Values l) => nth s l 0
    | None => y
    end.

  Definition eps : R := 1 / 100000000000000.
  Definition clip_unit (x : R) : R := Rmin (1 - eps) (Rmax eps x).

  (** [sample], one row. None models a failed traversal, which C48 excludes. *)
  Definition sample_row (vars : list nat) (clean : list (nat * clean_value))
      (unif : list (nat * (nat -> R))) (s : nat) : option (nat -> option R) :=
    match sampling_order enum vars n_assets ts with
    | None => None
    | Some order =>
        let given var := match dict_get unif var with Some u => u s | None => 0 end in
        let rand := map (fun i => x_rand i s) (seq 0 (n_assets - List.length vars)) in
        match propagate enum R C hu hv hinv copula clip_unit vars given ts order rand with
        | None => None
        | Some st => Some (fun var => option_map (fun y => force clean s var
                                                  (back var (clip_unit y))) (roots R st var))
        end
    end.

  Definition sample (n_samples : nat) (conditioning : option (list (item * cond_value)))
    : result (nat -> option (nat -> option R)) :=
    match conditioning with
    | None => Ok (sample_row [] [] [])
    | Some d =>
        match init_conditioning n_samples d with
        | Err e => Err e
        | Ok (vars, (clean, unif)) => Ok (sample_row vars clean unif)
        end
    end.
End Sampling.
