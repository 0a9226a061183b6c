(** Model of the parameters of composed estimators: [BaseComposition] (src/skfolio/optimization/ensemble/_base.py 17-89), the
    [get_params] and [set_params] of [StackingOptimization] (optimization/ensemble/_stacking.py 189-231), and the methods of
    scikit-learn's BaseEstimator they extend.

    A value is an object without parameters (a number, a string, None, a class...), an estimator with its constructor arguments, or a
    list of (name, estimator) pairs.  An estimator is a composition (a StackingOptimization, whose list is its argument
    [estimators]) or a plain estimator.  Simplifications: no object is shared by two arguments; the list of a composition is a list of
    pairs; dictionaries are association lists without the order of their keys being relied upon. *)
From Coq Require Import String List Bool Arith ZArith Ascii.
Import ListNotations.
Local Open Scope string_scope.

Inductive value :=
| Atom (a : Z)
| Estimator (composition : bool) (args : list (string * value))
| Members (items : list (string * value)).
Inductive error := ValueError | AttributeError | RuntimeError | OutOfFuel.

(** ** dictionaries *)
Fixpoint lookup {A} (d : list (string * A)) (k : string) : option A :=
  match d with [] => None | (j, v) :: r => if String.eqb j k then Some v else lookup r k end.
Fixpoint dict_set {A} (d : list (string * A)) (k : string) (v : A) : list (string * A) :=
  match d with [] => [(k, v)] | (j, w) :: r => if String.eqb j k then (j, v) :: r else (j, w) :: dict_set r k v end.
Definition update {A} (d e : list (string * A)) : list (string * A) := fold_left (fun d p => dict_set d (fst p) (snd p)) e d.
Definition member {A} (d : list (string * A)) (k : string) : bool := match lookup d k with Some _ => true | None => false end.
Definition remove {A} (d : list (string * A)) (k : string) : list (string * A) := filter (fun p => negb (String.eqb (fst p) k)) d.

(** [key.partition("__")]: what is before the first "__", and what is after it if there is one *)
Fixpoint partition (s : string) : string * option string :=
  match s with
  | EmptyString => (EmptyString, None)
  | String c r =>
      match r with
      | String d r' => if (Ascii.eqb c "_" && Ascii.eqb d "_")%bool then (EmptyString, Some r')
                       else let (a, b) := partition r in (String c a, b)
      | EmptyString => (String c EmptyString, None)
      end
  end.
(** ["__" in name] *)
Definition dunder (s : string) : bool := match snd (partition s) with Some _ => true | None => false end.
Definition prefixed (k : string) (d : list (string * value)) : list (string * value) := map (fun p => (k ++ "__" ++ fst p, snd p)) d.

(** ** [get_params(deep=True)]: scikit-learn's, then [BaseComposition._get_params] (_base.py 24-44) for a composition *)
Fixpoint get_params (v : value) : list (string * value) :=
  match v with
  | Estimator composition args =>
      let out :=
        (fix own (args out : list (string * value)) {struct args} : list (string * value) :=
           match args with
           | [] => out
           | (k, x) :: r => own r (dict_set (match x with Estimator _ _ => update out (prefixed k (get_params x)) | _ => out end) k x)
           end) args [] in
      if composition then
        (fix find (l : list (string * value)) {struct l} : list (string * value) :=
           match l with
           | [] => out
           | (k, x) :: r =>
               if String.eqb k "estimators" then
                 match x with
                 | Members items =>
                     (fix each (its out : list (string * value)) {struct its} : list (string * value) :=
                        match its with
                        | [] => out
                        | (name, est) :: its => each its (match est with Estimator _ _ => update out (prefixed name (get_params est)) | _ => out end)
                        end) items (update out items)
                 | _ => out
                 end
               else find r
           end) args
      else out
  | _ => []
  end.

(** the members of a composition *)
Definition members_of (composition : bool) (args : list (string * value)) : list (string * value) :=
  if composition then match lookup args "estimators" with Some (Members items) => items | _ => [] end else [].
(** [valid_params[key]] for a key without "__": an argument or a member *)
Definition child (v : value) (k : string) : option value :=
  match v with
  | Estimator composition args => match lookup args k with Some x => Some x | None => lookup (members_of composition args) k end
  | _ => None
  end.
(** the same object after its [set_params] changed it *)
Definition put (composition : bool) (args : list (string * value)) (k : string) (x : value) : list (string * value) :=
  if member args k then dict_set args k x
  else if member (members_of composition args) k then dict_set args "estimators" (Members (dict_set (members_of composition args) k x))
  else args.

(** ** scikit-learn's BaseEstimator.set_params.  The loop over the parameters: those without "__" are set, the others are grouped. *)
Definition group (nested : list (string * list (string * value))) (k s : string) (w : value) : list (string * list (string * value)) :=
  dict_set nested k (dict_set (match lookup nested k with Some g => g | None => [] end) s w).
Fixpoint assign (valid ps args : list (string * value)) (nested : list (string * list (string * value)))
  : list (string * value) * list (string * list (string * value)) * option error :=
  match ps with
  | [] => (args, nested, None)
  | (key, w) :: r =>
      let (k, sub) := partition key in
      if member valid k then
        match sub with
        | None => assign valid r (dict_set args k w) nested
        | Some s => assign valid r args (group nested k s w)
        end
      else (args, nested, Some ValueError)
  end.
(** the loop over the groups: [valid_params[key].set_params(...)] *)
Fixpoint descend (rec : value -> list (string * value) -> value * option error) (composition : bool) (args : list (string * value))
  (nested : list (string * list (string * value))) : list (string * value) * option error :=
  match nested with
  | [] => (args, None)
  | (k, sub) :: r =>
      match child (Estimator composition args) k with
      | Some x => let (x', e) := rec x sub in
                  match e with Some e => (put composition args k x', Some e) | None => descend rec composition (put composition args k x') r end
      | None => (args, Some ValueError)
      end
  end.
(** ** [BaseComposition._set_params] (_base.py 46-65): the list first, then the members given by name, then scikit-learn's method.
    The loop [for name in params] removes the entry it has just used: the next step of the iteration raises RuntimeError, after
    the member has been replaced ([_replace_estimator], lines 67-74). *)
Definition replace (items : list (string * value)) (name : string) (w : value) : list (string * value) := dict_set items name w.
Definition first_named (items ps : list (string * value)) : option (string * value) :=
  find (fun p => negb (dunder (fst p)) && member items (fst p))%bool ps.

Fixpoint set_params (fuel : nat) (v : value) (ps : list (string * value)) : value * option error :=
  match fuel with
  | O => (v, Some OutOfFuel)
  | S fuel =>
      match v with
      | Estimator composition args =>
          let args := if composition then match lookup ps "estimators" with Some l => dict_set args "estimators" l | None => args end else args in
          let ps := if composition then remove ps "estimators" else ps in
          match first_named (members_of composition args) ps with
          | Some (name, w) =>
              (Estimator composition (dict_set args "estimators" (Members (replace (members_of composition args) name w))), Some RuntimeError)
          | None =>
              match ps with
              | [] => (Estimator composition args, None)
              | _ =>
                  match assign (get_params (Estimator composition args)) ps args [] with
                  | (args, _, Some e) => (Estimator composition args, Some e)
                  | (args, nested, None) =>
                      let (args, e) := descend (set_params fuel) composition args nested in (Estimator composition args, e)
                  end
              end
          end
      | _ => (v, Some AttributeError)
      end
  end.
(** enough fuel: each level removes a "__" from the keys *)
Definition set_params_all (v : value) (ps : list (string * value)) : value * option error :=
  set_params (S (fold_right Nat.max 0 (map (fun p => String.length (fst p)) ps))) v ps.

(** ** [BaseComposition._validate_names], _base.py 76-89; True: no exception *)
Definition validate_names (args : list (string * value)) (names : list string) : bool :=
  (Nat.eqb (List.length (nodup string_dec names)) (List.length names)
   && forallb (fun n => negb (member args n)) names
   && forallb (fun n => negb (dunder n)) names)%bool.
