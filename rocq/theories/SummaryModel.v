(** Model of the summary tables: BasePortfolio.summary (src/skfolio/portfolio/_base.py lines 907-950), Portfolio.summary
    (src/skfolio/portfolio/_portfolio.py lines 821-843), the printed names of the measures
    (src/skfolio/measures/_enums.py lines 17-37) and format_measure / optimal_rounding_decimals (src/skfolio/utils/tools.py
    lines 506-550).  No proofs here.  Numbers are exact reals. *)
From Coq Require Import String Ascii Reals ZArith List Bool Arith.
From Verif Require Import RList MeasuresModel PortfolioModel.
Import ListNotations.
Local Open Scope string_scope.
Local Open Scope list_scope.
Local Open Scope nat_scope.

(** * The printed names *)
Definition code (c : ascii) : nat := nat_of_ascii c.
(** str.upper and str.lower on one ASCII letter *)
Definition up_char (c : ascii) : ascii := if (97 <=? code c) && (code c <=? 122) then ascii_of_nat (code c - 32) else c.
Definition low_char (c : ascii) : ascii := if (65 <=? code c) && (code c <=? 90) then ascii_of_nat (code c + 32) else c.
Fixpoint map_string (f : ascii -> ascii) (s : string) : string :=
  match s with EmptyString => EmptyString | String c s => String (f c) (map_string f s) end.
Definition upper (s : string) : string := map_string up_char s.
Definition lower (s : string) : string := map_string low_char s.
Definition capitalize (s : string) : string := match s with EmptyString => EmptyString | String c s => String (up_char c) (lower s) end.
(** str.split(sep), one character *)
Fixpoint split (sep : ascii) (s : string) : list string :=
  match s with
  | EmptyString => [EmptyString]
  | String c s => if Ascii.eqb c sep then EmptyString :: split sep s
                  else match split sep s with [] => [String c EmptyString] | w :: ws => String c w :: ws end
  end.
(** str.replace(pat, by), pat not empty; the fuel is the length of the string *)
Fixpoint replace_all (fuel : nat) (pat by_ s : string) : string :=
  match fuel, s with
  | O, _ => s
  | _, EmptyString => EmptyString
  | S fuel, String c s' =>
      if prefix pat s then (by_ ++ replace_all fuel pat by_ (substring (String.length pat) (String.length s) s))%string
      else String c (replace_all fuel pat by_ s')
  end.
(** the words, _enums.py lines 19-27 *)
Definition word (w : string) : string :=
  if 3 <? String.length w then capitalize w else if negb (String.length w =? 2) then upper w else lower w.
(** lines 28-31: CVaR and the like; s[-2] in lower case *)
Definition lower_at (i : nat) (s : string) : string :=
  (substring 0 i s ++ lower (substring i 1 s) ++ substring (i + 1) (String.length s) s)%string.
Definition first_word (w : string) : string :=
  let k := String.length w in
  if ((k =? 3) || (k =? 4)) && String.eqb (lower (substring (k - 2) 2 w)) "ar" then lower_at (k - 2) (upper w) else w.
(** BaseMeasure.__repr__ and __str__, _enums.py lines 17-37 *)
Definition label (m : measure) : string :=
  let words := match map word (split "_" (value m)) with [] => [] | w :: ws => first_word w :: ws end in
  let s := String.concat " " words in
  replace_all (String.length s) "Semi " "Semi-" s.

(** * Printed numbers *)
Definition digit (d : Z) : ascii := ascii_of_nat (48 + Z.to_nat d).
Definition single (c : ascii) : string := String c EmptyString.
(** the last [k] digits of a natural number *)
Fixpoint last_digits (k : nat) (z : Z) : string :=
  match k with O => EmptyString | S k => (last_digits k (z / 10) ++ single (digit (z mod 10)))%string end.
(** all the digits; the fuel bounds their number *)
Fixpoint all_digits (fuel : nat) (z : Z) : string :=
  match fuel with
  | O => single (digit (z mod 10))
  | S fuel => if (z <? 10)%Z then single (digit z) else (all_digits fuel (z / 10) ++ single (digit (z mod 10)))%string
  end.
Definition whole (z : Z) : string := all_digits (Z.to_nat (Z.log2 z)) z.

Local Open Scope R_scope.
(** round half to even of a non-negative number *)
Definition nearest (x : R) : Z :=
  let f := Int_part x in
  let d := x - IZR f in
  if Rlt_dec d (1 / 2) then f else if Rlt_dec (1 / 2) d then (f + 1)%Z else if Z.even f then f else (f + 1)%Z.
(** Python's fixed-point format ".{n}f"; ".{n}%" multiplies by one hundred and appends the sign.  Simplified: no negative zero *)
Definition fixed_point (x : R) (n : nat) : string :=
  let u := nearest (Rabs x * 10 ^ n) in
  ((if Rlt_dec x 0 then "-" else EmptyString) ++
   whole (u / 10 ^ Z.of_nat n) ++
   match n with O => EmptyString | S _ => "." ++ last_digits n u end)%string.
Definition fixed_format (x : R) (n : nat) (percent : bool) : string :=
  if percent then (fixed_point (x * 100) n ++ "%")%string else fixed_point x n.

(** * format_measure *)
(** a float: NaN and the infinities told apart *)
Inductive num := Finite (x : R) | Infinite (negative : bool) | NotANumber.
Definition log10 (x : R) : R := ln x / ln 10.
(** int(x): towards zero *)
Definition trunc (x : R) : Z := if Rle_dec 0 x then Int_part x else (- Int_part (- x))%Z.
(** optimal_rounding_decimals, tools.py lines 537-550, of a finite number that is not zero *)
Definition optimal_rounding_decimals (x : R) : Z := Z.min 6 (Z.max (trunc (- log10 (Rabs x)) + 2) 2).
(** format_measure, tools.py lines 506-534; None is the OverflowError of int(-np.log10(inf)) *)
Definition format_measure (x : num) (percent : bool) : option string :=
  match x with
  | NotANumber => Some "nan"%string
  | Infinite _ => None
  | Finite x =>
      let xn := if percent then x * 100 else x in
      let n := if Req_EM_T xn 0 then 0%Z else optimal_rounding_decimals xn in
      Some (fixed_format x (Z.to_nat n) percent)
  end.

(** * The tables *)
Inductive cell := Text (s : string) | Number (x : num).
(** summary[key] = value of a Python dict, and df[key] = value of a Series *)
Fixpoint put (d : list (string * cell)) (k : string) (v : cell) : list (string * cell) :=
  match d with
  | [] => [(k, v)]
  | (k', v') :: d => if String.eqb k' k then (k', v) :: d else (k', v') :: put d k v
  end.
(** _base.py lines 938-944 *)
Definition percent (m : measure) : bool :=
  match class_of m, m with Ratio, _ => false | _, (ENTROPIC_RISK_MEASURE | ULCER_INDEX) => false | _, _ => true end.

Section Summary.
Variable partition : list R -> nat -> list R.
Variable sort : list R -> list R.
Variable solver : (R -> R) -> R -> R.
(** lines 929-937; getattr of an attribute that does not exist is AttributeError *)
Definition key (p : portfolio) (m : measure) : string :=
  let base := match class_of m with Ratio => linked_risk_measure m | _ => Some m end in
  match base with
  | None => label m
  | Some b => match getattr_arg p (value b ++ "_beta")%string with
              | (_, Some (VNum beta)) => (label m ++ " at " ++ fixed_format beta 0 true)%string
              | _ => label m
              end
  end.
(** The value None of PortfolioModel.v (NaN or infinity) as a float: a ratio (line 782) with finite terms is infinite when only
    its denominator is zero; everything else is NaN.  Simplified: the sign of a zero denominator. *)
Definition as_float (p : portfolio) (m : measure) (v : option R) : num :=
  match v with
  | Some x => Finite x
  | None =>
      match class_of m, linked_risk_measure m with
      | Ratio, Some k =>
          match read_function partition sort solver p (if is_annualized m then ANNUALIZED_MEAN else MEAN), read_function partition sort solver p k with
          | (_, Some (Some mu)), (_, Some (Some _)) =>
              let e := mu - risk_free_rate (at_ p) in
              if Rlt_dec 0 e then Infinite false else if Rlt_dec e 0 then Infinite true else NotANumber
          | _, _ => NotANumber
          end
      | _, _ => NotANumber
      end
  end.
(** the loop, lines 927-949; None is an exception *)
Fixpoint loop (formatted : bool) (p : portfolio) (ms : list measure) (d : list (string * cell)) : portfolio * option (list (string * cell)) :=
  match ms with
  | [] => (p, Some d)
  | m :: ms =>
      match read_measure partition sort solver p m with
      | (p, None) => (p, None)
      | (p, Some v) =>
          let x := as_float p m v in
          if formatted
          then match format_measure x (percent m) with
               | None => (p, None)
               | Some s => loop formatted p ms (put d (key p m) (Text s))
               end
          else loop formatted p ms (put d (key p m) (Number x))
      end
  end.
(** BasePortfolio.summary *)
Definition base_summary (p : portfolio) (formatted : bool) : portfolio * option (list (string * cell)) := loop formatted p measures [].

Variable repr : R -> string.  (* str of a float *)
(** Portfolio.summary with n_assets and effective_number_assets (_portfolio.py line 726, MeasuresModel.v) *)
Definition summary (p : portfolio) (weights : list R) (formatted : bool) : portfolio * option (list (string * cell)) :=
  match base_summary p formatted with
  | (p, None) => (p, None)
  | (p, Some d) =>
      let effective := effective_number_assets weights in
      let number := length weights in
      let d := put d "Effective Number of Assets" (if formatted then Text (repr effective) else Number (Finite effective)) in
      (p, Some (put d "Assets Number" (if formatted then Text (whole (Z.of_nat number)) else Number (Finite (INR number)))))
  end.
End Summary.
