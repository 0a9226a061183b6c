(** Glue to use the standard ring and field tactics on mathcomp ordered fields: identities are stated with the operations below, which
    are the mathcomp ones by definition.  Each section declares [Add Field name : (fth F)]. *)
From mathcomp Require Import all_ssreflect all_algebra.
Require Import Ring Field.
Set Implicit Arguments.
Unset Strict Implicit.
Unset Printing Implicit Defensive.
Import Order.TTheory GRing.Theory Num.Theory.
Local Open Scope ring_scope.
Section Ops.
Variable F : realFieldType.
Definition fT : Type := F.
Definition fz : fT := (0 : F). Definition fo : fT := (1 : F).
Definition fa (x y : fT) : fT := (x : F) + y.
Definition fm (x y : fT) : fT := (x : F) * y.
Definition fs (x y : fT) : fT := (x : F) - y.
Definition fn (x : fT) : fT := - (x : F).
Definition fd (x y : fT) : fT := (x : F) / y.
Definition fi (x : fT) : fT := (x : F)^-1.
Lemma rth : @ring_theory fT fz fo fa fm fs fn eq.
Proof.
split; rewrite /fz /fo /fa /fm /fs /fn => *; rewrite ?add0r ?mul1r ?mulrDl ?subrr ?mulrA ?addrA //; [apply: addrC|apply: mulrC].
Qed.
Lemma fth : @field_theory fT fz fo fa fm fs fn fd fi eq.
Proof.
split; first exact rth; rewrite /fz /fo /fa /fm /fs /fn /fd /fi //.
  by move/eqP; rewrite oner_eq0.
by move=> p /eqP H; rewrite mulVf.
Qed.
End Ops.
Declare Scope fr_scope.
Delimit Scope fr_scope with fr.
Notation "x + y" := (@fa _ x y) : fr_scope.
Notation "x * y" := (@fm _ x y) : fr_scope.
Notation "x - y" := (@fs _ x y) : fr_scope.
Notation "- x" := (@fn _ x) : fr_scope.
Notation "x / y" := (@fd _ x y) : fr_scope.
Notation "x ^-1" := (@fi _ x) : fr_scope.
Notation "0" := (@fz _) : fr_scope.
Notation "1" := (@fo _) : fr_scope.
Section Test.
Variable F : realFieldType.
Add Field ftest : (fth F).
Lemma field_test (a b c d : fT F) : b <> 0%fr -> ((a * (b + c) * d - a * b * d) / b = d * a * c * b^-1)%fr.
Proof. move=> H; field; exact H. Qed.
Lemma field_use (a b c d : F) : b != 0 -> (a * (b + c) * d - a * b * d) / b = d * a * c * b^-1.
Proof. move=> /eqP H; exact: (@field_test a b c d H). Qed.
End Test.
