(** Symmetric matrices and quadratic forms over an ordered field: small specification vocabulary and its lemmas. *)
From mathcomp Require Import all_ssreflect all_algebra.
Set Implicit Arguments.
Unset Strict Implicit.
Unset Printing Implicit Defensive.
Import Order.TTheory GRing.Theory Num.Theory.
Local Open Scope ring_scope.

Section Spec.
Variable F : realFieldType.
Definition symmetric n (S : 'M[F]_n) : Prop := forall i j, S i j = S j i.
(** x' S x *)
Definition form n (S : 'M[F]_n) (x : 'cV[F]_n) : F := (x^T *m S *m x) 0 0.
Definition positive n (S : 'M[F]_n) : Prop := forall x, x != 0 -> 0 < form S x.
Definition nonnegative n (S : 'M[F]_n) : Prop := forall x, 0 <= form S x.
End Spec.

(** * Lemmas *)
Section Lemmas.
Variable F : realFieldType.
Lemma trD m n (A B : 'M[F]_(m, n)) : (A + B)^T = A^T + B^T.
Proof. by apply/matrixP=> i j; rewrite !mxE. Qed.
Lemma addE m n (A B : 'M[F]_(m, n)) i j : (A + B) i j = A i j + B i j.
Proof. by rewrite mxE. Qed.
Lemma sym_tr n (S : 'M[F]_n) : symmetric S -> S^T = S.
Proof. by move=> H; apply/matrixP=> i j; rewrite mxE H. Qed.
Lemma tr_sym n (S : 'M[F]_n) : S^T = S -> symmetric S.
Proof. by move=> H i j; rewrite -{1}H mxE. Qed.
Lemma positive_unit n (S : 'M[F]_n) : positive S -> S \in unitmx.
Proof.
move=> H; rewrite -row_free_unit -kermx_eq0; apply/negPn/negP=> /negP K.
have /rowV0Pn [v vk v0] : kermx S != 0 by apply/negP.
have E : v *m S = 0 by apply/sub_kermxP.
have := H v^T; rewrite /form trmxK E mul0mx mxE ltxx => H1.
have H2 : v^T != 0 by rewrite -trmx0 (inj_eq trmx_inj).
by have := H1 H2.
Qed.
Lemma positive_nonneg n (S : 'M[F]_n) : positive S -> nonnegative S.
Proof. move=> H x; case: (eqVneq x 0) => [->|X]; last by apply/ltW/H. by rewrite /form mulmx0 mxE. Qed.
Lemma form_add n (S T : 'M[F]_n) x : form (S + T) x = form S x + form T x.
Proof. by rewrite /form mulmxDr mulmxDl mxE. Qed.
Lemma form_sub n (S T : 'M[F]_n) x : form (S - T) x = form S x - form T x.
Proof. by rewrite /form mulmxBr mulmxBl !mxE. Qed.
Lemma form_scale n (S : 'M[F]_n) (a : F) x : form (a *: S) x = a * form S x.
Proof. by rewrite /form -scalemxAr -scalemxAl mxE. Qed.
Lemma form_congr n k (S : 'M[F]_n) (P : 'M[F]_(k, n)) x : form (P *m S *m P^T) x = form S (P^T *m x).
Proof. by rewrite /form trmx_mul trmxK !mulmxA. Qed.
Lemma form_zero n (S : 'M[F]_n) : form S 0 = 0.
Proof. by rewrite /form mulmx0 mxE. Qed.
Lemma form_opp n (S : 'M[F]_n) x : form S (- x) = form S x.
Proof. rewrite /form; have -> : (- x)^T = - x^T by apply/matrixP=> i j; rewrite !mxE. by rewrite !mulNmx mulmxN opprK. Qed.
Lemma scalar_tr (x : 'M[F]_1) : x^T = x.
Proof. by apply/matrixP=> i j; rewrite mxE !ord1. Qed.
Lemma scalar_eq (x y : 'M[F]_1) : x 0 0 = y 0 0 -> x = y.
Proof. by move=> H; apply/matrixP=> i j; rewrite !ord1. Qed.
Lemma form_cross n (S : 'M[F]_n) (x y : 'cV[F]_n) : symmetric S -> (x^T *m S *m y) 0 0 = (y^T *m S *m x) 0 0.
Proof. move=> /sym_tr H; rewrite -(scalar_tr (y^T *m S *m x)) !trmx_mul trmxK H. by rewrite !mulmxA. Qed.
Lemma form_sum n (S : 'M[F]_n) (x y : 'cV[F]_n) : symmetric S -> form S (x + y) = form S x + 2%:R * (x^T *m S *m y) 0 0 + form S y.
Proof.
move=> H; rewrite /form trD !mulmxDl !mulmxDr !addE (form_cross y x H).
by rewrite mulr_natl mulr2n !addrA.
Qed.
Lemma inv_form n (S : 'M[F]_n) : symmetric S -> S \in unitmx -> symmetric (invmx S) /\ forall x, form (invmx S) x = form S (invmx S *m x).
Proof.
move=> /sym_tr H U; have I : (invmx S)^T = invmx S by rewrite trmx_inv H.
split; first by apply: tr_sym.
by move=> x; rewrite /form trmx_mul I !mulmxA mulmxKV.
Qed.
Lemma positive_inv n (S : 'M[F]_n) : symmetric S -> positive S -> positive (invmx S).
Proof.
move=> H P x X; have U := positive_unit P; have [_ ->] := inv_form H U; apply: P.
apply/negP=> /eqP E; move/negP: X; apply; apply/eqP; by rewrite -(mulKVmx U x) E mulmx0.
Qed.
Lemma nonneg_inv n (S : 'M[F]_n) : symmetric S -> S \in unitmx -> nonnegative S -> nonnegative (invmx S).
Proof. by move=> H U N x; have [_ ->] := inv_form H U. Qed.
Lemma diag_form k (d : 'I_k -> F) (x : 'cV[F]_k) : form (\matrix_(i, j) (if i == j then d i else 0)) x = \sum_i d i * x i 0 ^+ 2.
Proof.
rewrite /form mxE; apply: eq_bigr => j _; rewrite mxE (bigD1 j) //= big1 => [|i /negbTE N]; last by rewrite !mxE N mulr0.
by rewrite !mxE eqxx addr0 expr2 mulrA; congr (_ * _); rewrite mulrC.
Qed.
Lemma diag_positive k (d : 'I_k -> F) : (forall i, 0 < d i) -> positive (\matrix_(i, j) (if i == j then d i else 0)).
Proof.
move=> H x X; rewrite diag_form.
have [i Xi] : exists i, x i 0 != 0.
  case: (pickP (fun i => x i 0 != 0)) => [i Hi|A]; first by exists i.
  move/negP: X; case; apply/eqP/matrixP=> i j; rewrite !ord1 mxE; apply/eqP; have := A i; by move/negbFE.
rewrite (bigD1 i) //=; apply: ltr_paddr.
  by apply: sumr_ge0 => l _; apply: mulr_ge0; rewrite ?sqr_ge0 ?ltW.
by apply: mulr_gt0 => //; rewrite lt_def sqr_ge0 andbT sqrf_eq0.
Qed.
Lemma diag_nonneg k (d : 'I_k -> F) : (forall i, 0 <= d i) -> nonnegative (\matrix_(i, j) (if i == j then d i else 0)).
Proof. by move=> H x; rewrite diag_form; apply: sumr_ge0 => l _; apply: mulr_ge0; rewrite ?sqr_ge0. Qed.
Lemma diag_sym k (d : 'I_k -> F) : symmetric (\matrix_(i, j) (if i == j then d i else 0)).
Proof. move=> i j; rewrite !mxE eq_sym; by case: eqP => // ->. Qed.
End Lemmas.

