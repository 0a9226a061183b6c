(** Finite sums of reals over lists: general lemmas used across the numeric models. *)
From Coq Require Import Reals Lra Lia List Permutation Sorting.Sorted.
Import ListNotations.
Local Open Scope R_scope.

Definition rsum (l : list R) : R := fold_right Rplus 0 l.
Definition sum_over {A} (l : list A) (f : A -> R) : R := rsum (map f l).

Lemma rsum_nil : rsum [] = 0. Proof. reflexivity. Qed.
Lemma rsum_cons x l : rsum (x :: l) = x + rsum l. Proof. reflexivity. Qed.
Lemma rsum_app a b : rsum (a ++ b) = rsum a + rsum b.
Proof. induction a as [|x a IH]; cbn [app]; rewrite ?rsum_cons, ?rsum_nil; [lra|]. rewrite IH. lra. Qed.
Lemma rsum_perm a b : Permutation a b -> rsum a = rsum b.
Proof. induction 1; rewrite ?rsum_cons; lra. Qed.
Lemma rsum_rev l : rsum (rev l) = rsum l.
Proof. apply rsum_perm. symmetry. apply Permutation_rev. Qed.

Lemma so_nil {A} (f : A -> R) : sum_over [] f = 0. Proof. reflexivity. Qed.
Lemma so_cons {A} (f : A -> R) x l : sum_over (x :: l) f = f x + sum_over l f. Proof. reflexivity. Qed.
Lemma so_app {A} (f : A -> R) a b : sum_over (a ++ b) f = sum_over a f + sum_over b f.
Proof. unfold sum_over. rewrite map_app. apply rsum_app. Qed.
Lemma so_perm {A} (f : A -> R) a b : Permutation a b -> sum_over a f = sum_over b f.
Proof. intros H. apply rsum_perm. apply Permutation_map. exact H. Qed.
Lemma so_add {A} (f g : A -> R) l : sum_over l (fun x => f x + g x) = sum_over l f + sum_over l g.
Proof. induction l as [|x l IH]; rewrite ?so_nil, ?so_cons; [lra|]. rewrite IH. lra. Qed.
Lemma so_sub {A} (f g : A -> R) l : sum_over l (fun x => f x - g x) = sum_over l f - sum_over l g.
Proof. induction l as [|x l IH]; rewrite ?so_nil, ?so_cons; [lra|]. rewrite IH. lra. Qed.
Lemma so_scal {A} c (f : A -> R) l : sum_over l (fun x => c * f x) = c * sum_over l f.
Proof. induction l as [|x l IH]; rewrite ?so_nil, ?so_cons; [lra|]. rewrite IH. lra. Qed.
Lemma so_scal_r {A} c (f : A -> R) l : sum_over l (fun x => f x * c) = sum_over l f * c.
Proof. induction l as [|x l IH]; rewrite ?so_nil, ?so_cons; [lra|]. rewrite IH. lra. Qed.
Lemma so_opp {A} (f : A -> R) l : sum_over l (fun x => - f x) = - sum_over l f.
Proof. induction l as [|x l IH]; rewrite ?so_nil, ?so_cons; [lra|]. rewrite IH. lra. Qed.
Lemma so_const {A} c (l : list A) : sum_over l (fun _ => c) = INR (length l) * c.
Proof.
  induction l as [|x l IH]; rewrite ?so_nil, ?so_cons; cbn [length]; [cbn; lra|].
  rewrite IH, S_INR. lra.
Qed.
Lemma so_ext {A} (f g : A -> R) l : (forall x, In x l -> f x = g x) -> sum_over l f = sum_over l g.
Proof. intros H. unfold sum_over. f_equal. apply map_ext_in. exact H. Qed.
Lemma so_le {A} (f g : A -> R) l : (forall x, In x l -> f x <= g x) -> sum_over l f <= sum_over l g.
Proof.
  induction l as [|x l IH]; intros H; rewrite ?so_nil, ?so_cons; [lra|].
  assert (f x <= g x) by (apply H; left; auto). assert (sum_over l f <= sum_over l g) by (apply IH; intros; apply H; right; auto). lra.
Qed.
Lemma so_nonneg {A} (f : A -> R) l : (forall x, In x l -> 0 <= f x) -> 0 <= sum_over l f.
Proof. intros H. replace 0 with (sum_over l (fun _ => 0)) by (rewrite so_const; lra). apply so_le. exact H. Qed.
Lemma so_zero {A} (f : A -> R) l : (forall x, In x l -> f x = 0) -> sum_over l f = 0.
Proof. intros H. rewrite (so_ext f (fun _ => 0)) by exact H. rewrite so_const. lra. Qed.
Lemma so_map {A B} (g : A -> B) (f : B -> R) l : sum_over (map g l) f = sum_over l (fun x => f (g x)).
Proof. unfold sum_over. rewrite map_map. reflexivity. Qed.
Lemma so_id l : sum_over l (fun x => x) = rsum l.
Proof. unfold sum_over. rewrite map_id. reflexivity. Qed.
Lemma so_swap {A B} (f : A -> B -> R) la lb :
  sum_over la (fun a => sum_over lb (f a)) = sum_over lb (fun b => sum_over la (fun a => f a b)).
Proof.
  induction la as [|a la IH].
  - rewrite so_nil. symmetry. apply so_zero. intros; apply so_nil.
  - rewrite so_cons, IH, <- so_add. apply so_ext. intros b _. rewrite so_cons. reflexivity.
Qed.
Lemma so_ge_elem {A} (f : A -> R) l x : (forall y, In y l -> 0 <= f y) -> In x l -> f x <= sum_over l f.
Proof.
  induction l as [|y l IH]; intros Hn Hx; [destruct Hx|]. rewrite so_cons.
  assert (0 <= f y) by (apply Hn; left; auto).
  assert (0 <= sum_over l f) by (apply so_nonneg; intros; apply Hn; right; auto).
  destruct Hx as [->|Hx]; [lra|]. assert (f x <= sum_over l f) by (apply IH; auto; intros; apply Hn; right; auto). lra.
Qed.
Lemma so_abs {A} (f : A -> R) l : Rabs (sum_over l f) <= sum_over l (fun x => Rabs (f x)).
Proof.
  induction l as [|x l IH]; rewrite ?so_nil, ?so_cons; [rewrite Rabs_R0; lra|].
  eapply Rle_trans; [apply Rabs_triang|]. lra.
Qed.
Lemma so_nonneg_zero {A} (f : A -> R) l : (forall x, In x l -> 0 <= f x) -> sum_over l f = 0 -> forall x, In x l -> f x = 0.
Proof.
  intros Hn Hz x Hx. pose proof (so_ge_elem f l x Hn Hx). pose proof (Hn x Hx). lra.
Qed.

(** Cauchy-Schwarz *)
Lemma so_cauchy {A} (f g : A -> R) l :
  (sum_over l (fun x => f x * g x)) ^ 2 <= sum_over l (fun x => f x ^ 2) * sum_over l (fun x => g x ^ 2).
Proof.
  set (a := sum_over l (fun x => f x ^ 2)). set (b := sum_over l (fun x => f x * g x)). set (c := sum_over l (fun x => g x ^ 2)).
  assert (Hq: forall t, 0 <= a * t^2 - 2 * b * t + c).
  { intros t. replace (a * t^2 - 2 * b * t + c) with (sum_over l (fun x => (t * f x - g x)^2)).
    - apply so_nonneg. intros. apply pow2_ge_0.
    - unfold a, b, c. rewrite (so_ext _ (fun x => (f x ^ 2 * t^2 - (f x * g x) * (2 * t)) + g x ^2)) by (intros; ring).
      rewrite so_add, so_sub, !so_scal_r. ring. }
  assert (Ha: 0 <= a) by (apply so_nonneg; intros; apply pow2_ge_0).
  assert (Hc: 0 <= c) by (apply so_nonneg; intros; apply pow2_ge_0).
  destruct (Req_dec a 0) as [Ea|Ea].
  - assert (Hb: b = 0).
    { destruct (Req_dec b 0) as [E|E]; auto. exfalso. specialize (Hq ((c + 1) / (2 * b))).
      replace (a * ((c+1)/(2*b))^2 - 2 * b * ((c + 1) / (2 * b)) + c) with (-1) in Hq; [lra|]. rewrite Ea. field. exact E. }
    rewrite Hb, Ea. lra.
  - specialize (Hq (b / a)).
    replace (a * (b/a)^2 - 2 * b * (b/a) + c) with ((a * c - b^2) / a) in Hq by (field; exact Ea).
    assert (0 <= a * c - b^2); [|lra].
    replace (a * c - b^2) with (((a * c - b^2) / a) * a) by (field; exact Ea). apply Rmult_le_pos; lra.
Qed.

Lemma so_mean_sq {A} (f : A -> R) l : (sum_over l f)^2 <= INR (length l) * sum_over l (fun x => f x ^ 2).
Proof.
  pose proof (so_cauchy f (fun _ => 1) l) as H.
  rewrite (so_ext (fun x => f x * 1) f) in H by (intros; ring).
  rewrite (so_const (1^2)) in H. lra.
Qed.

Lemma INR_pos n : (0 < n)%nat -> 0 < INR n. Proof. intros; apply lt_0_INR; auto. Qed.
Lemma INR_ge1 n : (1 <= n)%nat -> 1 <= INR n. Proof. intros H; apply le_INR in H; exact H. Qed.
