(** C73: Kendall's tau, pseudo-observations and the empirical tail concentration are statistics of the ranks. *)
From Coq Require Import Bool Reals List Lra Lia Arith Psatz Permutation.
From Verif Require Import RList CopulaModel CopulaFitModel.
Import ListNotations.
Local Open Scope R_scope.

(** * Specification *)
(** +1, -1 or 0: how the second number compares with the first. *)
Definition order (a b : R) : R := if Rlt_dec a b then 1 else if Rlt_dec b a then -1 else 0.
(** A column that is not constant. *)
Definition varies (l : list R) : Prop := exists a b, In a l /\ In b l /\ a <> b.
(** Sums over all the ordered pairs of observations. *)
Definition double (X : list (R * R)) (f : R * R -> R * R -> R) : R := sum_over X (fun p => sum_over X (f p)).
(** Kendall's tau-b. *)
Definition tau_b (X : list (R * R)) : R :=
  double X (fun p q => order (fst p) (fst q) * order (snd p) (snd q))
  / sqrt (double X (fun p q => order (fst p) (fst q) ^ 2) * double X (fun p q => order (snd p) (snd q) ^ 2)).
(** f is strictly increasing on the values of a column. *)
Definition increasing_on (f : R -> R) (l : list R) : Prop := forall a b, In a l -> In b l -> a < b -> f a < f b.
Definition flip (p : R * R) : R * R := (snd p, fst p).

(** * Lemmas *)
Lemma order_sgn a b : sgn (a - b) = - order a b.
Proof. unfold sgn, order. repeat destruct (Rlt_dec _ _); lra. Qed.
Lemma order_sym a b : order b a = - order a b.
Proof. unfold order. repeat destruct (Rlt_dec _ _); lra. Qed.
Lemma order_same a : order a a = 0.
Proof. unfold order. repeat destruct (Rlt_dec _ _); lra. Qed.
Lemma order_sq a b : order a b ^ 2 = if Req_EM_T a b then 0 else 1.
Proof. unfold order. repeat destruct (Rlt_dec _ _); destruct (Req_EM_T a b); lra. Qed.
Lemma order_values a b : order a b = 1 \/ order a b = 0 \/ order a b = -1.
Proof. unfold order. repeat destruct (Rlt_dec _ _); lra. Qed.
Lemma order_incr f l a b : increasing_on f l -> In a l -> In b l -> order (f a) (f b) = order a b.
Proof.
  intros H A B. unfold order. destruct (Rlt_dec a b) as [L|L].
  - specialize (H a b A B L). destruct (Rlt_dec (f a) (f b)); lra.
  - destruct (Rlt_dec b a) as [G|G].
    + specialize (H b a B A G). destruct (Rlt_dec (f a) (f b)); [lra|]. destruct (Rlt_dec (f b) (f a)); lra.
    + assert (a = b) by lra. subst b. destruct (Rlt_dec (f a) (f a)); [lra|reflexivity].
Qed.

Lemma over_pairs_double f X : (forall p q, f p q = f q p) -> (forall p, f p p = 0) -> double X f = 2 * over_pairs f X.
Proof.
  intros S Z. unfold double, over_pairs. change (CopulaFitModel.rsum) with (RList.rsum).
  induction X as [|p X IH]; [cbn; lra|]. cbn [pairs]. rewrite map_app, map_map, rsum_app. cbn [fst snd].
  change (RList.rsum (map (fun x => f p x) X)) with (sum_over X (f p)). rewrite so_cons.
  assert (E : sum_over X (fun q => sum_over (p :: X) (f q)) = sum_over X (f p) + sum_over X (fun q => sum_over X (f q))).
  { rewrite <- so_add. apply so_ext. intros q _. rewrite so_cons. now rewrite S. }
  rewrite E, so_cons, Z, IH. lra.
Qed.
Lemma tau_pairs X :
  over_pairs (fun p q => sgn (fst p - fst q) * sgn (snd p - snd q)) X = double X (fun p q => order (fst p) (fst q) * order (snd p) (snd q)) / 2 /\
  over_pairs (fun p q => if Req_EM_T (fst p) (fst q) then 0 else 1) X = double X (fun p q => order (fst p) (fst q) ^ 2) / 2 /\
  over_pairs (fun p q => if Req_EM_T (snd p) (snd q) then 0 else 1) X = double X (fun p q => order (snd p) (snd q) ^ 2) / 2.
Proof.
  assert (E : forall f g, (forall p q, f p q = g p q) -> over_pairs f X = over_pairs g X).
  { intros f g H. unfold over_pairs. f_equal. apply map_ext. intros [p q]. apply H. }
  repeat split.
  - rewrite (E _ (fun p q => order (fst p) (fst q) * order (snd p) (snd q))) by (intros; rewrite !order_sgn; ring).
    rewrite over_pairs_double; [lra| |intros; rewrite order_same; ring].
    intros p q. rewrite (order_sym (fst q)), (order_sym (snd q)). ring.
  - rewrite (E _ (fun p q => order (fst p) (fst q) ^ 2)) by (intros; now rewrite order_sq).
    rewrite over_pairs_double; [lra| |intros; rewrite order_same; ring]. intros p q. rewrite (order_sym (fst q)). ring.
  - rewrite (E _ (fun p q => order (snd p) (snd q) ^ 2)) by (intros; now rewrite order_sq).
    rewrite over_pairs_double; [lra| |intros; rewrite order_same; ring]. intros p q. rewrite (order_sym (snd q)). ring.
Qed.
Lemma double_nonneg X f : (forall p q, 0 <= f p q) -> 0 <= double X f.
Proof. intros H. apply so_nonneg. intros p _. apply so_nonneg. intros q _. apply H. Qed.
Lemma double_zero X f : (forall p q, 0 <= f p q) -> double X f = 0 -> forall p q, In p X -> In q X -> f p q = 0.
Proof.
  intros H Z p q P Q. assert (Zp : sum_over X (f p) = 0).
  { apply (so_nonneg_zero (fun p => sum_over X (f p)) X); auto. intros r _. apply so_nonneg. auto. }
  apply (so_nonneg_zero (f p) X); auto.
Qed.
Lemma varies_double (g : R * R -> R) X : varies (map g X) <-> 0 < double X (fun p q => order (g p) (g q) ^ 2).
Proof.
  assert (N : forall p q : R * R, 0 <= order (g p) (g q) ^ 2) by (intros; apply pow2_ge_0).
  split.
  - intros [a [b [A [B D]]]]. apply in_map_iff in A. apply in_map_iff in B. destruct A as [p [<- P]]. destruct B as [q [<- Q]].
    destruct (Req_dec (double X (fun p q => order (g p) (g q) ^ 2)) 0) as [Z|Z].
    + pose proof (double_zero _ _ N Z p q P Q) as K. cbv beta in K. rewrite order_sq in K. destruct (Req_EM_T (g p) (g q)); [congruence|lra].
    + pose proof (double_nonneg X _ N). lra.
  - intros H. destruct X as [|p X]; [cbn in H; unfold double in H; cbn in H; lra|].
    assert (K : (exists q, In q (p :: X) /\ g q <> g p) \/ forall q, In q (p :: X) -> g q = g p).
    { clear H. generalize (p :: X). intros Y. induction Y as [|y Y [[q [Q D]]|A]]; [right; intros q []|left; exists q; split; [now right|exact D]|].
      destruct (Req_dec (g y) (g p)); [right; intros q [<-|Q]; auto|left; exists y; split; [now left|auto]]. }
    destruct K as [[q [Q D]]|A].
    + exists (g q), (g p). split; [now apply in_map|]. split; [apply in_map; now left|exact D].
    + assert (Z : double (p :: X) (fun p q => order (g p) (g q) ^ 2) = 0); [|lra].
      unfold double. apply so_zero. intros r Hr. apply so_zero. intros q Hq. rewrite (A r Hr), (A q Hq), order_same. ring.
Qed.

(** * Theorems *)
(** The statistic is Kendall's tau-b, and is NaN exactly when a column is constant. *)
Theorem C73_tau : forall X,
  (varies (map fst X) /\ varies (map snd X) -> kendalltau X = Some (tau_b X)) /\
  (~ varies (map fst X) \/ ~ varies (map snd X) -> kendalltau X = None).
Proof.
  intros X. destruct (tau_pairs X) as [E1 [E2 E3]]. unfold kendalltau. rewrite E1, E2, E3. rewrite (varies_double fst), (varies_double snd). unfold tau_b.
  set (S := double X (fun p q => order (fst p) (fst q) * order (snd p) (snd q))).
  pose proof (double_nonneg X (fun p q => order (fst p) (fst q) ^ 2) (fun p q => pow2_ge_0 _)) as Nx.
  pose proof (double_nonneg X (fun p q => order (snd p) (snd q) ^ 2) (fun p q => pow2_ge_0 _)) as Ny. revert Nx Ny.
  generalize (double X (fun p q => order (fst p) (fst q) ^ 2)). generalize (double X (fun p q => order (snd p) (snd q) ^ 2)). intros a b Nb Na. clear E1 E2 E3. split.
  - intros [Hb Ha]. destruct (Req_EM_T (b / 2) 0); [lra|]. destruct (Req_EM_T (a / 2) 0); [lra|]. f_equal.
    unfold Rdiv at 1 2. rewrite Rmult_assoc, <- Rinv_mult, <- sqrt_mult by lra.
    replace (b / 2 * (a / 2)) with ((1/2 * (1/2)) * (b * a)) by field. rewrite sqrt_mult by nra. rewrite sqrt_square by lra.
    assert (0 < sqrt (b * a)) by (apply sqrt_lt_R0; nra). field. lra.
  - intros H. destruct (Req_EM_T (b / 2) 0); [reflexivity|]. destruct (Req_EM_T (a / 2) 0); [reflexivity|]. lra.
Qed.

Lemma flat (X : list (R * R)) f : double X f = sum_over (list_prod X X) (fun pq => f (fst pq) (snd pq)).
Proof.
  unfold double. generalize X at 2 4. intros Y. induction X as [|p X IH]; [reflexivity|]. cbn [list_prod]. rewrite so_app, so_map, so_cons, IH. reflexivity.
Qed.
(** Between -1 and 1; the bounds are reached exactly when the two columns order the observations in the same way, or in opposite ways. *)
Theorem C73_range : forall X t, kendalltau X = Some t ->
  -1 <= t <= 1 /\
  (t = 1 <-> forall p q, In p X -> In q X -> (fst p < fst q <-> snd p < snd q)) /\
  (t = -1 <-> forall p q, In p X -> In q X -> (fst p < fst q <-> snd q < snd p)).
Proof.
  intros X t H.
  assert (V : varies (map fst X) /\ varies (map snd X)).
  { destruct (C73_tau X) as [_ N]. destruct (Classical_Prop.classic (varies (map fst X))); [|rewrite N in H by tauto; discriminate].
    destruct (Classical_Prop.classic (varies (map snd X))); [tauto|rewrite N in H by tauto; discriminate]. }
  destruct (C73_tau X) as [D _]. rewrite (D V) in H. injection H as <-. clear D. destruct V as [Va Vb].
  apply (varies_double fst) in Va. apply (varies_double snd) in Vb. unfold tau_b.
  set (S := double X (fun p q => order (fst p) (fst q) * order (snd p) (snd q))).
  set (a := double X (fun p q => order (fst p) (fst q) ^ 2)) in *. set (b := double X (fun p q => order (snd p) (snd q) ^ 2)) in *.
  assert (C : S ^ 2 <= a * b) by (unfold S, a, b; rewrite !flat; apply (so_cauchy (fun pq => order (fst (fst pq)) (fst (snd pq))) (fun pq => order (snd (fst pq)) (snd (snd pq))))).
  (* S is at most each of a and b in absolute value *)
  assert (Bd : forall s, (s = 1 \/ s = -1) -> s * S <= a /\ s * S <= b /\
    (s * S = a /\ s * S = b <-> forall p q, In p X -> In q X -> order (snd p) (snd q) = s * order (fst p) (fst q))).
  { intros s Hs.
    assert (Sa : s * S <= a).
    { unfold S, a, double. rewrite <- so_scal. apply so_le. intros p _. rewrite <- so_scal. apply so_le. intros q _.
      destruct (order_values (fst p) (fst q)) as [E|[E|E]]; destruct (order_values (snd p) (snd q)) as [G|[G|G]]; rewrite E, G; destruct Hs; subst s; lra. }
    assert (Sb : s * S <= b).
    { unfold S, b, double. rewrite <- so_scal. apply so_le. intros p _. rewrite <- so_scal. apply so_le. intros q _.
      destruct (order_values (fst p) (fst q)) as [E|[E|E]]; destruct (order_values (snd p) (snd q)) as [G|[G|G]]; rewrite E, G; destruct Hs; subst s; lra. }
    split; [exact Sa|]. split; [exact Sb|]. split.
    - intros [Ea Eb] p q P Q.
      assert (Z : double X (fun p q => (order (snd p) (snd q) - s * order (fst p) (fst q)) ^ 2) = 0).
      { transitivity (b - 2 * (s * S) + a); [|lra]. unfold a, b, S, double. rewrite <- !so_scal. rewrite <- so_sub, <- so_add. apply so_ext. intros x _.
        rewrite <- !so_scal. rewrite <- so_sub, <- so_add. apply so_ext. intros y _. destruct Hs; subst s; ring. }
      pose proof (double_zero X _ (fun p q => pow2_ge_0 _) Z p q P Q) as K. cbv beta in K. nra.
    - intros A. unfold S, a, b, double. rewrite <- !so_scal. split; apply so_ext; intros p P; rewrite <- !so_scal; apply so_ext; intros q Q;
      rewrite (A p q P Q); destruct Hs; subst s; ring. }
  assert (P0 : 0 < sqrt (a * b)) by (apply sqrt_lt_R0; nra).
  assert (Q0 : sqrt (a * b) * sqrt (a * b) = a * b) by (apply sqrt_sqrt; nra).
  assert (Rg : Rabs S <= sqrt (a * b)).
  { apply Rsqr_incr_0_var; [|lra]. rewrite <- Rsqr_abs. unfold Rsqr. nra. }
  (* S / sqrt (ab) = s exactly when sS = a = b *)
  assert (Eq : forall s, (s = 1 \/ s = -1) -> (S / sqrt (a * b) = s <-> s * S = a /\ s * S = b)).
  { intros s Hs. destruct (Bd s Hs) as [Sa [Sb _]]. split.
    - intros E. assert (ES : s * S = sqrt (a * b)).
      { assert (S = s * sqrt (a * b)) as -> by (rewrite <- E; field; lra). destruct Hs; subst s; ring. }
      rewrite ES in Sa, Sb |- *. split; nra.
    - intros [Ea Eb]. assert (sqrt (a * b) = a) as -> by (rewrite <- Eb, Ea; apply sqrt_square; lra).
      assert (S = s * a) as -> by (rewrite <- Ea; destruct Hs; subst s; ring). field. lra. }
  assert (Ord : forall p q s, (s = 1 \/ s = -1) -> (order (snd p) (snd q) = s * order (fst p) (fst q) /\ order (snd q) (snd p) = s * order (fst q) (fst p)) <->
    ((fst p < fst q <-> 0 < s * (snd q - snd p)) /\ (fst q < fst p <-> 0 < s * (snd p - snd q)))).
  { intros p q s Hs. unfold order. destruct Hs; subst s; repeat destruct (Rlt_dec _ _); split; intros; split; try split; intros; try lra; exfalso; lra. }
  split; [split|split].
  - apply (Rmult_le_reg_r (sqrt (a * b))); [exact P0|]. unfold Rdiv. rewrite Rmult_assoc, Rinv_l by lra. pose proof (Rle_abs (- S)). rewrite Rabs_Ropp in *. lra.
  - apply (Rmult_le_reg_r (sqrt (a * b))); [exact P0|]. unfold Rdiv. rewrite Rmult_assoc, Rinv_l by lra. pose proof (Rle_abs S). lra.
  - rewrite (Eq 1) by tauto. destruct (Bd 1) as [_ [_ ->]]; [tauto|]. split; intros A p q P Q.
    + destruct (Ord p q 1) as [K _]; [tauto|]. specialize (K (conj (A p q P Q) (A q p Q P))). lra.
    + destruct (Ord p q 1) as [_ K]; [tauto|]. apply K. pose proof (A p q P Q). pose proof (A q p Q P). lra.
  - rewrite (Eq (-1)) by tauto. destruct (Bd (-1)) as [_ [_ ->]]; [tauto|]. split; intros A p q P Q.
    + destruct (Ord p q (-1)) as [K _]; [tauto|]. specialize (K (conj (A p q P Q) (A q p Q P))). lra.
    + destruct (Ord p q (-1)) as [_ K]; [tauto|]. apply K. pose proof (A p q P Q). pose proof (A q p Q P). lra.
Qed.

Lemma double_ext X f g : (forall p q, In p X -> In q X -> f p q = g p q) -> double X f = double X g.
Proof. intros H. apply so_ext. intros p P. apply so_ext. intros q Q. auto. Qed.
Lemma double_map h X f : double (map h X) f = double X (fun p q => f (h p) (h q)).
Proof. unfold double. rewrite so_map. apply so_ext. intros p _. apply so_map. Qed.
Lemma double_perm X Y f : Permutation X Y -> double X f = double Y f.
Proof. intros P. unfold double. rewrite (so_perm _ _ _ P). apply so_ext. intros p _. apply so_perm, P. Qed.
Lemma double_opp X f : double X (fun p q => - f p q) = - double X f.
Proof. unfold double. rewrite <- so_opp. apply so_ext. intros p _. apply so_opp. Qed.

(** Two samples whose comparisons agree up to the sign s have the same tau up to that sign. *)
Lemma tau_same s X Y :
  (s = 1 \/ s = -1) ->
  double Y (fun p q => order (fst p) (fst q) * order (snd p) (snd q)) = s * double X (fun p q => order (fst p) (fst q) * order (snd p) (snd q)) ->
  (double Y (fun p q => order (fst p) (fst q) ^ 2) = double X (fun p q => order (fst p) (fst q) ^ 2) /\
   double Y (fun p q => order (snd p) (snd q) ^ 2) = double X (fun p q => order (snd p) (snd q) ^ 2)
   \/ double Y (fun p q => order (fst p) (fst q) ^ 2) = double X (fun p q => order (snd p) (snd q) ^ 2) /\
   double Y (fun p q => order (snd p) (snd q) ^ 2) = double X (fun p q => order (fst p) (fst q) ^ 2)) ->
  kendalltau Y = option_map (Rmult s) (kendalltau X).
Proof.
  intros _ ES EN.
  destruct (C73_tau X) as [X1 X2]. destruct (C73_tau Y) as [Y1 Y2].
  pose proof (varies_double fst X) as VX1. pose proof (varies_double snd X) as VX2.
  pose proof (varies_double fst Y) as VY1. pose proof (varies_double snd Y) as VY2.
  assert (EV : varies (map fst Y) /\ varies (map snd Y) <-> varies (map fst X) /\ varies (map snd X)).
  { rewrite VX1, VX2, VY1, VY2. destruct EN as [[-> ->]|[-> ->]]; tauto. }
  assert (ET : tau_b Y = s * tau_b X).
  { unfold tau_b. rewrite ES. destruct EN as [[-> ->]|[-> ->]]; [|rewrite (Rmult_comm (double X (fun p q => order (snd p) (snd q) ^ 2)))]; unfold Rdiv; ring. }
  clear ES EN VX1 VX2 VY1 VY2.
  destruct (Classical_Prop.classic (varies (map fst X))); [destruct (Classical_Prop.classic (varies (map snd X)))|].
  - rewrite X1, Y1 by tauto. cbn. now rewrite ET.
  - rewrite X2, Y2; [reflexivity| |tauto]. destruct (Classical_Prop.classic (varies (map fst Y))); [right|now left]. tauto.
  - rewrite X2, Y2; [reflexivity| |tauto]. destruct (Classical_Prop.classic (varies (map fst Y))); [right|now left]. tauto.
Qed.
Lemma neg_one d : -1 * d = - d.
Proof. lra. Qed.
(** Only the order of the values of each column matters, and not the order of the observations. *)
Theorem C73_margins : forall f g X, increasing_on f (map fst X) -> increasing_on g (map snd X) ->
  kendalltau (map (fun p => (f (fst p), g (snd p))) X) = kendalltau X.
Proof.
  intros f g X F G. rewrite (tau_same 1 X); [destruct (kendalltau X); cbn; [now rewrite Rmult_1_l|reflexivity]|tauto| |left; split];
  rewrite double_map; [rewrite Rmult_1_l| |]; apply double_ext; intros p q P Q; cbn [fst snd];
  rewrite ?(order_incr f (map fst X)), ?(order_incr g (map snd X)); auto using in_map.
Qed.
Theorem C73_shuffled : forall X Y, Permutation X Y -> kendalltau X = kendalltau Y.
Proof.
  intros X Y P. apply Permutation_sym in P. rewrite (tau_same 1 Y); [destruct (kendalltau Y); cbn; [now rewrite Rmult_1_l|reflexivity]|tauto| |left; split];
  rewrite (double_perm _ _ _ (Permutation_sym P)); lra.
Qed.
(** Symmetric in the two assets; the sign changes with a rotation of 90 or 270 degrees and is kept by a rotation of 180. *)
Theorem C73_rotations : forall X,
  kendalltau (map flip X) = kendalltau X /\
  kendalltau (map (rotate R90) X) = option_map Ropp (kendalltau X) /\
  kendalltau (map (rotate R180) X) = kendalltau X /\
  kendalltau (map (rotate R270) X) = option_map Ropp (kendalltau X).
Proof.
  intros X.
  assert (M : forall a b, order (1 - a) (1 - b) = - order a b) by (intros; unfold order; repeat destruct (Rlt_dec _ _); lra).
  assert (O : forall o, option_map (Rmult 1) o = o) by (intros [x|]; cbn; [now rewrite Rmult_1_l|reflexivity]).
  assert (O' : forall o, option_map (Rmult (-1)) o = option_map Ropp o) by (intros [x|]; cbn; [f_equal; lra|reflexivity]).
  repeat split.
  - rewrite (tau_same 1 X); [apply O|tauto| |right; split]; rewrite double_map; rewrite ?Rmult_1_l; apply double_ext; intros [a b] [c d] _ _; cbn; ring.
  - rewrite (tau_same (-1) X); [apply O'|tauto| |right; split]; rewrite double_map; [rewrite neg_one, <- double_opp| |];
    apply double_ext; intros [a b] [c d] _ _; cbn; rewrite ?M; ring.
  - rewrite (tau_same 1 X); [apply O|tauto| |left; split]; rewrite double_map; rewrite ?Rmult_1_l; apply double_ext; intros [a b] [c d] _ _; cbn; rewrite ?M; ring.
  - rewrite (tau_same (-1) X); [apply O'|tauto| |right; split]; rewrite double_map; [rewrite neg_one, <- double_opp| |];
    apply double_ext; intros [a b] [c d] _ _; cbn; rewrite ?M; ring.
Qed.

(** ** Ranks *)
Definition one (P : Prop) (d : {P} + {~ P}) : R := if d then 1 else 0.
Lemma count_sum f l : count f l = sum_over l (fun x => if f x then 1 else 0).
Proof.
  unfold count. induction l as [|x l IH]; [reflexivity|]. cbn [filter]. rewrite so_cons, <- IH. destruct (f x); [|lra].
  cbn [length]. rewrite S_INR. lra.
Qed.
Definition below l x := sum_over l (fun y => if Rlt_dec y x then 1 else 0).
Definition equal l x := sum_over l (fun y => if Req_EM_T y x then 1 else 0).
Lemma rank_eq l x : rank l x = below l x + (equal l x + 1) / 2.
Proof.
  unfold rank, below, equal. rewrite !count_sum. f_equal; [|f_equal; f_equal]; apply so_ext; intros y _; [destruct (Rlt_dec y x)|destruct (Req_EM_T y x)]; reflexivity.
Qed.
Lemma below_nonneg l x : 0 <= below l x.
Proof. apply so_nonneg. intros y _. destruct (Rlt_dec y x); lra. Qed.
Lemma equal_one l x : In x l -> 1 <= equal l x.
Proof.
  intros H. eapply Rle_trans; [|apply (so_ge_elem (fun y => if Req_EM_T y x then 1 else 0) l x)]; [destruct (Req_EM_T x x); [lra|congruence]| |exact H].
  intros y _. destruct (Req_EM_T y x); lra.
Qed.
Lemma below_equal l x : below l x + equal l x <= INR (length l).
Proof.
  replace (INR (length l)) with (sum_over l (fun _ => 1)) by (rewrite so_const; lra). unfold below, equal. rewrite <- so_add. apply so_le.
  intros y _. destruct (Rlt_dec y x); destruct (Req_EM_T y x); lra.
Qed.
Lemma below_mono l x y : x < y -> below l x + equal l x <= below l y.
Proof.
  intros H. unfold below, equal. rewrite <- so_add. apply so_le. intros z _.
  destruct (Rlt_dec z x); destruct (Req_EM_T z x); destruct (Rlt_dec z y); lra.
Qed.
Lemma rank_mono l x y : In x l -> In y l -> x < y -> rank l x < rank l y.
Proof.
  intros X Y H. rewrite !rank_eq. pose proof (below_mono l x y H). pose proof (equal_one l x X). pose proof (equal_one l y Y). lra.
Qed.
Lemma rank_total l : sum_over l (rank l) = INR (length l) * (INR (length l) + 1) / 2.
Proof.
  rewrite (so_ext _ (fun x => (below l x + equal l x / 2) + 1 / 2)) by (intros; rewrite rank_eq; lra).
  rewrite so_add, so_const, so_add.
  assert (A : 2 * sum_over l (below l) + sum_over l (equal l) = INR (length l) * INR (length l)).
  { transitivity (sum_over l (below l) + sum_over l (fun x => sum_over l (fun y => if Rlt_dec x y then 1 else 0)) + sum_over l (equal l)).
    - unfold below. rewrite (so_swap (fun x y => if Rlt_dec x y then 1 else 0) l l). lra.
    - unfold below, equal. rewrite <- !so_add. rewrite (so_ext _ (fun _ => INR (length l))); [now rewrite so_const|].
      intros x _. rewrite <- !so_add. rewrite (so_ext _ (fun _ => 1)); [rewrite so_const; lra|].
      intros y _. destruct (Rlt_dec y x); destruct (Rlt_dec x y); destruct (Req_EM_T y x); lra. }
  rewrite (so_ext (fun x => equal l x / 2) (fun x => / 2 * equal l x)) by (intros; lra). rewrite so_scal. lra.
Qed.
Lemma pseudo_nth l i d : (i < length l)%nat -> nth i (pseudo_observations l) d = rank l (nth i l d) / (INR (length l) + 1).
Proof.
  intros H. unfold pseudo_observations. rewrite (nth_indep _ d (rank l d / (INR (length l) + 1))) by (now rewrite map_length).
  apply (map_nth (fun x => rank l x / (INR (length l) + 1))).
Qed.
Lemma div_lt a b c : 0 < c -> a < b -> a / c < b / c.
Proof. intros C H. unfold Rdiv. apply Rmult_lt_compat_r; [now apply Rinv_0_lt_compat|exact H]. Qed.
Lemma len_pos {A} (l : list A) : 0 < INR (length l) + 1.
Proof. pose proof (pos_INR (length l)). lra. Qed.

(** A column of pseudo-observations has one number strictly between 0 and 1 per observation, in the order of the data with the same
    ties, centred exactly on one half. *)
Theorem C73_pseudo : forall l,
  length (pseudo_observations l) = length l /\
  (forall u, In u (pseudo_observations l) -> 0 < u < 1) /\
  (forall i j d, (i < length l)%nat -> (j < length l)%nat ->
    (nth i (pseudo_observations l) d < nth j (pseudo_observations l) d <-> nth i l d < nth j l d) /\
    (nth i (pseudo_observations l) d = nth j (pseudo_observations l) d <-> nth i l d = nth j l d)) /\
  (l <> [] -> sum_over (pseudo_observations l) (fun u => u) / INR (length l) = 1 / 2).
Proof.
  intros l. pose proof (len_pos l) as L. repeat apply conj.
  - apply map_length.
  - intros u H. apply in_map_iff in H. destruct H as [x [<- X]]. pose proof (below_nonneg l x). pose proof (equal_one l x X). pose proof (below_equal l x).
    split; [apply Rdiv_lt_0_compat; [rewrite rank_eq; lra|exact L]|].
    apply (Rmult_lt_reg_r (INR (length l) + 1)); [exact L|]. unfold Rdiv. rewrite Rmult_assoc, Rinv_l, rank_eq by lra. lra.
  - intros i j d I J. rewrite !pseudo_nth by assumption. pose proof (nth_In l d I) as Ii. pose proof (nth_In l d J) as Ij.
    set (x := nth i l d) in *. set (y := nth j l d) in *.
    assert (K : forall a b, In a l -> In b l -> a < b -> rank l a / (INR (length l) + 1) < rank l b / (INR (length l) + 1)) by (intros; apply div_lt; [exact L|now apply rank_mono]).
    destruct (Rtotal_order x y) as [T|[T|T]].
    + pose proof (K x y Ii Ij T). lra.
    + rewrite T. lra.
    + pose proof (K y x Ij Ii T). lra.
  - intros N. assert (0 < INR (length l)) by (apply lt_0_INR; destruct l; [congruence|cbn; lia]).
    unfold pseudo_observations. rewrite so_map. rewrite (so_ext _ (fun x => / (INR (length l) + 1) * rank l x)) by (intros; lra).
    rewrite so_scal, rank_total. field. lra.
Qed.
Lemma nodup_map {A B} (f : A -> B) l : (forall x y, In x l -> In y l -> f x = f y -> x = y) -> NoDup l -> NoDup (map f l).
Proof.
  intros I N. induction N as [|x l X N IH]; [constructor|]. cbn. constructor.
  - intros H. apply in_map_iff in H. destruct H as [y [E Y]]. apply X. rewrite (I x y); [exact Y|now left|now right|now symmetry].
  - apply IH. intros a b P Q. apply I; now right.
Qed.
(** Without ties they are exactly 1/(n+1), ..., n/(n+1). *)
Theorem C73_uniform : forall l, NoDup l ->
  Permutation (pseudo_observations l) (map (fun k => INR k / (INR (length l) + 1)) (seq 1 (length l))).
Proof.
  intros l D.
  assert (E : forall x, In x l -> exists k, (1 <= k <= length l)%nat /\ rank l x = INR k).
  { intros x X. exists (length (filter (fun y => if Rlt_dec y x then true else false) l) + 1)%nat.
    assert (EQ : equal l x = 1).
    { apply Rle_antisym; [|now apply equal_one]. clear X. unfold equal. induction D as [|y l N D IH]; [cbn; lra|]. rewrite so_cons.
      destruct (Req_EM_T y x) as [->|]; [|lra]. rewrite so_zero; [lra|]. intros z Z. destruct (Req_EM_T z x); [subst; contradiction|reflexivity]. }
    assert (RK : rank l x = INR (length (filter (fun y => if Rlt_dec y x then true else false) l) + 1)).
    { rewrite rank_eq, EQ, plus_INR. unfold below. cbn [INR]. fold (count (fun y => if Rlt_dec y x then true else false) l).
      rewrite count_sum. rewrite (so_ext (fun y => if if Rlt_dec y x then true else false then 1 else 0) (fun y => if Rlt_dec y x then 1 else 0)); [lra|].
      intros y _. destruct (Rlt_dec y x); reflexivity. }
    split; [|exact RK]. split; [lia|]. pose proof (below_equal l x) as B. rewrite rank_eq, EQ in RK. rewrite EQ in B. apply INR_le. rewrite <- RK. lra. }
  apply NoDup_Permutation_bis.
  - unfold pseudo_observations. apply nodup_map; [|exact D]. intros x y X Y H.
    assert (H' : rank l x = rank l y) by (apply (Rmult_eq_reg_r (/ (INR (length l) + 1))); [exact H|apply Rinv_neq_0_compat; pose proof (len_pos l); lra]).
    destruct (Rtotal_order x y) as [T|[T|T]]; [|exact T|]; [pose proof (rank_mono l x y X Y T)|pose proof (rank_mono l y x Y X T)]; lra.
  - unfold pseudo_observations. rewrite !map_length, seq_length. lia.
  - intros u H. apply in_map_iff in H. destruct H as [x [<- X]]. destruct (E x X) as [k [K ->]]. apply in_map_iff. exists k. split; [reflexivity|]. apply in_seq. lia.
Qed.
Lemma combine_maps (f g : R -> R) (X : list (R * R)) : combine (map f (map fst X)) (map g (map snd X)) = map (fun p => (f (fst p), g (snd p))) X.
Proof. induction X as [|p X IH]; [reflexivity|]. cbn. now rewrite IH. Qed.
(** Kendall's tau does not see the difference between data and pseudo-observations. *)
Theorem C73_tau_pseudo : forall X,
  kendalltau (combine (pseudo_observations (map fst X)) (pseudo_observations (map snd X))) = kendalltau X.
Proof.
  intros X. rewrite <- (C73_margins (fun x => rank (map fst X) x / (INR (length (map fst X)) + 1)) (fun x => rank (map snd X) x / (INR (length (map snd X)) + 1)) X).
  - f_equal. apply combine_maps.
  - intros a b A B H. apply div_lt; [apply len_pos|now apply rank_mono].
  - intros a b A B H. apply div_lt; [apply len_pos|now apply rank_mono].
Qed.

(** ** Tail concentration *)
(** How many observations satisfy P. *)
Inductive numbers {A} (P : A -> Prop) : list A -> nat -> Prop :=
| numbers_nil : numbers P [] 0
| numbers_yes x l n : P x -> numbers P l n -> numbers P (x :: l) (S n)
| numbers_no x l n : ~ P x -> numbers P l n -> numbers P (x :: l) n.
(** The tail at a level: the values up to q in the lower half, the values from q on in the upper half. *)
Definition tail (q x : R) : Prop := q <= 1/2 /\ x <= q \/ 1/2 < q /\ q <= x.

Lemma numbers_filter {A} (P : A -> Prop) f l : (forall x, f x = true <-> P x) -> numbers P l (length (filter f l)).
Proof.
  intros H. induction l as [|x l IH]; [constructor|]. cbn. destruct (f x) eqn:E; cbn.
  - apply numbers_yes; [now apply H|exact IH].
  - apply numbers_no; [|exact IH]. intros K. apply H in K. congruence.
Qed.
Lemma numbers_fun {A} (P : A -> Prop) l n : numbers P l n -> forall m, numbers P l m -> n = m.
Proof. induction 1 as [|x l n Y H IH|x l n N H IH]; intros m M; inversion M; subst; try contradiction; auto. Qed.
Lemma numbers_ext {A} (P Q : A -> Prop) l n : (forall x, In x l -> (P x <-> Q x)) -> numbers P l n -> numbers Q l n.
Proof.
  intros E H. revert E. induction H as [|x l n Y H IH|x l n N H IH]; intros E; [constructor| |].
  - apply numbers_yes; [apply E; [now left|exact Y]|apply IH; intros y I; apply E; now right].
  - apply numbers_no; [intros K; apply N, E; [now left|exact K]|apply IH; intros y I; apply E; now right].
Qed.
Lemma numbers_map {A B} (f : A -> B) (P : B -> Prop) l n : numbers P (map f l) n <-> numbers (fun x => P (f x)) l n.
Proof.
  revert n. induction l as [|x l IH]; intros n; cbn; split; intros H; inversion H; subst; try constructor; auto; now apply IH.
Qed.
Lemma numbers_perm {A} (P : A -> Prop) l m : Permutation l m -> forall n, numbers P l n -> numbers P m n.
Proof.
  induction 1 as [|x l m H IH|x y l|l m k H1 IH1 H2 IH2]; intros n N; auto.
  - inversion N; subst; constructor; auto.
  - inversion N as [|? ? ? X N'|? ? ? X N']; subst; inversion N'; subst;
    repeat first [apply numbers_yes; [assumption|]|apply numbers_no; [assumption|]]; assumption.
Qed.
Lemma numbers_ex {A} (P : A -> Prop) l : exists n, numbers P l n.
Proof.
  induction l as [|x l [n IH]]; [exists 0%nat; constructor|]. destruct (Classical_Prop.classic (P x)); [exists (S n)|exists n]; now constructor.
Qed.
Lemma numbers_le {A} (P Q : A -> Prop) l n m : (forall x, In x l -> P x -> Q x) -> numbers P l n -> numbers Q l m -> (n <= m)%nat.
Proof.
  intros E H. revert m E. induction H as [|x l n Y H IH|x l n N H IH]; intros m E K; [lia| |]; inversion K; subst.
  - enough (n <= n0)%nat by lia. apply IH; auto. intros y I. apply E. now right.
  - exfalso. apply H2, E; [now left|exact Y].
  - enough (n <= n0)%nat by lia. apply IH; auto. intros y I. apply E. now right.
  - apply IH; auto. intros y I. apply E. now right.
Qed.
Lemma in_unit_spec x : in_unit x = true <-> 0 <= x <= 1.
Proof. unfold in_unit. destruct (Rle_dec 0 x); [destruct (Rle_dec x 1)|]; split; intros; try lra; try discriminate; auto. Qed.

(** The estimated concentration is the share, among the observations whose first coordinate is in the tail, of those with both
    coordinates in it; 0 when there are none.  Anything outside the unit square or the unit interval is rejected. *)
Theorem C73_concentration : forall X q n m,
  numbers (fun p => tail q (fst p)) X n -> numbers (fun p => tail q (fst p) /\ tail q (snd p)) X m ->
  ((forall p, In p X -> 0 <= fst p <= 1 /\ 0 <= snd p <= 1) /\ 0 <= q <= 1 ->
    exists c, empirical_tail_concentration X q = Ok c /\ 0 <= c <= 1 /\ c * INR n = INR m /\ (n = 0%nat -> c = 0)) /\
  (~ ((forall p, In p X -> 0 <= fst p <= 1 /\ 0 <= snd p <= 1) /\ 0 <= q <= 1) -> empirical_tail_concentration X q = ValueError).
Proof.
  intros X q n m N M. unfold empirical_tail_concentration.
  assert (D : forallb (fun p => (in_unit (fst p) && in_unit (snd p))%bool) X = true <-> forall p, In p X -> 0 <= fst p <= 1 /\ 0 <= snd p <= 1).
  { rewrite forallb_forall. split; intros H p I; specialize (H p I); [apply andb_true_iff in H; rewrite !in_unit_spec in H; exact H|].
    apply andb_true_iff. now rewrite !in_unit_spec. }
  pose proof (in_unit_spec q) as U.
  destruct (forallb _ X); [|split; [intros [H _]; apply D in H; discriminate|reflexivity]].
  destruct (in_unit q); [|split; [intros [_ H]; apply U in H; discriminate|reflexivity]].
  split; [intros _|intros H; exfalso; apply H; split; [now apply D|now apply U]].
  assert (K : exists b, (if Rle_dec q (1/2) then concentration X q true else concentration X q false) = concentration X q b /\ forall x, compare b x q = true <-> tail q x).
  { unfold tail. destruct (Rle_dec q (1/2)); [exists true|exists false]; (split; [reflexivity|]); intros x; unfold compare; destruct (Rle_dec _ _); split; intros; try lra; try discriminate; auto. }
  destruct K as [b [-> T]]. exists (concentration X q b). split; [reflexivity|].
  assert (EN : n = length (filter (fun p => compare b (fst p) q) X)) by (eapply numbers_fun; [exact N|apply numbers_filter; intros p; apply T]).
  assert (EM : m = length (filter (fun p => compare b (snd p) q) (filter (fun p => compare b (fst p) q) X))).
  { eapply numbers_fun; [exact M|]. clear - T. induction X as [|p X IH]; [constructor|]. cbn. destruct (compare b (fst p) q) eqn:E1; cbn.
    - destruct (compare b (snd p) q) eqn:E2; cbn; [apply numbers_yes; [rewrite <- !T; auto|exact IH]|apply numbers_no; [rewrite <- !T; intros [_ ?]; congruence|exact IH]].
    - apply numbers_no; [rewrite <- !T; intros [? _]; congruence|exact IH]. }
  assert (LE : (m <= n)%nat) by (eapply numbers_le; [|exact M|exact N]; intros p _ [H _]; exact H).
  unfold concentration. rewrite <- EN, <- EM. clear EN EM N M.
  destruct (Req_EM_T (INR n) 0) as [Z|Z].
  - assert (n = 0%nat) by (apply INR_eq; exact Z). subst n. assert (m = 0%nat) by lia. subst m. cbn. lra.
  - assert (P : 0 < INR n) by (pose proof (pos_INR n); lra). apply le_INR in LE. pose proof (pos_INR m). repeat split.
    + apply Rmult_le_reg_r with (INR n); [exact P|]. unfold Rdiv. rewrite Rmult_assoc, Rinv_l by lra. lra.
    + apply Rmult_le_reg_r with (INR n); [exact P|]. unfold Rdiv. rewrite Rmult_assoc, Rinv_l by lra. lra.
    + field. lra.
    + intros ->. cbn in P. lra.
Qed.
Lemma concentration_ratio X q c n m :
  numbers (fun p => tail q (fst p)) X n -> numbers (fun p => tail q (fst p) /\ tail q (snd p)) X m ->
  empirical_tail_concentration X q = Ok c -> c * INR n = INR m /\ (n = 0%nat -> c = 0).
Proof.
  intros N M E. destruct (C73_concentration X q n m N M) as [A B].
  destruct (Classical_Prop.classic ((forall p, In p X -> 0 <= fst p <= 1 /\ 0 <= snd p <= 1) /\ 0 <= q <= 1)) as [H|H].
  - destruct (A H) as [c' [E' K]]. rewrite E in E'. injection E' as <-. tauto.
  - rewrite (B H) in E. discriminate.
Qed.
Lemma ratio_unique (c d : R) n m : c * INR n = INR m -> d * INR n = INR m -> (n = 0%nat -> c = 0) -> (n = 0%nat -> d = 0) -> c = d.
Proof.
  intros C D Zc Zd. destruct (Nat.eq_dec n 0) as [Z|Z]; [rewrite (Zc Z), (Zd Z); reflexivity|].
  apply (Rmult_eq_reg_r (INR n)); [lra|now apply not_0_INR].
Qed.
(** On pseudo-observations of two columns without ties the two assets can be exchanged. *)
Theorem C73_exchange : forall X q, NoDup (map fst X) -> NoDup (map snd X) ->
  let U := combine (pseudo_observations (map fst X)) (pseudo_observations (map snd X)) in
  empirical_tail_concentration U q = empirical_tail_concentration (map flip U) q.
Proof.
  intros X q D1 D2 U.
  assert (F1 : map fst U = pseudo_observations (map fst X)).
  { unfold U, pseudo_observations. rewrite combine_maps, !map_map. reflexivity. }
  assert (F2 : map snd U = pseudo_observations (map snd X)).
  { unfold U, pseudo_observations. rewrite combine_maps, !map_map. reflexivity. }
  assert (P : Permutation (map fst U) (map snd U)).
  { rewrite F1, F2. rewrite (C73_uniform _ D1), (C73_uniform _ D2), !map_length. reflexivity. }
  clearbody U. clear F1 F2 D1 D2 X.
  destruct (numbers_ex (tail q) (map fst U)) as [n N]. pose proof (numbers_perm _ _ _ P _ N) as N'. rewrite numbers_map in N, N'.
  destruct (numbers_ex (fun p => tail q (fst p) /\ tail q (snd p)) U) as [m M].
  assert (Nf : numbers (fun p => tail q (fst p)) (map flip U) n) by (apply numbers_map; eapply numbers_ext; [|exact N']; intros p _; reflexivity).
  assert (Mf : numbers (fun p => tail q (fst p) /\ tail q (snd p)) (map flip U) m) by (apply numbers_map; eapply numbers_ext; [|exact M]; intros p _; cbn; tauto).
  destruct (C73_concentration U q n m N M) as [A B]. destruct (C73_concentration (map flip U) q n m Nf Mf) as [Af Bf].
  assert (S : (forall p, In p (map flip U) -> 0 <= fst p <= 1 /\ 0 <= snd p <= 1) <-> (forall p, In p U -> 0 <= fst p <= 1 /\ 0 <= snd p <= 1)).
  { split; intros H p I; [specialize (H (flip p) (in_map _ _ _ I)); cbn in H; tauto|]. apply in_map_iff in I. destruct I as [r [<- I]]. specialize (H r I). cbn. tauto. }
  destruct (Classical_Prop.classic ((forall p, In p U -> 0 <= fst p <= 1 /\ 0 <= snd p <= 1) /\ 0 <= q <= 1)) as [H|H].
  - destruct (A H) as [c [-> [_ [C1 C2]]]]. destruct Af as [d [-> [_ [E1 E2]]]]; [tauto|]. f_equal. eapply ratio_unique; eauto.
  - rewrite B, Bf; [reflexivity|tauto|exact H].
Qed.
(** The upper tail is the lower tail of the data rotated by 180 degrees. *)
Theorem C73_upper_lower : forall X q, q <> 1/2 ->
  empirical_tail_concentration (map (rotate R180) X) (1 - q) = empirical_tail_concentration X q.
Proof.
  intros X q Q.
  assert (T : forall x, tail (1 - q) (1 - x) <-> tail q x) by (intros x; unfold tail; lra).
  destruct (numbers_ex (fun p => tail q (fst p)) X) as [n N]. destruct (numbers_ex (fun p => tail q (fst p) /\ tail q (snd p)) X) as [m M].
  assert (Nf : numbers (fun p => tail (1 - q) (fst p)) (map (rotate R180) X) n) by (apply numbers_map; eapply numbers_ext; [|exact N]; intros [a b] _; cbn; now rewrite T).
  assert (Mf : numbers (fun p => tail (1 - q) (fst p) /\ tail (1 - q) (snd p)) (map (rotate R180) X) m) by (apply numbers_map; eapply numbers_ext; [|exact M]; intros [a b] _; cbn; now rewrite !T).
  destruct (C73_concentration X q n m N M) as [A B]. destruct (C73_concentration _ (1 - q) n m Nf Mf) as [Af Bf].
  assert (S : (forall p, In p (map (rotate R180) X) -> 0 <= fst p <= 1 /\ 0 <= snd p <= 1) <-> (forall p, In p X -> 0 <= fst p <= 1 /\ 0 <= snd p <= 1)).
  { split; intros H p I; [specialize (H (rotate R180 p) (in_map _ _ _ I)); destruct p; cbn in *; lra|]. apply in_map_iff in I. destruct I as [[a b] [<- I]]. specialize (H _ I). cbn in *. lra. }
  destruct (Classical_Prop.classic ((forall p, In p X -> 0 <= fst p <= 1 /\ 0 <= snd p <= 1) /\ 0 <= q <= 1)) as [H|H].
  - destruct (A H) as [c [-> [_ [C1 C2]]]]. destruct Af as [d [-> [_ [E1 E2]]]]; [split; [apply S; tauto|lra]|]. f_equal. eapply ratio_unique; eauto.
  - rewrite B, Bf; [reflexivity| |exact H]. intros [H1 H2]. apply H. split; [now apply S|lra].
Qed.

(** Three observations, of which the first two disagree. *)
Example C73_example : kendalltau [(1, 2); (2, 1); (3, 5)] = Some (1 / 3) /\
  NoDup (map fst [(1, 2); (2, 1); (3, 5)]) /\ NoDup (map snd [(1, 2); (2, 1); (3, 5)]) /\
  increasing_on exp (map fst [(1, 2); (2, 1); (3, 5)]) /\
  pseudo_observations (map snd [(1, 2); (2, 1); (3, 5)]) = [2/4; 1/4; 3/4].
Proof.
  assert (O : forall a b, a < b -> order a b = 1) by (intros; unfold order; repeat destruct (Rlt_dec _ _); lra).
  assert (O' : forall a b, b < a -> order a b = -1) by (intros; unfold order; repeat destruct (Rlt_dec _ _); lra).
  repeat apply conj.
  - destruct (C73_tau [(1, 2); (2, 1); (3, 5)]) as [-> _].
    + f_equal. unfold tau_b, double, sum_over. cbn [map fst snd RList.rsum fold_right]. rewrite !order_same.
      rewrite (O 1 2), (O 1 3), (O 2 3), (O 2 5), (O 1 5), (O' 2 1), (O' 3 1), (O' 3 2), (O' 5 2), (O' 5 1) by lra.
      match goal with |- _ / sqrt ?x = _ => replace x with (6 * 6) by (cbn; lra) end. rewrite sqrt_square by lra. cbn. field.
    + split; [exists 1, 2|exists 2, 1]; cbn; repeat split; auto; lra.
  - cbn. repeat constructor; cbn; lra.
  - cbn. repeat constructor; cbn; lra.
  - intros a b _ _ H. now apply exp_increasing.
  - unfold pseudo_observations, rank, count. cbn [map snd filter].
    repeat match goal with |- context [Rlt_dec ?a ?b] => destruct (Rlt_dec a b); [try (exfalso; lra)|try (exfalso; lra)] end;
    repeat match goal with |- context [Req_EM_T ?a ?b] => destruct (Req_EM_T a b); [try (exfalso; lra)|try (exfalso; lra)] end.
    cbn [length INR]. repeat f_equal; lra.
Qed.

Print Assumptions C73_tau.
Print Assumptions C73_range.
Print Assumptions C73_margins.
Print Assumptions C73_shuffled.
Print Assumptions C73_rotations.
Print Assumptions C73_pseudo.
Print Assumptions C73_uniform.
Print Assumptions C73_tau_pseudo.
Print Assumptions C73_concentration.
Print Assumptions C73_exchange.
Print Assumptions C73_upper_lower.
