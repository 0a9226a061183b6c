(** C69: the distance correlation matrix and the distance made of it. *)
From Coq Require Import Reals Lra Lia List Arith Psatz Sorting.Sorted Permutation.
From Verif Require Import RList DcorrModel.
Import ListNotations.
Local Open Scope R_scope.

(** * Specification *)

(** The average over the observations. *)
Definition avg (T : nat) (f : nat -> R) : R := sum_over (seq 0 T) f / INR T.
(** Szekely's squared distance covariance: with (x,y), (x',y'), (x'',y'') drawn independently from the observations,
    E |x-x'| |y-y'| + E |x-x'| E |y-y'| - 2 E |x-x'| |y-y''|. *)
Definition dcov2 (T : nat) (x y : nat -> R) : R :=
  avg T (fun s => avg T (fun t => Rabs (x s - x t) * Rabs (y s - y t)))
  + avg T (fun s => avg T (fun t => Rabs (x s - x t))) * avg T (fun s => avg T (fun t => Rabs (y s - y t)))
  - 2 * avg T (fun s => avg T (fun t => avg T (fun u => Rabs (x s - x t) * Rabs (y s - y u)))).
(** A column that is not constant. *)
Definition varies (T : nat) (x : nat -> R) : Prop := exists s t, (s < T)%nat /\ (t < T)%nat /\ x s <> x t.
(** One when the first number is at most the second. *)
Definition below (v b : R) : R := if Rle_dec v b then 1 else 0.
(** The two columns are independent in the sample: the joint distribution function is the product of the two. *)
Definition independent (T : nat) (x y : nat -> R) : Prop := forall a b,
  avg T (fun t => below (x t) a * below (y t) b) = avg T (fun t => below (x t) a) * avg T (fun t => below (y t) b).
(** One column is an affine image of the other. *)
Definition affine (T : nat) (x y : nat -> R) : Prop := exists a b, b <> 0 /\ forall t, (t < T)%nat -> y t = a + b * x t.

(** * Lemmas *)
Lemma pairwise_abs x s t : pairwise x s t = Rabs (x s - x t).
Proof. unfold pairwise. rewrite <- Rsqr_pow2. apply sqrt_Rsqr_abs. Qed.

Lemma sorted_exists (l : list R) : exists l', StronglySorted Rle l' /\ forall x, In x l <-> In x l'.
Proof.
  induction l as [|a l [l' [S I]]]; [exists []; split; [constructor|tauto]|].
  assert (K : exists k, StronglySorted Rle k /\ forall x, In x k <-> x = a \/ In x l').
  { clear I l. induction S as [|b l' S IH F]; [exists [a]; split; [repeat constructor|cbn; intuition congruence]|].
    rewrite Forall_forall in F. destruct (Rle_lt_dec a b) as [H|H].
    - exists (a :: b :: l'). split; [|cbn; intuition congruence]. constructor; [constructor; auto; apply Forall_forall; auto|].
      apply Forall_forall. intros x [<-|Hx]; [auto|]. specialize (F x Hx). lra.
    - destruct IH as [k [Sk Ik]]. exists (b :: k). split.
      + constructor; auto. apply Forall_forall. intros x Hx. apply Ik in Hx. destruct Hx as [->|Hx]; [lra|auto].
      + intros x. cbn. rewrite Ik. tauto. }
  destruct K as [k [Sk Ik]]. exists k. split; auto. intros x. rewrite Ik. cbn. rewrite I. intuition congruence.
Qed.
Lemma below_yes u s : u <= s -> below u s = 1. Proof. intros. unfold below. destruct Rle_dec; [auto|contradiction]. Qed.
Lemma below_no u s : s < u -> below u s = 0. Proof. intros. unfold below. destruct Rle_dec; [lra|auto]. Qed.
Lemma below_01 u s : below u s = 0 \/ below u s = 1. Proof. unfold below. destruct Rle_dec; auto. Qed.
Definition layered (l : list R) (K : list (R * R)) : Prop :=
  (forall p, In p K -> 0 < snd p /\ In (fst p) l) /\
  (forall u v, In u l -> In v l -> Rabs (u - v) = sum_over K (fun p => snd p * (below u (fst p) - below v (fst p)) ^ 2)) /\
  (forall u v, In u l -> In v l -> u < v -> exists g, In (u, g) K).
(** A distance on the line is the sum of the lengths of the gaps between neighbours. *)
Lemma layers_sorted l : StronglySorted Rle l -> exists K, layered l K.
Proof.
  induction 1 as [|a l S IH F]; [exists []; repeat split; intros; contradiction|].
  destruct IH as [K [K1 [K2 K3]]]. rewrite Forall_forall in F.
  destruct l as [|b l].
  { exists []. split; [intros p []|]. split.
    - intros u v [<-|[]] [<-|[]]. rewrite Rminus_diag_eq, Rabs_R0; auto.
    - intros u v [<-|[]] [<-|[]] H. lra. }
  assert (Hab : a <= b) by (apply F; left; auto).
  assert (B : forall v, In v (b :: l) -> b <= v).
  { inversion S; subst. rewrite Forall_forall in H2. intros v [<-|Hv]; [lra|auto]. }
  assert (G : forall v, In v (b :: l) -> sum_over K (fun p => snd p * (below a (fst p) - below v (fst p)) ^ 2) = v - b).
  { intros v Hv. rewrite (so_ext _ (fun p => snd p * (below b (fst p) - below v (fst p)) ^ 2)).
    - rewrite <- K2; [|left; auto|auto]. rewrite Rabs_minus_sym, Rabs_right; [auto|]. specialize (B v Hv). lra.
    - intros p Hp. destruct (K1 p Hp) as [_ Hf]. apply B in Hf. rewrite (below_yes a), (below_yes b) by lra. reflexivity. }
  assert (G' : forall v, In v (b :: l) -> sum_over K (fun p => snd p * (below v (fst p) - below a (fst p)) ^ 2) = v - b).
  { intros v Hv. rewrite <- (G v Hv). apply so_ext. intros; ring. }
  assert (Z : forall L, sum_over L (fun p => snd p * (below a (fst p) - below a (fst p)) ^ 2) = 0) by (intros; apply so_zero; intros; ring).
  assert (Zr : Rabs (a - a) = 0) by (rewrite Rminus_diag_eq, Rabs_R0; auto).
  destruct (Req_dec a b) as [E|E].
  - exists K. split; [intros p Hp; destruct (K1 p Hp); split; [|right]; auto|]. split.
    + intros u v [<-|Hu] [<-|Hv]; [rewrite Zr, Z; auto| | |auto].
      * rewrite G by auto. apply B in Hv. rewrite Rabs_minus_sym, Rabs_right; lra.
      * rewrite G' by auto. apply B in Hu. rewrite Rabs_right; lra.
    + intros u v [<-|Hu] [<-|Hv] H; [lra|apply (K3 a v); auto; left; auto|apply B in Hu; lra|eauto].
  - exists ((a, b - a) :: K). split; [intros p [<-|Hp]; [cbn; split; [lra|auto]|destruct (K1 p Hp); split; [|right]; auto]|]. split.
    + intros u v Hu Hv. rewrite so_cons. cbn [fst snd]. destruct Hu as [<-|Hu], Hv as [<-|Hv].
      * rewrite Zr, Z. ring.
      * rewrite G by auto. apply B in Hv. rewrite below_yes, below_no by lra. rewrite Rabs_minus_sym, Rabs_right; lra.
      * rewrite G' by auto. apply B in Hu. rewrite below_no, below_yes by lra. rewrite Rabs_right; lra.
      * rewrite (K2 u v) by auto. apply B in Hu. apply B in Hv. rewrite !below_no by lra. ring.
    + intros u v [<-|Hu] [<-|Hv] H; [lra|eexists; left; reflexivity|apply B in Hu; lra|]. destruct (K3 u v Hu Hv H) as [g Hg]. exists g. right. auto.
Qed.
Lemma layers l : exists K, layered l K.
Proof.
  destruct (sorted_exists l) as [l' [S I]]. destruct (layers_sorted l' S) as [K [K1 [K2 K3]]]. exists K. split; [|split].
  - intros p Hp. destruct (K1 p Hp). split; [auto|apply I; auto].
  - intros u v Hu Hv. apply I in Hu. apply I in Hv. auto.
  - intros u v Hu Hv. apply I in Hu. apply I in Hv. eauto.
Qed.
(** On the data a threshold is trivial or one of the layers. *)
Lemma threshold_cases l K a : layered l K ->
  (forall v, In v l -> below v a = 0) \/ (forall v, In v l -> below v a = 1) \/ (exists p, In p K /\ forall v, In v l -> below v a = below v (fst p)).
Proof.
  intros [_ [_ K3]].
  assert (M : (forall v, In v l -> a < v) \/ exists u, In u l /\ u <= a /\ forall v, In v l -> v <= a -> v <= u).
  { clear K3. induction l as [|x l [H|[u [H1 [H2 H3]]]]]; [left; intros v []| |].
    - destruct (Rle_lt_dec x a) as [Hx|Hx]; [right; exists x; split; [left; auto|split; auto]|left; intros v [<-|Hv]; auto].
      intros v [<-|Hv] Hl; [lra|]. specialize (H v Hv). lra.
    - right. destruct (Rle_lt_dec x a) as [Hx|Hx].
      + destruct (Rle_lt_dec x u).
        * exists u. split; [right; auto|split; auto]. intros v [<-|Hv] Hl; auto.
        * exists x. split; [left; auto|split; auto]. intros v [<-|Hv] Hl; [lra|]. specialize (H3 v Hv Hl). lra.
      + exists u. split; [right; auto|split; auto]. intros v [<-|Hv] Hl; [lra|auto]. }
  destruct M as [H|[u [H1 [H2 H3]]]]; [left; intros; apply below_no; auto|right].
  assert (Eu : forall v, In v l -> below v a = below v u).
  { intros v Hv. destruct (Rle_lt_dec v a) as [Hx|Hx]; [rewrite !below_yes; auto|rewrite !below_no; auto; lra]. }
  assert (D : (exists v, In v l /\ u < v) \/ forall v, In v l -> v <= u).
  { clear. induction l as [|x l [[v [Hv H]]|H]]; [right; intros v []|left; exists v; split; [right|]; auto|].
    destruct (Rle_lt_dec x u); [right; intros v [<-|Hv]; auto|left; exists x; split; [left|]; auto]. }
  destruct D as [[v [Hv Huv]]|D]; [right|left; intros v Hv; rewrite Eu by auto; apply below_yes; auto].
  destruct (K3 u v H1 Hv Huv) as [g Hg]. exists (u, g). split; auto.
Qed.

Section Fixed.
  Variable T : nat.
  Hypothesis HT : (0 < T)%nat.
  Notation n := (INR T).
  Notation O := (seq 0 T).
  Lemma npos : 0 < n. Proof. apply lt_0_INR, HT. Qed.
  Lemma nlen : INR (length O) = n. Proof. clear HT. rewrite seq_length. reflexivity. Qed.
  Lemma in_obs t : In t O <-> (t < T)%nat. Proof. clear HT. rewrite in_seq. lia. Qed.

  Notation m x := (avg T x).
  Lemma avg_ext f g : (forall t, (t < T)%nat -> f t = g t) -> m f = m g.
  Proof. clear HT. intros H. unfold avg. f_equal. apply so_ext. intros t Ht. apply H, in_obs, Ht. Qed.
  Lemma avg_const c : m (fun _ => c) = c.
  Proof. pose proof npos. unfold avg. rewrite so_const, nlen. field. lra. Qed.
  Lemma so_avg f : sum_over O f = n * m f.
  Proof. pose proof npos. unfold avg. field. lra. Qed.
  Lemma avg_add f g : m (fun t => f t + g t) = m f + m g.
  Proof. clear HT. unfold avg. rewrite so_add. lra. Qed.
  Lemma avg_sub f g : m (fun t => f t - g t) = m f - m g.
  Proof. clear HT. unfold avg. rewrite so_sub. lra. Qed.
  Lemma avg_scal c f : m (fun t => c * f t) = c * m f.
  Proof. clear HT. unfold avg. rewrite so_scal. lra. Qed.
  Lemma avg_scal_r c f : m (fun t => f t * c) = m f * c.
  Proof. clear HT. unfold avg. rewrite so_scal_r. lra. Qed.
  Lemma avg_swap (f : nat -> nat -> R) : m (fun s => m (fun t => f s t)) = m (fun t => m (fun s => f s t)).
  Proof.
    clear HT. unfold avg.
    rewrite (so_ext _ (fun s => sum_over O (fun t => f s t) * / n)) by (intros; unfold Rdiv; reflexivity).
    rewrite (so_ext (fun t => sum_over O (fun s => f s t) / n) (fun t => sum_over O (fun s => f s t) * / n)) by (intros; unfold Rdiv; reflexivity).
    rewrite !so_scal_r, so_swap. reflexivity.
  Qed.

  Lemma centred_avg a s t : centred T a s t = a s t - m (fun s => a s t) - m (fun t => a s t) + m (fun s => m (fun t => a s t)).
  Proof.
    pose proof npos. unfold centred, mean0, mean1, mean, avg, obs. f_equal.
    rewrite (so_ext (fun s0 => sum_over O (fun t0 => a s0 t0) / n) (fun s0 => sum_over O (fun t0 => a s0 t0) * / n)) by (intros; unfold Rdiv; reflexivity).
    rewrite so_scal_r. field. lra.
  Qed.
  Lemma total_avg a : total T a = n * n * m (fun s => m (fun t => a s t)).
  Proof.
    unfold total, obs. rewrite (so_ext _ (fun s => n * m (fun t => a s t))) by (intros; apply so_avg).
    rewrite so_avg, avg_scal. ring.
  Qed.

  (** The product sum of two centred symmetric matrices. *)
  Lemma centred_row a s : m (fun t => centred T a s t) = 0.
  Proof.
    rewrite (avg_ext _ (fun t => (a s t - m (fun s => a s t)) - (m (fun t => a s t) - m (fun s => m (fun t => a s t))))) by (intros; rewrite centred_avg; ring).
    rewrite avg_sub, avg_sub, avg_const, (avg_swap a). change (fun t : nat => a s t) with (a s). ring.
  Qed.
  Lemma centred_col a t : m (fun s => centred T a s t) = 0.
  Proof.
    rewrite (avg_ext _ (fun s => (a s t - m (fun t => a s t)) - (m (fun s => a s t) - m (fun s => m (fun t => a s t))))) by (intros; rewrite centred_avg; ring).
    rewrite avg_sub, avg_sub, avg_const. ring.
  Qed.
  (** centring one factor is enough *)
  Lemma centre_once a b : m (fun s => m (fun t => centred T a s t * centred T b s t)) = m (fun s => m (fun t => a s t * centred T b s t)).
  Proof.
    rewrite (avg_ext _ (fun s => m (fun t => a s t * centred T b s t) - m (fun t => m (fun s => a s t) * centred T b s t)
       - m (fun t => a s t) * m (fun t => centred T b s t) + m (fun s => m (fun t => a s t)) * m (fun t => centred T b s t))).
    - rewrite (avg_ext _ (fun s => m (fun t => a s t * centred T b s t) - m (fun t => m (fun s => a s t) * centred T b s t))).
      + rewrite avg_sub. rewrite (avg_swap (fun s t => m (fun s => a s t) * centred T b s t)).
        rewrite (avg_ext (fun t => m (fun s => m (fun s => a s t) * centred T b s t)) (fun _ => 0)).
        * rewrite avg_const. ring.
        * intros t _. rewrite avg_scal, centred_col. ring.
      + intros s _. rewrite centred_row. ring.
    - intros s _. rewrite <- !avg_scal, <- !avg_sub, <- avg_add. apply avg_ext. intros t _. rewrite (centred_avg a). ring.
  Qed.
  Lemma total_szekely x y : total T (fun s t => centred T (pairwise x) s t * centred T (pairwise y) s t) = n * n * dcov2 T x y.
  Proof.
    rewrite total_avg. f_equal. rewrite centre_once. unfold dcov2.
    set (a := pairwise x). set (b := pairwise y).
    assert (Ea : forall s t, Rabs (x s - x t) = a s t) by (intros; symmetry; apply pairwise_abs).
    assert (Eb : forall s t, Rabs (y s - y t) = b s t) by (intros; symmetry; apply pairwise_abs).
    assert (Sa : forall s t, a s t = a t s) by (intros; rewrite <- !Ea; apply Rabs_minus_sym).
    assert (Sb : forall s t, b s t = b t s) by (intros; rewrite <- !Eb; apply Rabs_minus_sym).
    rewrite (avg_ext (fun s => m (fun t => Rabs (x s - x t) * Rabs (y s - y t))) (fun s => m (fun t => a s t * b s t))) by (intros; apply avg_ext; intros; rewrite Ea, Eb; ring).
    rewrite (avg_ext (fun s => m (fun t => Rabs (x s - x t))) (fun s => m (fun t => a s t))) by (intros; apply avg_ext; intros; rewrite Ea; ring).
    rewrite (avg_ext (fun s => m (fun t => Rabs (y s - y t))) (fun s => m (fun t => b s t))) by (intros; apply avg_ext; intros; rewrite Eb; ring).
    rewrite (avg_ext (fun s => m (fun t => m (fun u => Rabs (x s - x t) * Rabs (y s - y u)))) (fun s => m (fun t => a s t) * m (fun u => b s u))).
    2:{ intros s _. rewrite <- avg_scal_r. apply avg_ext. intros t _. rewrite <- avg_scal. apply avg_ext. intros u _. rewrite Ea, Eb. ring. }
    rewrite (avg_ext _ (fun s => m (fun t => a s t * b s t) - m (fun t => a s t * m (fun s => b s t)) - m (fun t => a s t) * m (fun t => b s t)
       + m (fun t => a s t) * m (fun s => m (fun t => b s t)))).
    2:{ intros s _. rewrite <- !avg_scal_r, <- !avg_sub, <- avg_add. apply avg_ext. intros t _. rewrite centred_avg. ring. }
    rewrite avg_add, !avg_sub, avg_scal_r.
    assert (E : m (fun s => m (fun t => a s t * m (fun s0 => b s0 t))) = m (fun s => m (fun t => a s t) * m (fun t => b s t))).
    { rewrite avg_swap. apply avg_ext. intros t _. rewrite avg_scal_r. f_equal; apply avg_ext; intros; auto. }
    rewrite E. ring.
  Qed.

  Lemma avg_so {A} (K : list A) (f : A -> nat -> R) : m (fun t => sum_over K (fun p => f p t)) = sum_over K (fun p => m (f p)).
  Proof.
    clear HT. unfold avg. rewrite so_swap. unfold Rdiv. rewrite <- so_scal_r. reflexivity.
  Qed.
  Lemma centred_ext a a' s t : (s < T)%nat -> (t < T)%nat -> (forall s t, (s < T)%nat -> (t < T)%nat -> a s t = a' s t) -> centred T a s t = centred T a' s t.
  Proof.
    intros Hs Ht E. rewrite !centred_avg. rewrite E by auto. f_equal; [f_equal; [f_equal|]|]; apply avg_ext; intros; auto.
    apply avg_ext; intros; auto.
  Qed.
  Definition tilde (h : nat -> R) (t : nat) : R := h t - m h.
  Lemma centred_square g h s t : centred T (fun s t => g * (h s - h t) ^ 2) s t = - (2) * (g * (tilde h s * tilde h t)).
  Proof.
    rewrite centred_avg. unfold tilde.
    assert (E1 : forall c, m (fun s => g * (h s - c) ^ 2) = g * (m (fun s => h s * h s) - 2 * c * m h + c * c)).
    { intros c. rewrite avg_scal. f_equal. rewrite (avg_ext _ (fun s => h s * h s - (2 * c) * h s + c * c)) by (intros; ring).
      rewrite avg_add, avg_sub, avg_scal, avg_const. reflexivity. }
    assert (E2 : forall c, m (fun t => g * (c - h t) ^ 2) = g * (m (fun s => h s * h s) - 2 * c * m h + c * c)).
    { intros c. rewrite <- E1. apply avg_ext. intros; ring. }
    rewrite E1, E2. rewrite (avg_ext (fun s => m (fun t => g * (h s - h t) ^ 2)) (fun s => g * (m (fun s => h s * h s) - 2 * h s * m h + h s * h s))) by (intros; apply E2).
    rewrite avg_scal. set (q := m (fun s => h s * h s)).
    rewrite (avg_ext (fun s => q - 2 * h s * m h + h s * h s) (fun s => q - (2 * m h) * h s + h s * h s)) by (intros; ring).
    rewrite avg_add, avg_sub, avg_scal, avg_const. fold q. ring.
  Qed.
  Definition data (x : nat -> R) : list R := map x O.
  Lemma in_data x t : (t < T)%nat -> In (x t) (data x). Proof. clear HT. intros H. apply in_map, in_obs, H. Qed.
  Notation step x p := (fun t => below (x t) (fst p)).
  Lemma centred_layers x K s t : layered (data x) K -> (s < T)%nat -> (t < T)%nat ->
    centred T (pairwise x) s t = sum_over K (fun p => - (2) * (snd p * (tilde (step x p) s * tilde (step x p) t))).
  Proof.
    intros [_ [K2 _]] Hs Ht.
    rewrite (centred_ext _ (fun s t => sum_over K (fun p => snd p * (below (x s) (fst p) - below (x t) (fst p)) ^ 2))); auto.
    2:{ intros. rewrite pairwise_abs. apply K2; apply in_data; auto. }
    rewrite centred_avg. rewrite !avg_so.
    rewrite (avg_ext (fun s => m (fun t => sum_over K (fun p => snd p * (below (x s) (fst p) - below (x t) (fst p)) ^ 2)))
       (fun s => sum_over K (fun p => m (fun t => snd p * (below (x s) (fst p) - below (x t) (fst p)) ^ 2)))) by (intros; apply (avg_so K (fun p t => _))).
    rewrite avg_so. rewrite <- !so_sub, <- so_add. apply so_ext. intros p _.
    rewrite <- (centred_square (snd p) (step x p) s t), centred_avg. reflexivity.
  Qed.
  Definition cov (h k : nat -> R) : R := m (fun t => h t * k t) - m h * m k.
  Lemma cov_tilde h k : m (fun t => tilde h t * tilde k t) = cov h k.
  Proof.
    unfold tilde, cov. rewrite (avg_ext _ (fun t => h t * k t - m k * h t - m h * k t + m h * m k)) by (intros; ring).
    rewrite avg_add, !avg_sub, !avg_scal, avg_const. ring.
  Qed.
  Lemma dcov2_layers x y K L : layered (data x) K -> layered (data y) L ->
    dcov2 T x y = 4 * sum_over K (fun p => sum_over L (fun q => snd p * snd q * cov (step x p) (step y q) ^ 2)).
  Proof.
    intros HK HL. pose proof npos as Hn.
    apply (Rmult_eq_reg_l (n * n)); [|nra]. rewrite <- total_szekely, total_avg. f_equal.
    rewrite (avg_ext _ (fun s => m (fun t => sum_over K (fun p => sum_over L (fun q => 4 * (snd p * snd q) * (tilde (step x p) s * tilde (step y q) s) * (tilde (step x p) t * tilde (step y q) t)))))).
    2:{ intros s Hs. apply avg_ext. intros t Ht. rewrite (centred_layers x K), (centred_layers y L); auto.
        rewrite <- so_scal_r. apply so_ext. intros p _. rewrite <- so_scal. apply so_ext. intros q _. ring. }
    rewrite (avg_ext _ (fun s => sum_over K (fun p => sum_over L (fun q => 4 * (snd p * snd q) * (tilde (step x p) s * tilde (step y q) s) * cov (step x p) (step y q))))).
    2:{ intros s Hs. rewrite (avg_so K (fun p t => sum_over L (fun q => 4 * (snd p * snd q) * (tilde (step x p) s * tilde (step y q) s) * (tilde (step x p) t * tilde (step y q) t)))).
        apply so_ext. intros p _. rewrite (avg_so L (fun q t => 4 * (snd p * snd q) * (tilde (step x p) s * tilde (step y q) s) * (tilde (step x p) t * tilde (step y q) t))).
        apply so_ext. intros q _. rewrite avg_scal, cov_tilde. reflexivity. }
    rewrite (avg_so K (fun p s => sum_over L (fun q => 4 * (snd p * snd q) * (tilde (step x p) s * tilde (step y q) s) * cov (step x p) (step y q)))).
    rewrite <- so_scal. apply so_ext. intros p _. rewrite <- so_scal.
    rewrite (avg_so L (fun q s => 4 * (snd p * snd q) * (tilde (step x p) s * tilde (step y q) s) * cov (step x p) (step y q))).
    apply so_ext. intros q _. rewrite avg_scal_r, avg_scal, cov_tilde. ring.
  Qed.
  Lemma dcov2_nonneg x y : 0 <= dcov2 T x y.
  Proof.
    destruct (layers (data x)) as [K HK], (layers (data y)) as [L HL]. rewrite (dcov2_layers x y K L HK HL).
    apply Rmult_le_pos; [lra|]. apply so_nonneg. intros p Hp. apply so_nonneg. intros q Hq.
    destruct HK as [HK _], HL as [HL _]. destruct (HK p Hp) as [Gp _], (HL q Hq) as [Gq _].
    apply Rmult_le_pos; [nra|apply pow2_ge_0].
  Qed.
  Lemma dcov2_zero x y : dcov2 T x y = 0 <-> independent T x y.
  Proof.
    destruct (layers (data x)) as [K HK], (layers (data y)) as [L HL]. rewrite (dcov2_layers x y K L HK HL). split.
    - intros E.
      assert (C : forall p q, In p K -> In q L -> cov (step x p) (step y q) = 0).
      { intros p q Hp Hq. destruct HK as [HK _], HL as [HL _].
        assert (P : forall p q, In p K -> In q L -> 0 <= snd p * snd q * cov (step x p) (step y q) ^ 2).
        { intros p' q' Hp' Hq'. destruct (HK p' Hp') as [Gp _], (HL q' Hq') as [Gq _]. apply Rmult_le_pos; [nra|apply pow2_ge_0]. }
        assert (E1 : sum_over L (fun q => snd p * snd q * cov (step x p) (step y q) ^ 2) = 0).
        { apply (so_nonneg_zero (fun p => sum_over L (fun q => snd p * snd q * cov (step x p) (step y q) ^ 2)) K); [|lra|auto].
          intros p' Hp'. apply so_nonneg. intros. auto. }
        assert (E2 : snd p * snd q * cov (step x p) (step y q) ^ 2 = 0).
        { apply (so_nonneg_zero (fun q => snd p * snd q * cov (step x p) (step y q) ^ 2) L); auto. }
        destruct (HK p Hp) as [Gp _], (HL q Hq) as [Gq _]. apply Rmult_integral in E2. destruct E2 as [E2|E2]; [nra|].
        replace (cov (step x p) (step y q) ^ 2) with (cov (step x p) (step y q) * cov (step x p) (step y q)) in E2 by ring.
        apply Rmult_integral in E2. tauto. }
      intros a b.
      destruct (threshold_cases _ _ a HK) as [H|[H|[p [Hp H]]]].
      + rewrite (avg_ext (fun t => below (x t) a * below (y t) b) (fun _ => 0)), (avg_ext (fun t => below (x t) a) (fun _ => 0)), !avg_const;
          [ring|intros; rewrite H by (apply in_data; auto); ring..].
      + rewrite (avg_ext (fun t => below (x t) a * below (y t) b) (fun t => below (y t) b)), (avg_ext (fun t => below (x t) a) (fun _ => 1)), !avg_const;
          [ring|intros; rewrite H by (apply in_data; auto); ring..].
      + destruct (threshold_cases _ _ b HL) as [H'|[H'|[q [Hq H']]]].
        * rewrite (avg_ext (fun t => below (x t) a * below (y t) b) (fun _ => 0)), (avg_ext (fun t => below (y t) b) (fun _ => 0)), !avg_const;
          [ring|intros; rewrite H' by (apply in_data; auto); ring..].
        * rewrite (avg_ext (fun t => below (x t) a * below (y t) b) (fun t => below (x t) a)), (avg_ext (fun t => below (y t) b) (fun _ => 1)), !avg_const;
          [ring|intros; rewrite H' by (apply in_data; auto); ring..].
        * specialize (C p q Hp Hq). unfold cov in C.
          rewrite (avg_ext (fun t => below (x t) a * below (y t) b) (fun t => step x p t * step y q t)), (avg_ext (fun t => below (x t) a) (step x p)), (avg_ext (fun t => below (y t) b) (step y q));
          [lra|intros; rewrite ?H, ?H' by (apply in_data; auto); ring..].
    - intros I. rewrite so_zero; [ring|]. intros p _. apply so_zero. intros q _. unfold cov. rewrite (I (fst p) (fst q)). ring.
  Qed.

  (** The distances are recovered from the centred ones. *)
  Lemma uncentre x s t : pairwise x s t = centred T (pairwise x) s t - (centred T (pairwise x) s s + centred T (pairwise x) t t) / 2.
  Proof.
    rewrite !centred_avg.
    assert (E : forall s, m (fun s0 => pairwise x s0 s) = m (fun t => pairwise x s t)) by (intros; apply avg_ext; intros; rewrite !pairwise_abs; apply Rabs_minus_sym).
    rewrite !E. assert (Z : forall s, pairwise x s s = 0) by (intros; rewrite pairwise_abs, Rminus_diag_eq, Rabs_R0; auto). rewrite !Z. lra.
  Qed.
  Definition pairs : list (nat * nat) := list_prod O O.
  Lemma total_pairs a : total T a = sum_over pairs (fun p => a (fst p) (snd p)).
  Proof.
    clear HT. unfold total, pairs, obs. induction O as [|s l IH] in |- * at 1 3; [reflexivity|].
    rewrite so_cons. cbn [list_prod]. rewrite so_app, so_map. cbn [fst snd]. f_equal. exact IH.
  Qed.
  Lemma in_pairs p : In p pairs <-> (fst p < T)%nat /\ (snd p < T)%nat.
  Proof. clear HT. destruct p as [s t]. unfold pairs. rewrite in_prod_iff, !in_obs. cbn. tauto. Qed.
  Lemma total_sq x : total T (fun s t => centred T (pairwise x) s t ^ 2) = n * n * dcov2 T x x.
  Proof. rewrite <- total_szekely. unfold total. apply so_ext. intros. apply so_ext. intros. ring. Qed.
  Lemma varies_dec x : varies T x \/ forall s t, (s < T)%nat -> (t < T)%nat -> x s = x t.
  Proof.
    assert (K : forall l, (forall t, In t l -> (t < T)%nat) -> (exists t, In t l /\ x t <> x 0%nat) \/ forall t, In t l -> x t = x 0%nat).
    { clear HT. intros l _. induction l as [|a l [[t [Ht E]]|H]]; [right; intros t []|left; exists t; split; [right|]; auto|].
      destruct (Req_dec (x a) (x 0%nat)); [right; intros t [<-|Ht]; auto|left; exists a; split; [left|]; auto]. }
    destruct (K O ltac:(intros t; rewrite in_obs; auto)) as [[t [Ht E]]|H].
    - left. exists t, 0%nat. rewrite in_obs in Ht. auto.
    - right. intros s t Hs Ht. rewrite (H s), (H t); auto; apply in_obs; auto.
  Qed.
  Lemma dcov2_varies x : 0 < dcov2 T x x <-> varies T x.
  Proof.
    pose proof npos as Hn. split.
    - intros Hd. destruct (varies_dec x) as [V|C]; auto. exfalso.
      assert (E : total T (fun s t => centred T (pairwise x) s t ^ 2) = 0).
      { rewrite total_pairs. apply so_zero. intros p Hp. apply in_pairs in Hp.
        rewrite (centred_ext _ (fun _ _ => 0)); [|tauto|tauto|intros s t Hs Ht; rewrite pairwise_abs, (C s t), Rminus_diag_eq, Rabs_R0; auto].
        rewrite centred_avg, !avg_const. ring. }
      rewrite total_sq in E. assert (0 < n * n) by nra. pose proof (Rmult_lt_0_compat _ _ H Hd). lra.
    - intros [s [t [Hs [Ht E]]]]. destruct (Rle_lt_or_eq_dec _ _ (dcov2_nonneg x x)) as [H|H]; auto. exfalso. apply E.
      assert (Z : forall s t, (s < T)%nat -> (t < T)%nat -> centred T (pairwise x) s t = 0).
      { intros s' t' Hs' Ht'. assert (Q : centred T (pairwise x) s' t' ^ 2 = 0).
        { apply (so_nonneg_zero (fun p => centred T (pairwise x) (fst p) (snd p) ^ 2) pairs) with (x := (s', t')).
          - intros. apply pow2_ge_0.
          - rewrite <- (total_pairs (fun s t => centred T (pairwise x) s t ^ 2)), total_sq, <- H. ring.
          - apply in_pairs. auto. }
        replace (centred T (pairwise x) s' t' ^ 2) with (centred T (pairwise x) s' t' * centred T (pairwise x) s' t') in Q by ring.
        apply Rmult_integral in Q. tauto. }
      pose proof (uncentre x s t) as U. rewrite !Z, pairwise_abs in U by auto.
      assert (U2 : Rabs (x s - x t) = 0) by lra. destruct (Req_dec (x s - x t) 0) as [F|F]; [lra|]. apply Rabs_no_R0 in F. contradiction.
  Qed.
  Lemma dcov2_cauchy x y : dcov2 T x y ^ 2 <= dcov2 T x x * dcov2 T y y.
  Proof.
    pose proof npos as Hn.
    pose proof (so_cauchy (fun p => centred T (pairwise x) (fst p) (snd p)) (fun p => centred T (pairwise y) (fst p) (snd p)) pairs) as H. cbv beta in H.
    rewrite <- (total_pairs (fun s t => centred T (pairwise x) s t * centred T (pairwise y) s t)) in H.
    rewrite <- (total_pairs (fun s t => centred T (pairwise x) s t ^ 2)), <- (total_pairs (fun s t => centred T (pairwise y) s t ^ 2)) in H.
    rewrite total_szekely, !total_sq in H.
    replace ((n * n * dcov2 T x y) ^ 2) with ((n * n) ^ 2 * dcov2 T x y ^ 2) in H by ring.
    replace (n * n * dcov2 T x x * (n * n * dcov2 T y y)) with ((n * n) ^ 2 * (dcov2 T x x * dcov2 T y y)) in H by ring.
    apply (Rmult_le_reg_l ((n * n) ^ 2)); auto. apply pow_lt. nra.
  Qed.

  Lemma dcov2_scale x y x' y' k l :
    (forall s t, (s < T)%nat -> (t < T)%nat -> Rabs (x' s - x' t) = k * Rabs (x s - x t)) ->
    (forall s t, (s < T)%nat -> (t < T)%nat -> Rabs (y' s - y' t) = l * Rabs (y s - y t)) ->
    dcov2 T x' y' = k * l * dcov2 T x y.
  Proof.
    intros Hx Hy. unfold dcov2.
    rewrite (avg_ext (fun s => m (fun t => Rabs (x' s - x' t) * Rabs (y' s - y' t))) (fun s => (k * l) * m (fun t => Rabs (x s - x t) * Rabs (y s - y t)))).
    2:{ intros s Hs. rewrite <- avg_scal. apply avg_ext. intros t Ht. rewrite Hx, Hy by auto. ring. }
    rewrite (avg_ext (fun s => m (fun t => Rabs (x' s - x' t))) (fun s => k * m (fun t => Rabs (x s - x t)))).
    2:{ intros s Hs. rewrite <- avg_scal. apply avg_ext. intros t Ht. rewrite Hx by auto. ring. }
    rewrite (avg_ext (fun s => m (fun t => Rabs (y' s - y' t))) (fun s => l * m (fun t => Rabs (y s - y t)))).
    2:{ intros s Hs. rewrite <- avg_scal. apply avg_ext. intros t Ht. rewrite Hy by auto. ring. }
    rewrite (avg_ext (fun s => m (fun t => m (fun u => Rabs (x' s - x' t) * Rabs (y' s - y' u)))) (fun s => (k * l) * m (fun t => m (fun u => Rabs (x s - x t) * Rabs (y s - y u))))).
    2:{ intros s Hs. rewrite <- avg_scal. apply avg_ext. intros t Ht. rewrite <- avg_scal. apply avg_ext. intros u Hu. rewrite Hx, Hy by auto. ring. }
    rewrite !avg_scal. ring.
  Qed.
  Lemma dcov2_sym x y : dcov2 T x y = dcov2 T y x.
  Proof.
    pose proof npos as Hn. apply (Rmult_eq_reg_l (n * n)); [|nra]. rewrite <- !total_szekely. unfold total.
    apply so_ext. intros. apply so_ext. intros. ring.
  Qed.
  Lemma affine_abs x y : affine T x y -> exists k, 0 < k /\ forall s t, (s < T)%nat -> (t < T)%nat -> Rabs (y s - y t) = k * Rabs (x s - x t).
  Proof.
    clear HT. intros [a [b [Hb E]]]. exists (Rabs b). split; [apply Rabs_pos_lt; auto|]. intros s t Hs Ht. rewrite (E s), (E t), <- Rabs_mult by auto. f_equal. ring.
  Qed.
  Lemma isometry x y k : 0 < k -> varies T x -> (forall s t, (s < T)%nat -> (t < T)%nat -> Rabs (y s - y t) = k * Rabs (x s - x t)) -> affine T x y.
  Proof.
    clear HT. intros Hk [p [q [Hp [Hq N]]]] E.
    assert (Sq : forall s t, (s < T)%nat -> (t < T)%nat -> (y s - y t) ^ 2 = k ^ 2 * (x s - x t) ^ 2).
    { intros s t Hs Ht. rewrite <- (pow2_abs (y s - y t)), <- (pow2_abs (x s - x t)), E by auto. ring. }
    set (b := (y q - y p) / (x q - x p)). assert (Nx : x q - x p <> 0) by lra.
    assert (Eb : y q - y p = b * (x q - x p)) by (unfold b; field; auto).
    assert (Eb2 : b ^ 2 = k ^ 2).
    { pose proof (Sq q p Hq Hp) as S0. rewrite Eb in S0. apply (Rmult_eq_reg_r ((x q - x p) ^ 2)); [|apply pow_nonzero; auto]. rewrite <- S0. ring. }
    assert (Nb : b <> 0). { intros Z. rewrite Z in Eb2. assert (0 < k ^ 2) by (apply pow_lt; auto). replace (0 ^ 2) with 0 in Eb2 by ring. lra. }
    exists (y p - b * x p), b. split; auto. intros t Ht.
    pose proof (Sq t p Ht Hp) as S1. pose proof (Sq t q Ht Hq) as S2. rewrite <- Eb2 in S1, S2.
    assert (D : (b * (x q - x p)) * (2 * y t - y p - y q) = b ^ 2 * ((x q - x p) * (2 * x t - x p - x q))).
    { rewrite <- Eb. replace ((y q - y p) * (2 * y t - y p - y q)) with ((y t - y p) ^ 2 - (y t - y q) ^ 2) by ring. rewrite S1, S2. ring. }
    assert (D2 : 2 * y t - y p - y q = b * (2 * x t - x p - x q)).
    { apply (Rmult_eq_reg_l (b * (x q - x p))); [rewrite D; ring|]. apply Rmult_integral_contrapositive. auto. }
    lra.
  Qed.
  Lemma cauchy_equality x y : varies T x -> varies T y -> dcov2 T x y ^ 2 = dcov2 T x x * dcov2 T y y -> affine T x y.
  Proof.
    intros Vx Vy E. pose proof npos as Hn. apply dcov2_varies in Vx as Px. apply dcov2_varies in Vy as Py.
    assert (Pxy : 0 < dcov2 T x y).
    { destruct (Rle_lt_or_eq_dec _ _ (dcov2_nonneg x y)) as [H|H]; auto. rewrite <- H in E. assert (0 < dcov2 T x x * dcov2 T y y) by (apply Rmult_lt_0_compat; auto).
      replace (0 ^ 2) with 0 in E by ring. lra. }
    set (k := dcov2 T x y / dcov2 T x x).
    assert (Hk : 0 < k) by (unfold k; apply Rdiv_lt_0_compat; auto).
    assert (Z : sum_over pairs (fun p => (centred T (pairwise y) (fst p) (snd p) - k * centred T (pairwise x) (fst p) (snd p)) ^ 2) = 0).
    { rewrite (so_ext _ (fun p => centred T (pairwise y) (fst p) (snd p) ^ 2 - (2 * k) * (centred T (pairwise x) (fst p) (snd p) * centred T (pairwise y) (fst p) (snd p)) + k ^ 2 * (centred T (pairwise x) (fst p) (snd p) ^ 2))) by (intros; ring).
      rewrite so_add, so_sub, !so_scal.
      rewrite <- (total_pairs (fun s t => centred T (pairwise x) s t * centred T (pairwise y) s t)).
      rewrite <- (total_pairs (fun s t => centred T (pairwise x) s t ^ 2)), <- (total_pairs (fun s t => centred T (pairwise y) s t ^ 2)).
      rewrite total_szekely, !total_sq. unfold k.
      replace (dcov2 T y y) with (dcov2 T x y ^ 2 / dcov2 T x x) by (rewrite E; field; lra). field. lra. }
    assert (C : forall s t, (s < T)%nat -> (t < T)%nat -> centred T (pairwise y) s t = k * centred T (pairwise x) s t).
    { intros s t Hs Ht.
      assert (Q := so_nonneg_zero (fun p => (centred T (pairwise y) (fst p) (snd p) - k * centred T (pairwise x) (fst p) (snd p)) ^ 2) pairs
        (fun p _ => pow2_ge_0 _) Z (s, t) (proj2 (in_pairs (s, t)) (conj Hs Ht))). cbn [fst snd] in Q.
      replace ((centred T (pairwise y) s t - k * centred T (pairwise x) s t) ^ 2) with
        ((centred T (pairwise y) s t - k * centred T (pairwise x) s t) * (centred T (pairwise y) s t - k * centred T (pairwise x) s t)) in Q by ring.
      apply Rmult_integral in Q. lra. }
    apply (isometry x y k); auto. intros s t Hs Ht. rewrite <- !pairwise_abs, (uncentre y), (uncentre x s t), !C by auto. field.
  Qed.

  Lemma np_sqrt_ok v : 0 <= v -> np_sqrt v = Some (sqrt v).
  Proof. clear HT. intros H. unfold np_sqrt. destruct Rlt_dec; [lra|auto]. Qed.
  Lemma dcorr_spec x y : dcorr T x y =
    np_div (sqrt (n * n * dcov2 T x y)) (sqrt (sqrt (n * n * dcov2 T x x) * sqrt (n * n * dcov2 T y y))).
  Proof.
    pose proof npos as Hn. unfold dcorr. rewrite total_szekely, !total_sq.
    pose proof (dcov2_nonneg x y). pose proof (dcov2_nonneg x x). pose proof (dcov2_nonneg y y).
    assert (0 <= n * n) by nra.
    rewrite (np_sqrt_ok (n * n * dcov2 T x y)) by (apply Rmult_le_pos; auto). cbn [bind].
    rewrite (np_sqrt_ok (n * n * dcov2 T x x)) by (apply Rmult_le_pos; auto). cbn [bind].
    rewrite (np_sqrt_ok (n * n * dcov2 T y y)) by (apply Rmult_le_pos; auto). cbn [bind].
    rewrite np_sqrt_ok by (apply Rmult_le_pos; apply sqrt_pos). reflexivity.
  Qed.
  Lemma dcorr_value x y : varies T x -> varies T y -> dcorr T x y = Some (sqrt (dcov2 T x y) / sqrt (sqrt (dcov2 T x x) * sqrt (dcov2 T y y))).
  Proof.
    pose proof npos as Hn. intros Vx Vy. apply dcov2_varies in Vx. apply dcov2_varies in Vy. pose proof (dcov2_nonneg x y).
    rewrite dcorr_spec. assert (Hnn : 0 <= n * n) by nra.
    rewrite (sqrt_mult (n * n) (dcov2 T x y)), (sqrt_mult (n * n) (dcov2 T x x)), (sqrt_mult (n * n) (dcov2 T y y)), !sqrt_square by (first [lra|nra]).
    assert (Sx := sqrt_lt_R0 _ Vx). assert (Sy := sqrt_lt_R0 _ Vy).
    replace (n * sqrt (dcov2 T x x) * (n * sqrt (dcov2 T y y))) with (n * n * (sqrt (dcov2 T x x) * sqrt (dcov2 T y y))) by ring.
    assert (P : 0 < sqrt (dcov2 T x x) * sqrt (dcov2 T y y)) by (apply Rmult_lt_0_compat; auto).
    rewrite (sqrt_mult (n * n)), sqrt_square by (first [lra|nra]). assert (Sp := sqrt_lt_R0 _ P).
    unfold np_div. destruct Req_EM_T as [Z|_].
    - exfalso. apply Rmult_integral in Z. destruct Z; lra.
    - f_equal. field. split; lra.
  Qed.
  Lemma dcorr_nan x y : ~ varies T x \/ ~ varies T y -> dcorr T x y = None.
  Proof.
    intros V. rewrite dcorr_spec. unfold np_div. destruct Req_EM_T as [_|N]; auto. exfalso. apply N.
    assert (Z : dcov2 T x x = 0 \/ dcov2 T y y = 0).
    { rewrite <- !dcov2_varies in V. pose proof (dcov2_nonneg x x). pose proof (dcov2_nonneg y y). destruct V; [left|right]; lra. }
    destruct Z as [-> | ->]; rewrite Rmult_0_r, sqrt_0, ?Rmult_0_r, ?Rmult_0_l; apply sqrt_0.
  Qed.
  Lemma dcorr_bounds x y c : dcorr T x y = Some c -> varies T x /\ varies T y /\ 0 <= c <= 1 /\ (c = 0 <-> dcov2 T x y = 0) /\ (c = 1 <-> affine T x y).
  Proof.
    intros E.
    assert (Vx : varies T x). { destruct (varies_dec x) as [V|V]; auto. rewrite dcorr_nan in E; [discriminate|left]. intros [s [t [Hs [Ht N]]]]. auto. }
    assert (Vy : varies T y). { destruct (varies_dec y) as [V|V]; auto. rewrite dcorr_nan in E; [discriminate|right]. intros [s [t [Hs [Ht N]]]]. auto. }
    rewrite (dcorr_value x y Vx Vy) in E. injection E as <-. split; auto. split; auto.
    apply dcov2_varies in Vx as Px. apply dcov2_varies in Vy as Py.
    assert (Sx := sqrt_lt_R0 _ Px). assert (Sy := sqrt_lt_R0 _ Py).
    assert (P : 0 < sqrt (dcov2 T x x) * sqrt (dcov2 T y y)) by (apply Rmult_lt_0_compat; auto).
    assert (Sp := sqrt_lt_R0 _ P). pose proof (dcov2_nonneg x y) as Nxy. pose proof (dcov2_cauchy x y) as C.
    assert (Q : (sqrt (dcov2 T x x) * sqrt (dcov2 T y y)) ^ 2 = dcov2 T x x * dcov2 T y y).
    { replace ((sqrt (dcov2 T x x) * sqrt (dcov2 T y y)) ^ 2) with ((sqrt (dcov2 T x x)) ^ 2 * (sqrt (dcov2 T y y)) ^ 2) by ring. rewrite !pow2_sqrt by lra. reflexivity. }
    assert (L : dcov2 T x y <= sqrt (dcov2 T x x) * sqrt (dcov2 T y y)).
    { apply Rsqr_incr_0_var; [|lra]. rewrite !Rsqr_pow2, Q. exact C. }
    split; [split|split].
    - apply Rmult_le_pos; [apply sqrt_pos|]. left. apply Rinv_0_lt_compat. auto.
    - apply Rmult_le_reg_r with (sqrt (sqrt (dcov2 T x x) * sqrt (dcov2 T y y))); auto.
      unfold Rdiv. rewrite Rmult_assoc, Rinv_l, Rmult_1_r, Rmult_1_l by lra. apply sqrt_le_1; lra.
    - split; intros E.
      + unfold Rdiv in E. apply Rmult_integral in E. destruct E as [E|E]; [apply sqrt_eq_0; auto|].
        assert (N := Rinv_neq_0_compat _ (Rgt_not_eq _ _ Sp)). contradiction.
      + rewrite E, sqrt_0. unfold Rdiv. ring.
    - split; intros E.
      + apply cauchy_equality; auto. rewrite <- Q. f_equal.
        apply sqrt_inj; [lra|lra|]. apply (Rmult_eq_compat_r (sqrt (sqrt (dcov2 T x x) * sqrt (dcov2 T y y)))) in E.
        unfold Rdiv in E. rewrite Rmult_assoc, Rinv_l, Rmult_1_r, Rmult_1_l in E by lra. exact E.
      + destruct (affine_abs x y E) as [k [Hk A]].
        rewrite (dcov2_scale x x x y 1 k), (dcov2_scale x x y y k k); auto; [|intros; ring].
        set (d := dcov2 T x x) in *. replace (k * k * d) with (k ^ 2 * d) by ring. rewrite (sqrt_mult (k ^ 2)), sqrt_pow2 by (try apply pow2_ge_0; lra).
        replace (sqrt d * (k * sqrt d)) with (k * (sqrt d * sqrt d)) by ring. rewrite sqrt_sqrt by lra. replace (1 * k * d) with (k * d) by ring.
        unfold Rdiv. apply Rinv_r. assert (0 < sqrt (k * d)) by (apply sqrt_lt_R0, Rmult_lt_0_compat; auto). lra.
  Qed.
  Lemma dcorr_sym x y : dcorr T x y = dcorr T y x.
  Proof. rewrite !dcorr_spec. rewrite (dcov2_sym x y). f_equal. f_equal. ring. Qed.
  Lemma codependence_eq X i j : i <> j -> codependence T X i j = dcorr T (fun t => X t i) (fun t => X t j).
  Proof.
    intros N. unfold codependence. destruct (Nat.ltb_spec i j); auto. destruct (Nat.ltb_spec j i); [apply dcorr_sym|lia].
  Qed.
  Lemma distance_eq X i j c : codependence T X i j = Some c -> 0 <= c <= 1 -> distance T X i j = Some (sqrt (1 - c)).
  Proof.
    clear HT. intros E H. unfold distance. rewrite E. cbn [bind]. unfold clip. rewrite Rmax_left, Rmin_left by lra. apply np_sqrt_ok. lra.
  Qed.
End Fixed.

(** * C69 *)

(** Off the diagonal the codependence is Szekely's distance correlation of the two columns when both vary, and NaN as
    soon as one is constant; it is one on the diagonal. The distance is NaN where the codependence is, else sqrt(1 - c). *)
Theorem C69_szekely : forall T X i j, (0 < T)%nat ->
  let x t := X t i in let y t := X t j in
  (i <> j -> varies T x -> varies T y -> 0 < dcov2 T x x /\ 0 < dcov2 T y y /\
     codependence T X i j = Some (sqrt (dcov2 T x y) / sqrt (sqrt (dcov2 T x x) * sqrt (dcov2 T y y)))) /\
  (i <> j -> ~ varies T x \/ ~ varies T y -> codependence T X i j = None /\ distance T X i j = None) /\
  (i = j -> codependence T X i j = Some 1 /\ distance T X i j = Some 0) /\
  (forall c, codependence T X i j = Some c -> 0 <= c <= 1 /\ distance T X i j = Some (sqrt (1 - c))).
Proof.
  intros T X i j HT x y. split; [|split; [|split]].
  - intros N Vx Vy. rewrite !dcov2_varies by auto. split; auto. split; auto. rewrite codependence_eq by auto. apply dcorr_value; auto.
  - intros N V. assert (E : codependence T X i j = None) by (rewrite codependence_eq by auto; apply dcorr_nan; auto).
    split; auto. unfold distance. rewrite E. reflexivity.
  - intros <-. assert (E : codependence T X i i = Some 1) by (unfold codependence; rewrite Nat.ltb_irrefl; reflexivity).
    split; auto. rewrite (distance_eq _ _ _ _ _ E) by lra. replace (1 - 1) with 0 by ring. rewrite sqrt_0. reflexivity.
  - intros c E. assert (B : 0 <= c <= 1).
    { destruct (Nat.eq_dec i j) as [<-|N].
      - unfold codependence in E. rewrite Nat.ltb_irrefl in E. injection E as <-. lra.
      - rewrite codependence_eq in E by auto. apply dcorr_bounds in E; tauto. }
    split; auto. apply distance_eq; auto.
Qed.
Theorem C69_symmetric : forall T X i j, (0 < T)%nat ->
  codependence T X i j = codependence T X j i /\ distance T X i j = distance T X j i.
Proof.
  intros T X i j HT. assert (E : codependence T X i j = codependence T X j i).
  { destruct (Nat.eq_dec i j) as [<-|N]; auto. rewrite !codependence_eq by auto. apply dcorr_sym; auto. }
  split; auto. unfold distance. rewrite E. reflexivity.
Qed.
(** The codependence is zero exactly when the two assets are independent in the sample (the distance is then one). *)
Theorem C69_independence : forall T X i j c, (0 < T)%nat -> i <> j -> codependence T X i j = Some c ->
  (c = 0 <-> independent T (fun t => X t i) (fun t => X t j)).
Proof.
  intros T X i j c HT N E. rewrite codependence_eq in E by auto. apply dcorr_bounds in E; auto. rewrite <- dcov2_zero by auto. tauto.
Qed.
(** It is one, and the distance zero, exactly when one asset is an affine image of the other. *)
Theorem C69_affine : forall T X i j c, (0 < T)%nat -> i <> j -> codependence T X i j = Some c ->
  (c = 1 <-> affine T (fun t => X t i) (fun t => X t j)) /\
  (distance T X i j = Some 0 <-> affine T (fun t => X t i) (fun t => X t j)).
Proof.
  intros T X i j c HT N E. assert (E' := E). rewrite codependence_eq in E' by auto. apply dcorr_bounds in E'; auto.
  destruct E' as [_ [_ [B [_ A]]]]. split; auto. rewrite (distance_eq _ _ _ _ _ E B), <- A. split.
  - intros H. injection H as H. apply sqrt_eq_0 in H; lra.
  - intros ->. replace (1 - 1) with 0 by ring. rewrite sqrt_0. reflexivity.
Qed.
(** Nothing changes when the assets are shifted and rescaled, by negative factors too. *)
Theorem C69_invariance : forall T X a b i j, (0 < T)%nat -> (forall k, b k <> 0) ->
  codependence T (fun t k => a k + b k * X t k) i j = codependence T X i j /\
  distance T (fun t k => a k + b k * X t k) i j = distance T X i j.
Proof.
  intros T X a b i j HT Hb.
  assert (E : codependence T (fun t k => a k + b k * X t k) i j = codependence T X i j).
  { destruct (Nat.eq_dec i j) as [<-|N]; [unfold codependence; rewrite Nat.ltb_irrefl; auto|].
    rewrite !codependence_eq by auto.
    assert (A : forall k, exists l, 0 < l /\ forall s t, (s < T)%nat -> (t < T)%nat -> Rabs (a k + b k * X s k - (a k + b k * X t k)) = l * Rabs (X s k - X t k)).
    { intros k. apply (affine_abs T (fun t => X t k) (fun t => a k + b k * X t k)). exists (a k), (b k). auto. }
    destruct (A i) as [l [Hl Al]], (A j) as [r [Hr Ar]].
    assert (V : forall k, varies T (fun t => a k + b k * X t k) <-> varies T (fun t => X t k)).
    { intros k. split; intros [s [t [Hs [Ht Nx]]]]; exists s, t; split; auto; split; auto; intros Z; apply Nx.
      - rewrite Z. reflexivity.
      - apply (Rmult_eq_reg_l (b k)); auto. lra. }
    destruct (varies_dec T HT (fun t => X t i)) as [Vi|Ci].
    - destruct (varies_dec T HT (fun t => X t j)) as [Vj|Cj].
      + rewrite !dcorr_value; auto; try (apply V; auto). f_equal.
        rewrite (dcov2_scale T (fun t => X t i) (fun t => X t j) (fun t => a i + b i * X t i) (fun t => a j + b j * X t j) l r Al Ar),
          (dcov2_scale T (fun t => X t i) (fun t => X t i) (fun t => a i + b i * X t i) (fun t => a i + b i * X t i) l l Al Al),
          (dcov2_scale T (fun t => X t j) (fun t => X t j) (fun t => a j + b j * X t j) (fun t => a j + b j * X t j) r r Ar Ar).
        apply (dcov2_varies T HT) in Vi. apply (dcov2_varies T HT) in Vj.
        assert (Si := sqrt_lt_R0 _ Vi). assert (Sj := sqrt_lt_R0 _ Vj).
        assert (P : 0 < sqrt (dcov2 T (fun t => X t i) (fun t => X t i)) * sqrt (dcov2 T (fun t => X t j) (fun t => X t j))) by (apply Rmult_lt_0_compat; auto).
        assert (Sp := sqrt_lt_R0 _ P). pose proof (dcov2_nonneg T HT (fun t => X t i) (fun t => X t j)).
        rewrite (sqrt_mult (l * l)), (sqrt_mult (r * r)), !sqrt_square by (first [lra|nra]).
        replace (l * sqrt (dcov2 T (fun t => X t i) (fun t => X t i)) * (r * sqrt (dcov2 T (fun t => X t j) (fun t => X t j))))
          with (l * r * (sqrt (dcov2 T (fun t => X t i) (fun t => X t i)) * sqrt (dcov2 T (fun t => X t j) (fun t => X t j)))) by ring.
        assert (Plr : 0 < l * r) by (apply Rmult_lt_0_compat; auto). assert (Slr := sqrt_lt_R0 _ Plr).
        rewrite (sqrt_mult (l * r) (dcov2 T (fun t => X t i) (fun t => X t j))), (sqrt_mult (l * r) (_ * _)) by lra. field. split; lra.
      + rewrite !dcorr_nan; auto; right; rewrite ?V; intros [s [t [Hs [Ht Nx]]]]; auto.
    - rewrite !dcorr_nan; auto; left; rewrite ?V; intros [s [t [Hs [Ht Nx]]]]; auto. }
  split; auto. unfold distance. rewrite E. reflexivity.
Qed.

(** Non-vacuity: four observations; assets 0 and 1 run through all combinations of two values, asset 2 is minus twice
    asset 0 plus one, asset 3 is constant. *)
Definition example_X (t i : nat) : R :=
  match i with
  | 0%nat => match t with 0%nat | 1%nat => 0 | _ => 1 end
  | 1%nat => match t with 0%nat | 2%nat => 0 | _ => 1 end
  | 2%nat => match t with 0%nat | 1%nat => 1 | _ => -1 end
  | _ => 5
  end.
Example C69_hypotheses_met :
  varies 4 (fun t => example_X t 0) /\ varies 4 (fun t => example_X t 1) /\
  codependence 4 example_X 0 1 = Some 0 /\ distance 4 example_X 0 1 = Some 1 /\
  codependence 4 example_X 0 2 = Some 1 /\ distance 4 example_X 2 0 = Some 0 /\
  codependence 4 example_X 0 3 = None /\ codependence 4 example_X 3 3 = Some 1.
Proof.
  assert (V0 : varies 4 (fun t => example_X t 0)) by (exists 0%nat, 2%nat; cbn; repeat split; try lia; lra).
  assert (V1 : varies 4 (fun t => example_X t 1)) by (exists 0%nat, 1%nat; cbn; repeat split; try lia; lra).
  assert (V2 : varies 4 (fun t => example_X t 2)) by (exists 0%nat, 2%nat; cbn; repeat split; try lia; lra).
  assert (H4 : (0 < 4)%nat) by lia.
  destruct (C69_szekely 4 example_X 0 1 H4) as [A _]. destruct (A ltac:(lia) V0 V1) as [_ [_ E01]]. clear A.
  destruct (C69_szekely 4 example_X 0 2 H4) as [A _]. destruct (A ltac:(lia) V0 V2) as [_ [_ E02]]. clear A.
  assert (I : independent 4 (fun t => example_X t 0) (fun t => example_X t 1)).
  { intros a b. unfold avg, sum_over, rsum. cbn. set (p := below 0 a). set (q := below 1 a). set (r := below 0 b). set (u := below 1 b). field. }
  assert (F : affine 4 (fun t => example_X t 0) (fun t => example_X t 2)).
  { exists 1, (-2). split; [lra|]. intros t Ht. do 4 (destruct t as [|t]; [cbn; lra|]). lia. }
  apply (C69_independence 4 example_X 0 1 _ H4 ltac:(lia) E01) in I. rewrite I in E01.
  destruct (C69_affine 4 example_X 0 2 _ H4 ltac:(lia) E02) as [B C]. apply B in F as F'. rewrite F' in E02. apply C in F.
  split; [exact V0|]. split; [exact V1|]. split; [exact E01|]. split.
  { destruct (C69_szekely 4 example_X 0 1 H4) as [_ [_ [_ D]]]. destruct (D _ E01) as [_ ->]. f_equal. replace (1 - 0) with 1 by ring. apply sqrt_1. }
  split; [exact E02|]. split; [destruct (C69_symmetric 4 example_X 0 2 H4) as [_ <-]; exact F|]. split; [|reflexivity].
  apply (C69_szekely 4 example_X 0 3 H4); [lia|]. right. intros [s [t [_ [_ N]]]]. apply N. reflexivity.
Qed.
Print Assumptions C69_szekely.
Print Assumptions C69_symmetric.
Print Assumptions C69_independence.
Print Assumptions C69_affine.
Print Assumptions C69_invariance.
