(** C67: the empirical and the exponentially weighted moments are the (weighted) averages over the
    chosen window, and they are the moments of every portfolio. *)
From Coq Require Import Reals List Arith ZArith Bool Lia Lra.
From Verif Require Import RList MomentsModel.
Import ListNotations.
Local Open Scope R_scope.

(** ** Specification *)
Definition total (n : nat) (f : nat -> R) : R := sum_over (seq 0 n) f.

(** Probabilities given to the T observations, oldest first *)
Definition equal (T t : nat) : R := 1 / INR T.
Definition decaying (alpha : R) (T t : nat) : R :=
  (1 - alpha) ^ (T - 1 - t) / total T (fun s => (1 - alpha) ^ (T - 1 - s)).

(** Averages and co-movements of series under probabilities *)
Definition average (T : nat) (p : nat -> R) (x : nat -> R) : R := total T (fun t => p t * x t).
Definition comovement (T : nat) (p : nat -> R) (x y : nat -> R) : R :=
  average T p (fun t => (x t - average T p x) * (y t - average T p y)).

(** the t-th return of asset i and of the portfolio holding v *)
Definition at_ (X : list obs) (i t : nat) : R := nth t X (fun _ => 0) i.
Definition held (n : nat) (v : nat -> R) (X : list obs) (t : nat) : R :=
  total n (fun i => v i * at_ X i t).

(** ** Sums *)
Lemma total_ext n f g : (forall i, (i < n)%nat -> f i = g i) -> total n f = total n g.
Proof. intros H. apply so_ext. intros i Hi. apply in_seq in Hi. apply H. lia. Qed.
Lemma total_S n f : total (S n) f = total n f + f n.
Proof. unfold total. rewrite seq_S, so_app, so_cons, so_nil. simpl. lra. Qed.
Lemma total_scal n c f : total n (fun i => c * f i) = c * total n f.
Proof. apply so_scal. Qed.
Lemma total_scal_r n c f : total n (fun i => f i * c) = total n f * c.
Proof. apply so_scal_r. Qed.
Lemma total_add n f g : total n (fun i => f i + g i) = total n f + total n g.
Proof. apply so_add. Qed.
Lemma total_sub n f g : total n (fun i => f i - g i) = total n f - total n g.
Proof. apply so_sub. Qed.
Lemma total_const n c : total n (fun _ => c) = INR n * c.
Proof. unfold total. rewrite so_const, seq_length. reflexivity. Qed.
Lemma total_nonneg n f : (forall i, (i < n)%nat -> 0 <= f i) -> 0 <= total n f.
Proof. intros H. apply so_nonneg. intros i Hi. apply in_seq in Hi. apply H. lia. Qed.
Lemma total_le n f g : (forall i, (i < n)%nat -> f i <= g i) -> total n f <= total n g.
Proof. intros H. apply so_le. intros i Hi. apply in_seq in Hi. apply H. lia. Qed.
Lemma total_swap m n f : total m (fun i => total n (f i)) = total n (fun j => total m (fun i => f i j)).
Proof. unfold total. apply so_swap. Qed.
Lemma list_total {A} (g : A -> R) d l : sum_over l g = total (length l) (fun t => g (nth t l d)).
Proof.
  unfold total. induction l as [|x l IH]; [reflexivity|].
  simpl length. cbn [seq]. rewrite !so_cons, <- seq_shift, so_map, IH. reflexivity.
Qed.

(** ** Portfolios *)
Lemma average_held T p n v X :
  average T p (held n v X) = total n (fun i => v i * average T p (at_ X i)).
Proof.
  unfold average, held.
  rewrite (total_ext T _ (fun t => total n (fun i => v i * (p t * at_ X i t)))).
  2: { intros t _. rewrite <- total_scal. apply total_ext. intros; ring. }
  rewrite total_swap. apply total_ext. intros i _. rewrite total_scal. reflexivity.
Qed.
Lemma square_total n (f : nat -> R) : total n (fun i => total n (fun j => f i * f j)) = total n f ^ 2.
Proof.
  rewrite (total_ext n _ (fun i => f i * total n f)) by (intros; apply total_scal).
  rewrite total_scal_r. ring.
Qed.
Lemma comovement_held T p n v X :
  comovement T p (held n v X) (held n v X) =
  total n (fun i => total n (fun j => v i * comovement T p (at_ X i) (at_ X j) * v j)).
Proof.
  unfold comovement. rewrite average_held.
  set (m := fun i => average T p (at_ X i)).
  change (total n (fun i => v i * average T p (at_ X i))) with (total n (fun i => v i * m i)).
  transitivity (total T (fun t => p t * total n (fun i => total n (fun j => (v i * (at_ X i t - m i)) * (v j * (at_ X j t - m j)))))).
  - unfold average. apply total_ext. intros t _. rewrite square_total.
    assert (E : held n v X t - total n (fun i => v i * m i) = total n (fun i => v i * (at_ X i t - m i))).
    { unfold held. rewrite <- total_sub. apply total_ext. intros; ring. }
    rewrite E. ring.
  - rewrite (total_ext T _ (fun t => total n (fun i => total n (fun j => p t * ((v i * (at_ X i t - m i)) * (v j * (at_ X j t - m j))))))).
    2: { intros t _. rewrite <- total_scal. apply total_ext. intros i _. rewrite <- total_scal. reflexivity. }
    rewrite total_swap. apply total_ext. intros i _. rewrite total_swap. apply total_ext. intros j _.
    unfold average. fold (m i) (m j).
    rewrite (Rmult_comm (v i)), Rmult_assoc, (Rmult_comm _ (v i * v j)), <- total_scal.
    apply total_ext. intros t _. unfold m, average. ring.
Qed.
Lemma comovement_nonneg T p x : (forall t, (t < T)%nat -> 0 <= p t) -> 0 <= comovement T p x x.
Proof.
  intros H. apply total_nonneg. intros t Ht. specialize (H t Ht).
  apply Rmult_le_pos; [exact H|]. apply Rle_0_sqr.
Qed.
Lemma comovement_sym T p x y : comovement T p x y = comovement T p y x.
Proof. unfold comovement, average. apply total_ext. intros; ring. Qed.

(** ** The window *)
Lemma window_length {A} w (X : list A) : (0 < w)%Z ->
  length (window (Some w) X) = Nat.min (Z.to_nat w) (length X).
Proof.
  intros H. unfold window, slice_from.
  destruct (Z.ltb_spec (- w) 0); [|lia]. rewrite skipn_length. lia.
Qed.

(** ** Empirical moments *)
Lemma column_nth X i t : (t < length X)%nat -> nth t (column X i) 0 = at_ X i t.
Proof.
  intros H. exact (map_nth (fun r : nat -> R => r i) X (fun _ => 0) t).
Qed.
Lemma column_length X i : length (column X i) = length X.
Proof. apply map_length. Qed.
Lemma mean_average X i : mean (column X i) = average (length X) (equal (length X)) (at_ X i).
Proof.
  unfold mean, average, equal. rewrite column_length, total_scal.
  unfold column. change (rsum (map (fun r : nat -> R => r i) X)) with (sum_over X (fun r : nat -> R => r i)).
  rewrite (list_total _ (fun _ => 0)). unfold at_. unfold Rdiv. ring.
Qed.
Lemma combine_columns X i j : combine (column X i) (column X j) = map (fun r => (r i, r j)) X.
Proof. unfold column. induction X as [|r X IH]; simpl; congruence. Qed.
Lemma cov_comovement ddof X i j : (ddof < length X)%nat ->
  cov ddof (column X i) (column X j) =
  INR (length X) / (INR (length X) - INR ddof) * comovement (length X) (equal (length X)) (at_ X i) (at_ X j).
Proof.
  intros H. unfold cov, comovement. rewrite combine_columns, map_map, column_length, !mean_average. cbn [fst snd].
  set (T := length X). set (mi := average T (equal T) (at_ X i)). set (mj := average T (equal T) (at_ X j)).
  unfold average at 1, equal at 1. rewrite total_scal.
  change (rsum (map (fun x : nat -> R => (x i - mi) * (x j - mj)) X)) with (sum_over X (fun x : nat -> R => (x i - mi) * (x j - mj))).
  rewrite (list_total _ (fun _ => 0)). fold T. unfold at_.
  assert (INR T > 0) by (apply INR_pos; unfold T; lia).
  assert (INR T - INR ddof > 0) by (apply lt_INR in H; fold T in H; lra).
  field. split; lra.
Qed.

(** ** pandas' exponentially weighted mean *)
Definition S_ (f : R) (x : list R) : R := total (length x) (fun t => f ^ (length x - 1 - t) * nth t x 0).
Definition W_ (f : R) (n : nat) : R := total n (fun t => f ^ (n - 1 - t)).
Lemma S_snoc f l x : S_ f (l ++ [x]) = f * S_ f l + x.
Proof.
  unfold S_. rewrite app_length. simpl length. rewrite Nat.add_1_r, total_S.
  rewrite app_nth2, Nat.sub_diag by lia. simpl nth.
  replace (S (length l) - 1 - length l)%nat with 0%nat by lia.
  rewrite <- total_scal. rewrite (total_ext _ _ (fun i => f * (f ^ (length l - 1 - i) * nth i l 0))).
  - simpl. lra.
  - intros t Ht. rewrite app_nth1 by exact Ht.
    replace (S (length l) - 1 - t)%nat with (S (length l - 1 - t)) by lia. simpl. ring.
Qed.
Lemma W_S f n : W_ f (S n) = f * W_ f n + 1.
Proof.
  unfold W_. rewrite total_S, <- total_scal.
  replace (S n - 1 - n)%nat with 0%nat by lia. change (f ^ 0) with 1. f_equal.
  apply total_ext. intros t Ht. replace (S n - 1 - t)%nat with (S (n - 1 - t)) by lia. reflexivity.
Qed.
Lemma W_pos f n : 0 <= f -> (0 < n)%nat -> 1 <= W_ f n.
Proof.
  intros Hf Hn. destruct n as [|n]; [lia|]. rewrite W_S.
  assert (0 <= W_ f n) by (apply total_nonneg; intros; apply pow_le; exact Hf). nra.
Qed.
Lemma mean_loop alpha x : forall done, alpha <= 1 -> (0 < length done)%nat ->
  fold_left (mean_step alpha) x (W_ (1 - alpha) (length done), S_ (1 - alpha) done / W_ (1 - alpha) (length done))
  = (W_ (1 - alpha) (length (done ++ x)), S_ (1 - alpha) (done ++ x) / W_ (1 - alpha) (length (done ++ x))).
Proof.
  induction x as [|a x IH]; simpl; intros done Ha Hd; [rewrite app_nil_r; reflexivity|].
  replace (done ++ a :: x)%list with ((done ++ [a]) ++ x)%list by (rewrite <- app_assoc; reflexivity).
  rewrite <- IH; [|exact Ha|rewrite app_length; lia]. f_equal.
  assert (L : length (done ++ [a]) = S (length done)) by (rewrite app_length; simpl; lia).
  assert (P := W_pos (1 - alpha) (length done) ltac:(lra) Hd).
  rewrite L, W_S, S_snoc. f_equal; [ring|].
  assert (0 <= (1 - alpha) * W_ (1 - alpha) (length done)) by (apply Rmult_le_pos; lra).
  field. split; lra.
Qed.
Lemma ew_mean_closed alpha x : alpha <= 1 -> x <> [] ->
  ew_mean alpha x = S_ (1 - alpha) x / W_ (1 - alpha) (length x).
Proof.
  intros Ha Hx. destruct x as [|x0 x]; [congruence|]. unfold ew_mean.
  assert (E : (1, x0) = (W_ (1 - alpha) (length [x0]), S_ (1 - alpha) [x0] / W_ (1 - alpha) (length [x0]))).
  { unfold W_, S_, total, sum_over. simpl. f_equal; [lra|field]. }
  rewrite E, mean_loop by (simpl; lia || lra). reflexivity.
Qed.
Lemma S_average alpha x : S_ (1 - alpha) x / W_ (1 - alpha) (length x) =
  average (length x) (decaying alpha (length x)) (fun t => nth t x 0).
Proof.
  unfold average, decaying, S_. fold (W_ (1 - alpha) (length x)).
  unfold Rdiv at 1. rewrite <- total_scal_r. apply total_ext. intros. unfold Rdiv. ring.
Qed.

(** ** pandas' exponentially weighted covariance *)
Definition Q_ (f : R) (l : list (R * R)) (a b : R) : R :=
  total (length l) (fun t => f ^ (length l - 1 - t) * ((fst (nth t l (0, 0)) - a) * (snd (nth t l (0, 0)) - b))).
Definition W2_ (f : R) (n : nat) : R := total n (fun t => (f ^ (n - 1 - t)) ^ 2).
Lemma Q_snoc f l p a b : Q_ f (l ++ [p]) a b = f * Q_ f l a b + (fst p - a) * (snd p - b).
Proof.
  unfold Q_. rewrite app_length. simpl length. rewrite Nat.add_1_r, total_S.
  rewrite app_nth2, Nat.sub_diag by lia. simpl nth.
  replace (S (length l) - 1 - length l)%nat with 0%nat by lia.
  rewrite <- total_scal. rewrite (total_ext _ _ (fun i => f * (f ^ (length l - 1 - i) * ((fst (nth i l (0, 0)) - a) * (snd (nth i l (0, 0)) - b))))).
  - simpl. lra.
  - intros t Ht. rewrite app_nth1 by exact Ht.
    replace (S (length l) - 1 - t)%nat with (S (length l - 1 - t)) by lia. simpl. ring.
Qed.
Lemma W2_S f n : W2_ f (S n) = f * f * W2_ f n + 1.
Proof.
  unfold W2_. rewrite total_S, <- total_scal.
  replace (S n - 1 - n)%nat with 0%nat by lia. replace ((f ^ 0) ^ 2) with 1 by (simpl; ring). f_equal.
  apply total_ext. intros t Ht. replace (S n - 1 - t)%nat with (S (n - 1 - t)) by lia. simpl. ring.
Qed.
Lemma Q_shift f l a b a' b' :
  Q_ f l a' b' = Q_ f l a b
    + (a - a') * (S_ f (map snd l) - b * W_ f (length l))
    + (b - b') * (S_ f (map fst l) - a * W_ f (length l))
    + (a - a') * (b - b') * W_ f (length l).
Proof.
  unfold Q_, S_, W_. rewrite !map_length.
  rewrite <- !total_scal, <- !total_sub, <- !total_scal, <- !total_add.
  apply total_ext. intros t Ht.
  rewrite (nth_indep (map snd l) 0 (snd (0, 0))), (nth_indep (map fst l) 0 (fst (0, 0))) by (rewrite map_length; lia).
  rewrite !map_nth. ring.
Qed.

Definition state_of (f : R) (l : list (R * R)) : cov_state :=
  let W := W_ f (length l) in
  let a := S_ f (map fst l) / W in let b := S_ f (map snd l) / W in
  {| mean_x := a; mean_y := b; c_ := Q_ f l a b / W; sum_wt := W; sum_wt2 := W2_ f (length l); old_wt := W |}.
Lemma cov_step_state alpha l p : alpha <= 1 -> (0 < length l)%nat ->
  cov_step alpha (state_of (1 - alpha) l) p = state_of (1 - alpha) (l ++ [p]).
Proof.
  intros Ha Hl. set (f := 1 - alpha).
  assert (P := W_pos f (length l) ltac:(unfold f; lra) Hl).
  assert (Hf : 0 <= f) by (unfold f; lra).
  assert (L : length (l ++ [p]) = S (length l)) by (rewrite app_length; simpl; lia).
  unfold cov_step, state_of. cbn [mean_x mean_y c_ sum_wt sum_wt2 old_wt]. fold f.
  rewrite L, W_S, W2_S, !map_app. simpl map. rewrite !S_snoc, Q_snoc.
  set (W := W_ f (length l)) in *. set (A := S_ f (map fst l)). set (B := S_ f (map snd l)).
  assert (D : W * f + 1 <> 0) by (assert (0 <= W * f) by (apply Rmult_le_pos; lra); lra).
  assert (D2 : f * W + 1 <> 0) by lra.
  assert (E1 : (W * f * (A / W) + 1 * fst p) / (W * f + 1) = (f * A + fst p) / (f * W + 1)).
  { field. repeat split; lra. }
  assert (E2 : (W * f * (B / W) + 1 * snd p) / (W * f + 1) = (f * B + snd p) / (f * W + 1)).
  { field. repeat split; lra. }
  rewrite E1, E2. set (a' := (f * A + fst p) / (f * W + 1)). set (b' := (f * B + snd p) / (f * W + 1)).
  f_equal; try ring.
  rewrite (Q_shift f l (A / W) (B / W) a' b'). fold A B W.
  set (q := Q_ f l (A / W) (B / W)).
  assert (Z1 : B - B / W * W = 0) by (field; lra). assert (Z2 : A - A / W * W = 0) by (field; lra).
  rewrite Z1, Z2.
  set (u := A / W - a'). set (v := B / W - b'). set (k := (fst p - a') * (snd p - b')).
  field. repeat split; lra.
Qed.
Lemma cov_loop alpha l : forall done, alpha <= 1 -> (0 < length done)%nat ->
  fold_left (cov_step alpha) l (state_of (1 - alpha) done) = state_of (1 - alpha) (done ++ l).
Proof.
  induction l as [|p l IH]; simpl; intros done Ha Hd; [rewrite app_nil_r; reflexivity|].
  rewrite cov_step_state by assumption. rewrite IH; [|exact Ha|rewrite app_length; lia].
  rewrite <- app_assoc. reflexivity.
Qed.
Lemma ew_cov_closed alpha x y : alpha <= 1 -> combine x y <> [] ->
  ew_cov alpha x y =
  let l := combine x y in
  let W := W_ (1 - alpha) (length l) in
  let W2 := W2_ (1 - alpha) (length l) in
  if Rlt_dec 0 (W * W - W2) then
    Some (W * W / (W * W - W2) * (Q_ (1 - alpha) l (S_ (1 - alpha) (map fst l) / W) (S_ (1 - alpha) (map snd l) / W) / W))
  else None.
Proof.
  intros Ha H. unfold ew_cov. destruct (combine x y) as [|p l]; [congruence|].
  assert (E : {| mean_x := fst p; mean_y := snd p; c_ := 0; sum_wt := 1; sum_wt2 := 1; old_wt := 1 |}
              = state_of (1 - alpha) [p]).
  { unfold state_of, W_, W2_, S_, Q_, total, sum_over. simpl. f_equal; field. }
  rewrite E, cov_loop by (simpl; lia || lra). reflexivity.
Qed.

Lemma decaying_square alpha T : (0 < T)%nat -> alpha <= 1 ->
  1 - total T (fun t => decaying alpha T t ^ 2) =
  (W_ (1 - alpha) T * W_ (1 - alpha) T - W2_ (1 - alpha) T) / (W_ (1 - alpha) T * W_ (1 - alpha) T).
Proof.
  intros HT Ha. assert (P := W_pos (1 - alpha) T ltac:(lra) HT).
  unfold decaying. fold (W_ (1 - alpha) T). set (W := W_ (1 - alpha) T) in *.
  rewrite (total_ext T _ (fun t => / (W * W) * ((1 - alpha) ^ (T - 1 - t)) ^ 2)).
  - rewrite total_scal. fold (W2_ (1 - alpha) T). field. lra.
  - intros. field. lra.
Qed.
Lemma W_two f n : 0 < f -> (2 <= n)%nat -> 0 < W_ f n * W_ f n - W2_ f n.
Proof.
  intros Hf. induction n as [|n IH]; [lia|]. intros H.
  rewrite W_S, W2_S. assert (P := W_pos f n ltac:(lra) ltac:(lia)).
  assert (B : 0 <= f * f * (W_ f n * W_ f n - W2_ f n)).
  { destruct n as [|[|n]]; [lia| |].
    - unfold W_, W2_, total, sum_over. simpl. nra.
    - specialize (IH ltac:(lia)). apply Rmult_le_pos; [nra|lra]. }
  nra.
Qed.
Lemma W_zero n : (1 <= n)%nat -> W_ 0 n = 1 /\ W2_ 0 n = 1.
Proof. intros H. destruct n as [|n]; [lia|]. rewrite W_S, W2_S. lra. Qed.

Lemma decaying_sum alpha T : (0 < T)%nat -> alpha <= 1 -> total T (decaying alpha T) = 1.
Proof.
  intros HT Ha. assert (P := W_pos (1 - alpha) T ltac:(lra) HT).
  unfold decaying. fold (W_ (1 - alpha) T). unfold Rdiv. rewrite total_scal_r. fold (W_ (1 - alpha) T). field. lra.
Qed.
Lemma decaying_nonneg alpha T t : (0 < T)%nat -> alpha <= 1 -> 0 <= decaying alpha T t.
Proof.
  intros HT Ha. assert (P := W_pos (1 - alpha) T ltac:(lra) HT).
  unfold decaying. fold (W_ (1 - alpha) T). apply Rmult_le_pos; [apply pow_le; lra|].
  left. apply Rinv_0_lt_compat. lra.
Qed.

Lemma ew_cov_comovement alpha X i j : 0 < alpha < 1 -> (2 <= length X)%nat ->
  ew_cov alpha (column X i) (column X j) =
  Some (comovement (length X) (decaying alpha (length X)) (at_ X i) (at_ X j)
        / (1 - total (length X) (fun t => decaying alpha (length X) t ^ 2))).
Proof.
  intros Ha HT.
  assert (Lc : length (combine (column X i) (column X j)) = length X).
  { rewrite combine_columns, map_length. reflexivity. }
  rewrite ew_cov_closed; [|lra|intros E; rewrite E in Lc; simpl in Lc; lia].
  cbv zeta. rewrite Lc. set (T := length X) in *.
  assert (P := W_two (1 - alpha) T ltac:(lra) HT). assert (P1 := W_pos (1 - alpha) T ltac:(lra) ltac:(lia)).
  destruct (Rlt_dec 0 _) as [_|N]; [|lra]. f_equal.
  rewrite decaying_square by (lia || lra).
  assert (F : map fst (combine (column X i) (column X j)) = column X i).
  { rewrite combine_columns, map_map. reflexivity. }
  assert (G : map snd (combine (column X i) (column X j)) = column X j).
  { rewrite combine_columns, map_map. reflexivity. }
  rewrite F, G.
  assert (A : forall k, S_ (1 - alpha) (column X k) / W_ (1 - alpha) T = average T (decaying alpha T) (at_ X k)).
  { intros k. assert (E := S_average alpha (column X k)). rewrite column_length in E. fold T in E. rewrite E.
    unfold average. apply total_ext. intros t Ht. rewrite column_nth by exact Ht. reflexivity. }
  rewrite !A. unfold comovement. set (mi := average T _ (at_ X i)). set (mj := average T _ (at_ X j)).
  assert (B : average T (decaying alpha T) (fun t => (at_ X i t - mi) * (at_ X j t - mj))
              = Q_ (1 - alpha) (combine (column X i) (column X j)) mi mj / W_ (1 - alpha) T).
  { unfold average, Q_, decaying. fold (W_ (1 - alpha) T). rewrite Lc. unfold Rdiv at 2. rewrite <- total_scal_r.
    apply total_ext. intros t Ht. rewrite combine_columns.
    assert (Nt := map_nth (fun r : nat -> R => (r i, r j)) X (fun _ => 0) t). cbv beta in Nt. rewrite Nt. unfold at_. cbn [fst snd]. fold T. unfold Rdiv. ring. }
  rewrite B. field. repeat split; lra.
Qed.

(** ** Theorems *)

(** window_size = w > 0 selects exactly the last min(w, T) observations; None selects them all. *)
Theorem C67_window : forall (A : Type) (X : list A),
  window None X = X /\
  forall w, (0 < w)%Z ->
    exists earlier, X = (earlier ++ window (Some w) X)%list /\
      length (window (Some w) X) = Nat.min (Z.to_nat w) (length X).
Proof.
  intros A X. split; [reflexivity|]. intros w H.
  split with (firstn (Z.to_nat (Z.max 0 (Z.of_nat (length X) + - w))) X).
  split; [|apply window_length; exact H].
  unfold window, slice_from. destruct (Z.ltb_spec (- w) 0); [|lia]. symmetry. apply firstn_skipn.
Qed.
Print Assumptions C67_window.

(** window_size = 0 selects everything, not nothing. *)
Theorem C67_window_zero_refuted : exists X : list (nat -> R),
  X <> [] /\ window (Some 0%Z) X = X.
Proof. exists [fun _ => 1]. split; [discriminate|reflexivity]. Qed.
Print Assumptions C67_window_zero_refuted.

(** The empirical mean: the plain average of each asset, and hence of every portfolio. *)
Theorem C67_empirical_mu : forall w X,
  let Y := window w X in let T := length Y in
  (Y = [] -> empirical_mu w X = NaN) /\
  (Y <> [] -> exists mu, empirical_mu w X = Value mu /\
     (forall i, mu i = average T (equal T) (at_ Y i)) /\
     (forall n v, total n (fun i => v i * mu i) = average T (equal T) (held n v Y))).
Proof.
  intros w X Y T. unfold empirical_mu. fold Y. split.
  - intros ->. reflexivity.
  - intros H. destruct (Nat.eqb_spec (length Y) 0) as [E|E]; [destruct Y; [congruence|discriminate]|].
    eexists. split; [reflexivity|]. split; [intros i; apply mean_average|].
    intros n v. rewrite average_held. apply total_ext. intros i _. rewrite mean_average. reflexivity.
Qed.
Print Assumptions C67_empirical_mu.

Definition rejected (n : nat) (c : nat -> nat -> R) : Prop := exists i, (i < n)%nat /\ c i i < / 10 ^ 15.

Lemma checked_spec n c :
  (rejected n c /\ checked n c = Raises) \/ (~ rejected n c /\ checked n c = Value c).
Proof.
  unfold checked, rejected. assert (Ht : tiny = / 10 ^ 15) by (unfold tiny; f_equal; lra). rewrite <- Ht.
  destruct (too_small n c) eqn:E; [left|right].
  - split; [|reflexivity]. unfold too_small in E. apply existsb_exists in E.
    destruct E as (i & Hi & Hc). apply in_seq in Hi. exists i. split; [lia|].
    destruct (Rlt_dec (c i i) tiny); [assumption|discriminate].
  - split; [|reflexivity]. intros (i & Hi & Hc).
    assert (too_small n c = true); [|congruence]. apply existsb_exists. exists i.
    split; [apply in_seq; lia|]. destruct (Rlt_dec (c i i) tiny); [reflexivity|contradiction].
Qed.

(** The empirical covariance of at least two assets: refused exactly when an asset's variance is
    below 1e-15; otherwise the sample covariance with ddof degrees of freedom removed, symmetric and
    giving the sample variance of every portfolio (so positive semi-definite). *)
Theorem C67_empirical_covariance : forall w ddof n X,
  let Y := window w X in let T := length Y in
  let c := fun i j => INR T / (INR T - INR ddof) * comovement T (equal T) (at_ Y i) (at_ Y j) in
  (2 <= n)%nat -> (ddof < T)%nat ->
  (rejected n c <-> empirical_covariance w ddof n X = Raises) /\
  (~ rejected n c -> exists sigma, empirical_covariance w ddof n X = Value sigma /\
     (forall i j, sigma i j = c i j /\ sigma i j = sigma j i) /\
     (forall v, total n (fun i => total n (fun j => v i * sigma i j * v j))
                = INR T / (INR T - INR ddof) * comovement T (equal T) (held n v Y) (held n v Y)) /\
     (forall v, 0 <= total n (fun i => total n (fun j => v i * sigma i j * v j)))).
Proof.
  intros w ddof n X Y T c Hn Hd. unfold empirical_covariance. fold Y.
  destruct (Nat.eqb_spec n 1); [lia|]. fold T. destruct (Nat.leb_spec T ddof); [lia|].
  set (s := fun i j => cov ddof (column Y i) (column Y j)).
  assert (E : forall i j, s i j = c i j) by (intros i j; apply cov_comovement; exact Hd).
  assert (R1 : rejected n s <-> rejected n c).
  { unfold rejected. split; intros (i & Hi & H'); exists i; split; auto; [rewrite <- E|rewrite E]; exact H'. }
  assert (Q : forall v, total n (fun i => total n (fun j => v i * s i j * v j))
                = INR T / (INR T - INR ddof) * comovement T (equal T) (held n v Y) (held n v Y)).
  { intros v. rewrite comovement_held, <- total_scal. apply total_ext. intros i _.
    rewrite <- total_scal. apply total_ext. intros j _. rewrite E. unfold c. ring. }
  destruct (checked_spec n s) as [[A ->]|[A ->]].
  - split; [tauto|]. intros N. tauto.
  - split; [split; [tauto|discriminate]|]. intros _. exists s. split; [reflexivity|]. split.
    { intros i j. split; [apply E|]. rewrite !E. unfold c. rewrite comovement_sym. reflexivity. }
    split; [exact Q|]. intros v. rewrite Q. apply lt_INR in Hd.
    assert (0 <= INR ddof) by apply pos_INR.
    apply Rmult_le_pos; [apply Rmult_le_pos; [lra|left; apply Rinv_0_lt_compat; lra]|].
    apply comovement_nonneg. intros t Ht. unfold equal. apply Rmult_le_pos; [lra|].
    left. apply Rinv_0_lt_compat. lra.
Qed.
Print Assumptions C67_empirical_covariance.

(** A single asset has no empirical covariance: fit raises whatever the data. *)
Theorem C67_single_asset_refuted : forall w ddof X, empirical_covariance w ddof 1 X = Raises.
Proof. reflexivity. Qed.
Print Assumptions C67_single_asset_refuted.

(** The exponentially weighted mean: the loop gives the average under weights decaying by 1-alpha
    per observation of age, which are probabilities; it lies between the extremes of the data. *)
Theorem C67_ew_mu : forall w alpha X,
  let Y := window w X in let T := length Y in
  0 < alpha <= 1 -> Y <> [] ->
  (total T (decaying alpha T) = 1 /\ forall t, 0 <= decaying alpha T t) /\
  exists mu, ew_mu w alpha X = Value mu /\
    (forall i, mu i = average T (decaying alpha T) (at_ Y i)) /\
    (forall n v, total n (fun i => v i * mu i) = average T (decaying alpha T) (held n v Y)) /\
    (forall i lo hi, (forall t, (t < T)%nat -> lo <= at_ Y i t <= hi) -> lo <= mu i <= hi).
Proof.
  intros w alpha X Y T [Ha1 Ha2] HY.
  assert (HT : (0 < T)%nat) by (unfold T; destruct Y; [congruence|simpl; lia]).
  split; [split; [apply decaying_sum; assumption|intros; apply decaying_nonneg; assumption]|].
  assert (M : forall i, ew_mean alpha (column Y i) = average T (decaying alpha T) (at_ Y i)).
  { intros i. rewrite ew_mean_closed; [|exact Ha2|destruct Y; [congruence|discriminate]].
    rewrite S_average, column_length. fold T. apply total_ext. intros t Ht. rewrite column_nth by exact Ht. reflexivity. }
  unfold ew_mu. fold Y. unfold alpha_ok. destruct (Rlt_dec 0 alpha); [|lra]. destruct (Rle_dec alpha 1); [|lra].
  cbn [negb]. destruct (Nat.eqb_spec (length Y) 0); [unfold T in HT; lia|].
  eexists. split; [reflexivity|]. split; [exact M|]. split.
  { intros n' v. rewrite average_held. apply total_ext. intros i _. rewrite M. reflexivity. }
  intros i lo hi H. rewrite M. unfold average.
  rewrite <- (Rmult_1_l lo), <- (Rmult_1_l hi), <- (decaying_sum alpha T HT Ha2), <- !total_scal_r.
  split; apply total_le; intros t Ht; apply Rmult_le_compat_l; try (apply decaying_nonneg; assumption); apply H; exact Ht.
Qed.
Print Assumptions C67_ew_mu.

(** pandas refuses any other alpha. *)
Theorem C67_alpha_rejected : forall w alpha n X, ~ (0 < alpha <= 1) ->
  ew_mu w alpha X = Raises /\ ew_covariance w alpha n X = Raises.
Proof.
  intros w alpha n X H. unfold ew_mu, ew_covariance, alpha_ok.
  destruct (Rlt_dec 0 alpha); [|split; reflexivity]. destruct (Rle_dec alpha 1); [lra|split; reflexivity].
Qed.
Print Assumptions C67_alpha_rejected.

(** The exponentially weighted covariance, for 0 < alpha < 1 and at least two observations. *)
Theorem C67_ew_covariance : forall w alpha n X,
  let Y := window w X in let T := length Y in
  let bias := 1 - total T (fun t => decaying alpha T t ^ 2) in
  let c := fun i j => comovement T (decaying alpha T) (at_ Y i) (at_ Y j) / bias in
  0 < alpha < 1 -> (2 <= T)%nat ->
  0 < bias /\
  (rejected n c <-> ew_covariance w alpha n X = Raises) /\
  (~ rejected n c -> exists sigma, ew_covariance w alpha n X = Value sigma /\
     (forall i j, sigma i j = c i j /\ sigma i j = sigma j i) /\
     (forall v, total n (fun i => total n (fun j => v i * sigma i j * v j))
                = comovement T (decaying alpha T) (held n v Y) (held n v Y) / bias) /\
     (forall v, 0 <= total n (fun i => total n (fun j => v i * sigma i j * v j)))).
Proof.
  intros w alpha n X Y T bias c Ha HT.
  assert (Hb : 0 < bias).
  { unfold bias. rewrite decaying_square by (lia || lra).
    assert (P := W_two (1 - alpha) T ltac:(lra) HT). assert (P1 := W_pos (1 - alpha) T ltac:(lra) ltac:(lia)).
    apply Rmult_lt_0_compat; [exact P|]. apply Rinv_0_lt_compat. nra. }
  split; [exact Hb|].
  unfold ew_covariance. fold Y. unfold alpha_ok. destruct (Rlt_dec 0 alpha); [|lra]. destruct (Rle_dec alpha 1); [|lra].
  cbn [negb]. destruct (Nat.eqb_spec (length Y) 0); [unfold T in HT; lia|]. cbv zeta.
  assert (E : forall i j, ew_cov alpha (column Y i) (column Y j) = Some (c i j)).
  { intros i j. rewrite ew_cov_comovement by assumption. reflexivity. }
  destruct (forallb _ _) eqn:F.
  2: { assert (forallb (fun i => forallb (fun j => match ew_cov alpha (column Y i) (column Y j) with Some _ => true | None => false end) (seq 0 n)) (seq 0 n) = true); [|congruence].
       apply forallb_forall. intros i _. apply forallb_forall. intros j _. rewrite E. reflexivity. }
  set (s := fun i j => match ew_cov alpha (column Y i) (column Y j) with Some c => c | None => 0 end).
  assert (Es : forall i j, s i j = c i j) by (intros i j; unfold s; rewrite E; reflexivity).
  assert (R1 : rejected n s <-> rejected n c).
  { unfold rejected. split; intros (i & Hi & H'); exists i; split; auto; [rewrite <- Es|rewrite Es]; exact H'. }
  assert (Q : forall v, total n (fun i => total n (fun j => v i * s i j * v j))
                = comovement T (decaying alpha T) (held n v Y) (held n v Y) / bias).
  { intros v. rewrite comovement_held. unfold Rdiv. rewrite <- total_scal_r. apply total_ext. intros i _.
    rewrite <- total_scal_r. apply total_ext. intros j _. rewrite Es. unfold c. unfold Rdiv. ring. }
  destruct (checked_spec n s) as [[A ->]|[A ->]].
  - split; [tauto|]. intros N. tauto.
  - split; [split; [tauto|discriminate]|]. intros _. exists s. split; [reflexivity|]. split.
    { intros i j. split; [apply Es|]. rewrite !Es. unfold c. rewrite comovement_sym. reflexivity. }
    split; [exact Q|]. intros v. rewrite Q.
    apply Rmult_le_pos; [|left; apply Rinv_0_lt_compat; exact Hb].
    apply comovement_nonneg. intros t Ht. apply decaying_nonneg; [lia|lra].
Qed.
Print Assumptions C67_ew_covariance.

(** The documented range of alpha includes 1, for which every entry is NaN whatever the data. *)
Theorem C67_alpha_one_refuted : forall w n X, (1 <= n)%nat -> window w X <> [] ->
  ew_covariance w 1 n X = NaN.
Proof.
  intros w n X Hn HY. unfold ew_covariance. set (Y := window w X) in *.
  unfold alpha_ok. destruct (Rlt_dec 0 1); [|lra]. destruct (Rle_dec 1 1); [|lra]. cbn [negb].
  destruct (Nat.eqb_spec (length Y) 0) as [H|H]; [destruct Y; [congruence|discriminate]|]. cbv zeta.
  destruct (forallb _ _) eqn:F; [|reflexivity]. exfalso.
  rewrite forallb_forall in F. specialize (F 0%nat). rewrite forallb_forall in F.
  assert (I0 : In 0%nat (seq 0 n)) by (apply in_seq; lia). specialize (F I0 0%nat I0).
  rewrite ew_cov_closed in F; [|lra|destruct Y; [congruence|discriminate]].
  cbv zeta in F. replace (1 - 1) with 0 in F by lra.
  rewrite combine_columns, map_length in F. destruct (W_zero (length Y)) as [E1 E2]; [lia|].
  rewrite E1, E2 in F. destruct (Rlt_dec 0 (1 * 1 - 1)); [lra|discriminate].
Qed.
Print Assumptions C67_alpha_one_refuted.

(** ** Non-vacuity *)
Definition demo : list (nat -> R) := [fun i => 9; fun i => INR i; fun i => 2; fun i => INR i + 1].
Example C67_hypotheses_met :
  let Y := window (Some 3%Z) demo in
  Y <> [] /\ length Y = 3%nat /\ average 3 (decaying (1/2) 3) (at_ Y 1) = 13/7 /\
  ~ rejected 2 (fun i j => comovement 3 (decaying (1/2) 3) (at_ Y i) (at_ Y j)
                           / (1 - total 3 (fun t => decaying (1/2) 3 t ^ 2))).
Proof.
  cbv zeta. unfold window, slice_from, demo. simpl.
  split; [discriminate|]. split; [reflexivity|].
  split; [unfold average, decaying, total, sum_over, at_; simpl; field|].
  intros (i & Hi & H). destruct i as [|[|i]]; [| |lia];
  unfold comovement, average, decaying, total, sum_over, at_ in H; simpl in H;
  match type of H with ?a < _ => assert (E : a > / 100) by
    (match goal with |- ?x > _ => first [replace x with (13/14) by field | replace x with 1 by field | replace x with (3/14) by field | idtac] end; lra) end;
  assert (/ (10 ^ 15) < / 100) by (apply Rinv_lt_contravar; simpl; lra); simpl in *; lra.
Qed.
