(* ------------------------------------------------------------------------ *)
(* Properties C45 (rotations) and C46 (h-functions, inverses, densities) of  *)
(* the bivariate copulas.                                                    *)
(* ------------------------------------------------------------------------ *)
From Coq Require Import Reals List Lra Psatz.
From Verif Require Import CopulaModel.
Import ListNotations.
Open Scope R_scope.

(* ------------------------------------------------------------------------ *)
(* Specification                                                             *)
(* ------------------------------------------------------------------------ *)
Definition unit (x : R) : Prop := 0 < x < 1.

(* C(u, v) = C(v, u) *)
Definition exchangeable (C : R -> R -> R) : Prop :=
  forall u v, unit u -> unit v -> C u v = C v u.

(* h(u | v) is the partial derivative of C(u, v) in v *)
Definition h_function_of (C h : R -> R -> R) : Prop :=
  forall u v, unit u -> unit v -> derivable_pt_lim (fun t => C u t) v (h u v).

(* c(u, v) is the derivative of h(u | v) in u: the density of C *)
Definition density_of (h c : R -> R -> R) : Prop :=
  forall u v, unit u -> unit v -> derivable_pt_lim (fun t => h t v) u (c u v).

(* max(u + v - 1, 0) <= C(u, v) <= min(u, v) *)
Definition frechet_bounds (C : R * R -> R) : Prop :=
  forall u v, unit u -> unit v ->
    0 <= C (u, v) /\ u + v - 1 <= C (u, v) /\ C (u, v) <= u /\ C (u, v) <= v.

(* no rectangle has a negative probability *)
Definition two_increasing (C : R * R -> R) : Prop :=
  forall u1 u2 v1 v2, unit u1 -> unit u2 -> unit v1 -> unit v2 ->
    u1 <= u2 -> v1 <= v2 ->
    0 <= C (u2, v2) - C (u1, v2) - C (u2, v1) + C (u1, v1).

(* p |-> hinv(p | v) inverts u |-> h(u | v), both being maps of (0, 1) *)
Definition inverse_pair (h hinv : R -> R -> R) : Prop :=
  (forall u v, unit u -> unit v -> unit (h u v) /\ hinv (h u v) v = u) /\
  (forall p v, unit p -> unit v -> unit (hinv p v) /\ h (hinv p v) v = p).

(* h(. | v) is a strictly increasing map of (0, 1) into itself *)
Definition conditional_cdf (h : R -> R -> R) : Prop :=
  (forall u v, unit u -> unit v -> unit (h u v)) /\
  (forall u u' v, unit u -> unit u' -> unit v -> u < u' -> h u v < h u' v).

(* the point at which the derivative with respect to one margin is taken *)
Definition along (first_margin : bool) (X : R * R) (t : R) : R * R :=
  if first_margin then (t, snd X) else (fst X, t).
Definition coordinate (first_margin : bool) (X : R * R) : R :=
  if first_margin then fst X else snd X.
(* the other coordinate, and the row where it is replaced by [p] *)
Definition other (first_margin : bool) (X : R * R) : R :=
  if first_margin then snd X else fst X.
Definition replace_other (first_margin : bool) (X : R * R) (p : R) : R * R :=
  if first_margin then (fst X, p) else (p, snd X).

(* the interval where _validate_X changes nothing *)
Definition inside (x : R) : Prop := epsilon <= x <= 1 - epsilon.

(* ------------------------------------------------------------------------ *)
(* Derivatives                                                               *)
(* ------------------------------------------------------------------------ *)
Lemma d_eq f x l l' : derivable_pt_lim f x l -> l = l' -> derivable_pt_lim f x l'.
Proof. now intros H <-. Qed.

Lemma d_ext f g x l : (forall t, f t = g t) ->
  derivable_pt_lim f x l -> derivable_pt_lim g x l.
Proof.
  intros E H eps He. destruct (H eps He) as (d & Hd). exists d.
  intros h h0 hd. rewrite <- !E. now apply Hd.
Qed.

Lemma d_ext_loc f g x l : (exists d, 0 < d /\ forall t, Rabs (t - x) < d -> f t = g t) ->
  derivable_pt_lim f x l -> derivable_pt_lim g x l.
Proof.
  intros (d0 & Hd0 & E) H eps He. destruct (H eps He) as (d & Hd).
  assert (Hm : 0 < Rmin d d0) by (apply Rmin_glb_lt; [apply cond_pos | lra]).
  exists (mkposreal _ Hm). cbn. intros h h0 hd.
  rewrite <- (E (x + h)), <- (E x).
  - apply Hd; [lra|]. eapply Rlt_le_trans; [apply hd | apply Rmin_l].
  - replace (x - x) with 0 by ring. rewrite Rabs_R0. lra.
  - replace (x + h - x) with h by ring. eapply Rlt_le_trans; [apply hd | apply Rmin_r].
Qed.

Lemma d_const c x : derivable_pt_lim (fun _ => c) x 0.
Proof. apply derivable_pt_lim_const. Qed.
Lemma d_id x : derivable_pt_lim (fun t => t) x 1.
Proof. apply derivable_pt_lim_id. Qed.
Lemma d_plus f g x a b : derivable_pt_lim f x a -> derivable_pt_lim g x b ->
  derivable_pt_lim (fun t => f t + g t) x (a + b).
Proof. intros; now apply (derivable_pt_lim_plus f g). Qed.
Lemma d_minus f g x a b : derivable_pt_lim f x a -> derivable_pt_lim g x b ->
  derivable_pt_lim (fun t => f t - g t) x (a - b).
Proof. intros; now apply (derivable_pt_lim_minus f g). Qed.
Lemma d_opp f x a : derivable_pt_lim f x a ->
  derivable_pt_lim (fun t => - f t) x (- a).
Proof. intros; now apply (derivable_pt_lim_opp f). Qed.
Lemma d_mult f g x a b : derivable_pt_lim f x a -> derivable_pt_lim g x b ->
  derivable_pt_lim (fun t => f t * g t) x (a * g x + f x * b).
Proof. intros; now apply (derivable_pt_lim_mult f g). Qed.
Lemma d_comp f g x a b : derivable_pt_lim f x a -> derivable_pt_lim g (f x) b ->
  derivable_pt_lim (fun t => g (f t)) x (b * a).
Proof. intros; now apply (derivable_pt_lim_comp f g). Qed.
Lemma d_exp f x a : derivable_pt_lim f x a ->
  derivable_pt_lim (fun t => exp (f t)) x (exp (f x) * a).
Proof. intros H. apply (d_comp f exp); auto. apply derivable_pt_lim_exp. Qed.
Lemma d_ln f x a : derivable_pt_lim f x a -> 0 < f x ->
  derivable_pt_lim (fun t => ln (f t)) x (/ f x * a).
Proof. intros H P. apply (d_comp f ln); auto. now apply derivable_pt_lim_ln. Qed.
Lemma d_pow f x a e : derivable_pt_lim f x a -> 0 < f x ->
  derivable_pt_lim (fun t => Rpower (f t) e) x (e * Rpower (f x) (e - 1) * a).
Proof.
  intros H P. apply (d_comp f (fun y => Rpower y e)); auto.
  now apply derivable_pt_lim_power.
Qed.
Lemma d_one_minus x : derivable_pt_lim (fun t => 1 - t) x (-1).
Proof. eapply d_eq; [apply d_minus; [apply d_const | apply d_id] | ring]. Qed.
Lemma d_reflect f x a : derivable_pt_lim f (1 - x) a ->
  derivable_pt_lim (fun t => f (1 - t)) x (- a).
Proof.
  intros H. eapply d_eq; [eapply (d_comp (fun t => 1 - t) f);
    [apply d_one_minus | exact H] | ring].
Qed.

Lemma unit_open x : unit x -> exists d, 0 < d /\ forall t, Rabs (t - x) < d -> unit t.
Proof.
  intros [A B]. exists (Rmin x (1 - x)). split; [apply Rmin_glb_lt; lra|].
  intros t Ht. pose proof (Rmin_l x (1 - x)). pose proof (Rmin_r x (1 - x)).
  apply Rabs_def2 in Ht. split; lra.
Qed.

Lemma unit_1m x : unit x -> unit (1 - x).
Proof. unfold unit; lra. Qed.

(* a positive derivative on (0, 1) makes a function strictly increasing *)
Lemma increasing_of f f' : (forall x, unit x -> derivable_pt_lim f x (f' x)) ->
  (forall x, unit x -> 0 < f' x) -> forall x y, unit x -> unit y -> x < y -> f x < f y.
Proof.
  intros D P x y Hx Hy L.
  destruct (MVT_cor2 f f' x y L) as (c & E & Hc).
  - intros c Hc. apply D. unfold unit in *; lra.
  - assert (0 < f' c) by (apply P; unfold unit in *; lra). nra.
Qed.

Lemma nondecreasing_of f f' : (forall x, unit x -> derivable_pt_lim f x (f' x)) ->
  (forall x, unit x -> 0 <= f' x) -> forall x y, unit x -> unit y -> x <= y -> f x <= f y.
Proof.
  intros D P x y Hx Hy [L | ->]; [|lra].
  destruct (MVT_cor2 f f' x y L) as (c & E & Hc).
  - intros c Hc. apply D. unfold unit in *; lra.
  - assert (0 <= f' c) by (apply P; unfold unit in *; lra). nra.
Qed.

(* ------------------------------------------------------------------------ *)
(* C45: rotations, for any exchangeable base copula                          *)
(* ------------------------------------------------------------------------ *)
Section rotations.
  Variable C h hinv c : R -> R -> R.
  Hypothesis C_sym : exchangeable C.
  Hypothesis C_h : h_function_of C h.

  Let base (X : R * R) : R := C (fst X) (snd X).

  Lemma d_first u v : unit u -> unit v -> derivable_pt_lim (fun t => C t v) u (h v u).
  Proof.
    intros Hu Hv. destruct (unit_open u Hu) as (d & Hd & N).
    apply (d_ext_loc (fun t => C v t)); [|now apply C_h].
    exists d. split; [lra|]. intros t Ht. apply C_sym; auto.
  Qed.

  Theorem C45_partial_derivative : forall r first_margin u v,
    unit u -> unit v ->
    derivable_pt_lim (fun t => rotated_cdf base r (along first_margin (u, v) t))
                     (coordinate first_margin (u, v))
                     (rotated_pd (swapped h) r (u, v) first_margin).
  Proof.
    intros r fm u v Hu Hv. pose proof (unit_1m u Hu) as Hu'. pose proof (unit_1m v Hv) as Hv'.
    destruct r, fm; unfold rotated_cdf, rotated_pd, swapped, margin_swap, base, along,
      coordinate, rotate; cbn.
    - now apply d_first.
    - now apply C_h.
    - (* R90, u *) eapply d_eq; [apply d_minus; [apply d_const|];
        apply (d_reflect (fun t => C v t)), C_h; auto | ring].
    - (* R90, v *) apply d_minus; [apply d_id|]. now apply d_first.
    - eapply d_eq; [apply d_plus; [apply d_minus; [apply d_plus; [apply d_id|apply d_const]
        | apply d_const] | apply (d_reflect (fun t => C t (1 - v))), d_first; auto] | ring].
    - eapply d_eq; [apply d_plus; [apply d_minus; [apply d_plus; [apply d_const|apply d_id]
        | apply d_const] | apply (d_reflect (fun t => C (1 - u) t)), C_h; auto] | ring].
    - (* R270, u *) apply d_minus; [apply d_id|]. now apply C_h.
    - eapply d_eq; [apply d_minus; [apply d_const|];
        apply (d_reflect (fun t => C t u)), d_first; auto | ring].
  Qed.

  Hypothesis h_c : density_of h c.
  Hypothesis c_sym : exchangeable c.

  Theorem C45_density : forall r u v, unit u -> unit v ->
    derivable_pt_lim (fun t => rotated_pd (swapped h) r (t, v) false) u
                     (let X := rotate r (u, v) in c (fst X) (snd X)).
  Proof.
    intros r u v Hu Hv. pose proof (unit_1m u Hu) as Hu'. pose proof (unit_1m v Hv) as Hv'.
    destruct r; unfold rotated_pd, swapped, margin_swap, rotate; cbn.
    - now apply h_c.
    - eapply d_eq; [apply d_minus; [apply d_const|];
        apply (d_reflect (fun t => h t v)), h_c; auto |].
      rewrite (c_sym v (1 - u)); auto. ring.
    - eapply d_eq; [apply d_minus; [apply d_const|];
        apply (d_reflect (fun t => h t (1 - v))), h_c; auto | ring].
    - rewrite (c_sym (1 - v) u); [now apply h_c | auto ..].
  Qed.

  Hypothesis C_bounds : frechet_bounds base.
  Hypothesis h_mono : conditional_cdf h.

  Lemma base_two_increasing : two_increasing base.
  Proof.
    intros u1 u2 v1 v2 H1 H2 H3 H4 Lu Lv. unfold base; cbn.
    enough (C u2 v1 - C u1 v1 <= C u2 v2 - C u1 v2) by lra.
    apply (nondecreasing_of (fun t => C u2 t - C u1 t) (fun t => h u2 t - h u1 t)); auto.
    - intros x Hx. apply d_minus; now apply C_h.
    - intros x Hx. destruct Lu as [Lu | ->]; [|lra].
      destruct h_mono as (_ & M). pose proof (M u1 u2 x H1 H2 Hx Lu). lra.
  Qed.

  Theorem C45_copula : forall r,
    frechet_bounds (rotated_cdf base r) /\ two_increasing (rotated_cdf base r).
  Proof.
    intros r. split.
    - intros u v Hu Hv. pose proof (unit_1m u Hu) as Hu'. pose proof (unit_1m v Hv) as Hv'.
      destruct r; unfold rotated_cdf, rotate; cbn;
        [pose proof (C_bounds u v Hu Hv) | pose proof (C_bounds v (1 - u) Hv Hu')
        |pose proof (C_bounds (1 - u) (1 - v) Hu' Hv') | pose proof (C_bounds (1 - v) u Hv' Hu)];
        unfold base in *; cbn in *; lra.
    - intros u1 u2 v1 v2 H1 H2 H3 H4 Lu Lv.
      pose proof (unit_1m _ H1) as H1'. pose proof (unit_1m _ H2) as H2'.
      pose proof (unit_1m _ H3) as H3'. pose proof (unit_1m _ H4) as H4'.
      destruct r; unfold rotated_cdf, rotate; cbn.
      + now apply base_two_increasing.
      + assert (L : 1 - u2 <= 1 - u1) by lra.
        pose proof (base_two_increasing v1 v2 (1 - u2) (1 - u1) H3 H4 H2' H1' Lv L).
        unfold base in *; cbn in *. lra.
      + assert (L : 1 - u2 <= 1 - u1) by lra. assert (L' : 1 - v2 <= 1 - v1) by lra.
        pose proof (base_two_increasing (1 - u2) (1 - u1) (1 - v2) (1 - v1) H2' H1' H4' H3' L L').
        unfold base in *; cbn in *. lra.
      + assert (L' : 1 - v2 <= 1 - v1) by lra.
        pose proof (base_two_increasing (1 - v2) (1 - v1) u1 u2 H4' H3' H1 H2 L' Lu).
        unfold base in *; cbn in *. lra.
  Qed.
End rotations.

Section inverses.
  Variable h hinv : R -> R -> R.
  Hypothesis inv : inverse_pair h hinv.

  Theorem C45_inverse : forall r first_margin X,
    unit (fst X) -> unit (snd X) ->
    (let p := rotated_pd (swapped h) r X first_margin in
     unit p /\
     rotated_pd (swapped hinv) r (replace_other first_margin X p) first_margin
     = other first_margin X) /\
    (let w := rotated_pd (swapped hinv) r X first_margin in
     unit w /\
     rotated_pd (swapped h) r (replace_other first_margin X w) first_margin
     = other first_margin X).
  Proof.
    destruct inv as (I & J). intros r fm [u v]; cbn. intros Hu Hv.
    pose proof (unit_1m u Hu) as Hu'. pose proof (unit_1m v Hv) as Hv'.
    assert (X1 : forall x, 1 - (1 - x) = x) by (intros; ring).
    destruct r, fm; unfold rotated_pd, swapped, margin_swap, rotate, other, replace_other; cbn;
      rewrite ?X1;
      repeat match goal with
      | |- context [unit (h ?a ?b)] =>
          lazymatch goal with
          | _ : unit (h a b) |- _ => fail
          | _ => destruct (I a b) as [? ?]; [auto; fail| auto; fail|]
          end
      | |- context [unit (hinv ?a ?b)] =>
          lazymatch goal with
          | _ : unit (hinv a b) |- _ => fail
          | _ => destruct (J a b) as [? ?]; [auto; fail| auto; fail|]
          end
      | |- context [unit (1 - h ?a ?b)] =>
          lazymatch goal with
          | _ : unit (h a b) |- _ => fail
          | _ => destruct (I a b) as [? ?]; [auto; fail| auto; fail|]
          end
      | |- context [unit (1 - hinv ?a ?b)] =>
          lazymatch goal with
          | _ : unit (hinv a b) |- _ => fail
          | _ => destruct (J a b) as [? ?]; [auto; fail| auto; fail|]
          end
      end;
      repeat split; try (apply unit_1m; assumption); try assumption; try congruence;
      try (match goal with E : ?x = _ |- context [?x] => rewrite E end); try ring;
      unfold unit in *; try lra.
  Qed.
End inverses.

(* the public methods, with the validation *)
Lemma clip_inside x : inside x -> clip epsilon (1 - epsilon) x = x.
Proof. unfold inside, clip. intros [A B]. rewrite Rmax_right, Rmin_right; lra. Qed.

Lemma epsilon_pos : 0 < epsilon < 1 / 2.
Proof. unfold epsilon; lra. Qed.

Lemma clip_unit x : unit (clip epsilon (1 - epsilon) x).
Proof.
  pose proof epsilon_pos. unfold unit, clip, Rmin, Rmax.
  destruct (Rle_dec epsilon x); destruct (Rle_dec _ _); lra.
Qed.

Lemma inside_unit x : inside x -> unit x.
Proof. pose proof epsilon_pos. unfold inside, unit. lra. Qed.

Lemma validate_some X : 0 <= fst X <= 1 -> 0 <= snd X <= 1 ->
  validate X = Some (clip epsilon (1 - epsilon) (fst X), clip epsilon (1 - epsilon) (snd X)).
Proof.
  destruct X as [u v]; cbn. intros [A B] [D E]. unfold validate.
  destruct (Rle_dec 0 u); [|contradiction]. destruct (Rle_dec u 1); [|contradiction].
  destruct (Rle_dec 0 v); [|contradiction]. destruct (Rle_dec v 1); [|contradiction].
  reflexivity.
Qed.

Lemma validate_none X : ~ (0 <= fst X <= 1 /\ 0 <= snd X <= 1) -> validate X = None.
Proof.
  destruct X as [u v]; cbn. unfold validate. intros N.
  destruct (Rle_dec 0 u); [|auto]. destruct (Rle_dec u 1); [|auto].
  destruct (Rle_dec 0 v); [|auto]. destruct (Rle_dec v 1); [|auto]. tauto.
Qed.

Lemma validate_inside X : inside (fst X) -> inside (snd X) -> validate X = Some X.
Proof.
  intros A B. pose proof (inside_unit _ A) as A'. pose proof (inside_unit _ B) as B'.
  rewrite validate_some; [|unfold unit in *; lra ..].
  rewrite !clip_inside; auto. now destruct X.
Qed.

(* C45, through the public methods: an entry outside [0, 1] is rejected by
   each of them; every other row gives a value; and away from the clipped
   margin of width 1e-9 the two methods are inverse to one another, for every
   rotation and either margin. *)
Theorem C45_methods : forall h hinv, inverse_pair h hinv ->
  forall r first_margin X,
  (~ (0 <= fst X <= 1 /\ 0 <= snd X <= 1) ->
     method_pd h r X first_margin = None /\ method_pd hinv r X first_margin = None) /\
  (0 <= fst X <= 1 -> 0 <= snd X <= 1 ->
     exists p w, method_pd h r X first_margin = Some p /\ unit p /\
                 method_pd hinv r X first_margin = Some w /\ unit w) /\
  (forall p, inside (fst X) -> inside (snd X) ->
     method_pd h r X first_margin = Some p -> inside p ->
     method_pd hinv r (replace_other first_margin X p) first_margin
     = Some (other first_margin X)) /\
  (forall w, inside (fst X) -> inside (snd X) ->
     method_pd hinv r X first_margin = Some w -> inside w ->
     method_pd h r (replace_other first_margin X w) first_margin
     = Some (other first_margin X)).
Proof.
  intros h hinv I r fm X. split; [|split; [|split]].
  - intros N. unfold method_pd. rewrite validate_none; auto.
  - intros A B. unfold method_pd. rewrite (validate_some X A B). cbn.
    set (Y := (clip _ _ (fst X), clip _ _ (snd X))).
    destruct (C45_inverse h hinv I r fm Y) as ((P & _) & (Q & _)); [apply clip_unit ..|].
    eexists _, _. split; [reflexivity|]. split; [exact P|]. split; [reflexivity|exact Q].
  - intros p A B E Hp. unfold method_pd in *. rewrite (validate_inside X A B) in E. cbn in E.
    injection E as <-. rewrite validate_inside.
    + cbn. f_equal. apply (C45_inverse h hinv I r fm X); now apply inside_unit.
    + destruct fm; cbn; auto.
    + destruct fm; cbn; auto.
  - intros p A B E Hp. unfold method_pd in *. rewrite (validate_inside X A B) in E. cbn in E.
    injection E as <-. rewrite validate_inside.
    + cbn. f_equal. apply (C45_inverse h hinv I r fm X); now apply inside_unit.
    + destruct fm; cbn; auto.
    + destruct fm; cbn; auto.
Qed.

(* C45, sampling: the pair returned for the uniform numbers (x1, x2) keeps x1
   and its second entry is the value whose conditional probability given x1
   is x2. *)
Theorem C45_sample : forall h hinv, inverse_pair h hinv ->
  forall r x1 x2 Y, inside x1 -> inside x2 ->
  method_sample hinv r (x1, x2) = Some Y ->
  fst Y = x1 /\ unit (snd Y) /\
  (inside (snd Y) -> method_pd h r Y true = Some x2).
Proof.
  intros h hinv I r x1 x2 Y A B. unfold method_sample, method_pd.
  rewrite (validate_inside (x1, x2) A B). cbn [option_map fst snd]. intros E. injection E as <-. cbn [fst snd].
  destruct (C45_inverse h hinv I r true (x1, x2)) as (_ & (Q & E)); [now apply inside_unit ..|].
  split; auto. split; auto. intros W. rewrite validate_inside; auto. cbn [option_map]. f_equal. exact E.
Qed.

(* C45, scores: an entry outside [0, 1] is rejected; away from the clipped margin
   the score is the log-density of the rotated copula, that is the logarithm of the
   derivative of its conditional distribution. *)
Theorem C45_score : forall h c score,
  density_of h c -> exchangeable c ->
  (forall u v, inside u -> inside v -> exp (score u v) = c u v) ->
  forall r u v,
  (~ (0 <= u <= 1 /\ 0 <= v <= 1) -> method_score score r (u, v) = None) /\
  (0 <= u <= 1 -> 0 <= v <= 1 -> exists s, method_score score r (u, v) = Some s) /\
  (inside u -> inside v ->
     exists s, method_score score r (u, v) = Some s /\
       derivable_pt_lim (fun t => rotated_pd (swapped h) r (t, v) false) u (exp s)).
Proof.
  intros h c score Hd He Hs r u v. unfold method_score. split; [|split].
  - intros N. rewrite validate_none; auto.
  - intros A B. rewrite (validate_some (u, v) A B). cbn [option_map]. eauto.
  - intros A B. rewrite (validate_inside (u, v) A B). cbn [option_map]. eexists. split; [reflexivity|].
    pose proof (C45_density h c Hd He r u v (inside_unit _ A) (inside_unit _ B)) as D.
    assert (I : forall x, inside x -> inside (1 - x)) by (unfold inside; intros; lra).
    cbv zeta in *. rewrite Hs; [exact D | |]; destruct r; cbn; auto.
Qed.
Print Assumptions C45_score.
Example C45_score_applies :
  density_of independent_h (fun _ _ => 1) /\ exchangeable (fun _ _ => 1)
  /\ (forall u v, inside u -> inside v -> exp (independent_score u v) = 1).
Proof.
  split; [|split].
  - intros u v _ _. unfold independent_h. apply derivable_pt_lim_id.
  - intros u v _ _. reflexivity.
  - intros u v _ _. unfold independent_score. apply exp_0.
Qed.

(* ------------------------------------------------------------------------ *)
(* Powers                                                                    *)
(* ------------------------------------------------------------------------ *)
Lemma pw_pos x a : 0 < Rpower x a.
Proof. apply exp_pos. Qed.

Lemma ln_neg x : unit x -> ln x < 0.
Proof. intros [A B]. rewrite <- ln_1. now apply ln_increasing. Qed.

Lemma ln_pos1 x : 1 < x -> 0 < ln x.
Proof. intros A. rewrite <- ln_1. apply ln_increasing; lra. Qed.

Lemma exp_lt1 x : x < 0 -> exp x < 1.
Proof. intros A. rewrite <- exp_0. now apply exp_increasing. Qed.
Lemma exp_gt1 x : 0 < x -> 1 < exp x.
Proof. intros A. rewrite <- exp_0. now apply exp_increasing. Qed.

Lemma pw_unit x a : unit x -> 0 < a -> unit (Rpower x a).
Proof.
  intros U A. split; [apply pw_pos|]. apply exp_lt1. pose proof (ln_neg x U). nra.
Qed.
Lemma pw_unit_neg x a : unit x -> a < 0 -> 1 < Rpower x a.
Proof. intros U A. apply exp_gt1. pose proof (ln_neg x U). nra. Qed.
Lemma pw_big x a : 1 < x -> 0 < a -> 1 < Rpower x a.
Proof. intros U A. apply exp_gt1. pose proof (ln_pos1 x U). nra. Qed.
Lemma pw_big_neg x a : 1 < x -> a < 0 -> unit (Rpower x a).
Proof.
  intros U A. split; [apply pw_pos|]. apply exp_lt1. pose proof (ln_pos1 x U). nra.
Qed.
Lemma pw_pw x a b : Rpower (Rpower x a) b = Rpower x (a * b).
Proof. apply Rpower_mult. Qed.
Lemma pw_inv x a b : 0 < x -> a * b = 1 -> Rpower (Rpower x a) b = x.
Proof. intros P E. rewrite pw_pw, E. now apply Rpower_1. Qed.
Lemma pw_opp x a : Rpower x a * Rpower x (- a) = 1.
Proof. rewrite <- Rpower_plus. replace (a + - a) with 0 by ring. unfold Rpower. rewrite Rmult_0_l. apply exp_0. Qed.
Lemma pw_mul x y a : 0 < x -> 0 < y -> Rpower (x * y) a = Rpower x a * Rpower y a.
Proof. intros. symmetry. now apply Rpower_mult_distr. Qed.
Lemma pw_incr x y a : 0 < a -> 0 < x < y -> Rpower x a < Rpower y a.
Proof.
  intros A [P L]. unfold Rpower. apply exp_increasing.
  pose proof (ln_increasing x y P L). nra.
Qed.
Lemma pw_decr x y a : a < 0 -> 0 < x < y -> Rpower y a < Rpower x a.
Proof.
  intros A [P L]. unfold Rpower. apply exp_increasing.
  pose proof (ln_increasing x y P L). nra.
Qed.
Lemma pw_one a : Rpower 1 a = 1.
Proof. unfold Rpower. rewrite ln_1, Rmult_0_r. apply exp_0. Qed.
Lemma ln_pw x a : ln (Rpower x a) = a * ln x.
Proof. unfold Rpower. apply ln_exp. Qed.
Lemma exp_ln_mult a x : exp (a * ln x) = Rpower x a.
Proof. reflexivity. Qed.

(* (a + b)^t <= a^t + b^t for 0 < t <= 1 *)
Lemma pw_subadd a b t : 0 < a -> 0 < b -> 0 < t <= 1 ->
  Rpower (a + b) t <= Rpower a t + Rpower b t.
Proof.
  intros A B T.
  assert (K : forall p, unit p -> p <= Rpower p t).
  { intros p U. pose proof (ln_neg p U).
    replace p with (exp (ln p)) at 1 by (apply exp_ln; unfold unit in U; lra).
    unfold Rpower. destruct (Req_dec t 1) as [->|N]; [rewrite Rmult_1_l; lra|].
    left. apply exp_increasing. nra. }
  assert (S : 0 < a + b) by lra.
  assert (Ua : unit (a / (a + b))).
  { split; [apply Rdiv_lt_0_compat; lra|]. apply (Rmult_lt_reg_r (a + b)); auto.
    unfold Rdiv. rewrite Rmult_assoc, Rinv_l by lra. lra. }
  assert (Ub : unit (b / (a + b))).
  { split; [apply Rdiv_lt_0_compat; lra|]. apply (Rmult_lt_reg_r (a + b)); auto.
    unfold Rdiv. rewrite Rmult_assoc, Rinv_l by lra. lra. }
  pose proof (K _ Ua). pose proof (K _ Ub).
  replace (Rpower a t) with (Rpower (a + b) t * Rpower (a / (a + b)) t).
  2:{ rewrite <- pw_mul; [|lra|apply Ua]. f_equal. field. lra. }
  replace (Rpower b t) with (Rpower (a + b) t * Rpower (b / (a + b)) t).
  2:{ rewrite <- pw_mul; [|lra|apply Ub]. f_equal. field. lra. }
  pose proof (pw_pos (a + b) t).
  assert (a / (a + b) + b / (a + b) = 1) by (field; lra). nra.
Qed.

(* ------------------------------------------------------------------------ *)
(* C46: Clayton                                                              *)
(* ------------------------------------------------------------------------ *)
Section clayton.
  Variable theta : R.
  Hypothesis Ht : 0 < theta.

  Let S (u v : R) := Rpower u (- theta) + Rpower v (- theta) - 1.

  Lemma cl_S u v : unit u -> unit v -> 1 < S u v.
  Proof.
    intros U V. unfold S. pose proof (pw_unit_neg u (- theta) U).
    pose proof (pw_unit_neg v (- theta) V). lra.
  Qed.

  Lemma cl_h_eq u v : unit u -> unit v ->
    clayton_h theta u v = Rpower (S u v) (- (1 + 1 / theta)) * Rpower v (- theta - 1).
  Proof.
    intros U V. unfold clayton_h.
    replace (1 + Rpower v theta * (Rpower u (- theta) - 1)) with (Rpower v theta * S u v).
    2:{ unfold S. pose proof (pw_opp v theta). nra. }
    rewrite pw_mul; [|apply pw_pos | pose proof (cl_S u v U V); lra].
    rewrite pw_pw. rewrite Rmult_comm. f_equal. f_equal. field. lra.
  Qed.

  Lemma cl_sym : exchangeable (clayton_cdf theta).
  Proof. intros u v _ _. unfold clayton_cdf. f_equal. ring. Qed.

  Lemma cl_h_unit u v : unit u -> unit v -> unit (clayton_h theta u v).
  Proof.
    intros U V. unfold clayton_h. apply pw_big_neg.
    - pose proof (pw_unit_neg u (- theta) U). pose proof (pw_pos v theta). nra.
    - assert (0 < 1 / theta) by (apply Rdiv_lt_0_compat; lra). lra.
  Qed.

  Lemma cl_deriv : h_function_of (clayton_cdf theta) (clayton_h theta).
  Proof.
    intros u v U V. rewrite cl_h_eq by auto. unfold clayton_cdf.
    eapply d_eq.
    - apply (d_pow (fun t => Rpower u (- theta) + Rpower t (- theta) - 1)).
      + apply d_minus; [|apply d_const]. apply d_plus; [apply d_const|].
        apply (d_pow (fun t => t)); [apply d_id | apply V].
      + pose proof (cl_S u v U V). unfold S in *. lra.
    - cbn beta. fold (S u v).
      replace (- 1 / theta - 1) with (- (1 + 1 / theta)) by (field; lra).
      field. lra.
  Qed.

  Lemma cl_score_eq u v : unit u -> unit v ->
    exp (clayton_score theta u v)
    = (1 + theta) * Rpower (S u v) (- (2 + 1 / theta))
      * Rpower u (- theta - 1) * Rpower v (- theta - 1).
  Proof.
    intros U V. unfold clayton_score.
    replace (1 + (exp (- theta * ln u) - 1 + (exp (- theta * ln v) - 1))) with (S u v).
    2:{ unfold S, Rpower. ring. }
    unfold Rpower.
    replace (ln (1 + theta) - (2 + 1 / theta) * ln (S u v) - (1 + theta) * (ln u + ln v))
      with (ln (1 + theta) + (- (2 + 1 / theta) * ln (S u v)) + ((- theta - 1) * ln u)
            + ((- theta - 1) * ln v)) by ring.
    rewrite !exp_plus, exp_ln by lra. reflexivity.
  Qed.

  Lemma cl_density : density_of (clayton_h theta) (fun u v => exp (clayton_score theta u v)).
  Proof.
    intros u v U V. rewrite cl_score_eq by auto. unfold clayton_h.
    eapply d_eq.
    - apply (d_pow (fun t => 1 + Rpower v theta * (Rpower t (- theta) - 1))).
      + apply d_plus; [apply d_const|]. apply d_mult; [apply d_const|].
        apply d_minus; [|apply d_const]. apply (d_pow (fun t => t)); [apply d_id | apply U].
      + pose proof (pw_unit_neg u (- theta) U). pose proof (pw_pos v theta). nra.
    - cbn beta.
      replace (1 + Rpower v theta * (Rpower u (- theta) - 1)) with (Rpower v theta * S u v).
      2:{ unfold S. pose proof (pw_opp v theta). nra. }
      rewrite pw_mul; [|apply pw_pos | pose proof (cl_S u v U V); lra].
      rewrite pw_pw.
      replace (- (1 + 1 / theta) - 1) with (- (2 + 1 / theta)) by ring.
      replace (theta * - (2 + 1 / theta)) with (- theta - 1 + - theta) by (field; lra).
      rewrite (Rpower_plus (- theta - 1) (- theta) v).
      pose proof (pw_opp v theta) as E.
      set (A := Rpower (S u v) (- (2 + 1 / theta))) in *.
      set (B := Rpower u (- theta - 1)). set (D := Rpower v (- theta - 1)).
      transitivity (((1 + 1 / theta) * theta) * A * B * D * (Rpower v theta * Rpower v (- theta)));
        [ring|].
      rewrite E. field. lra.
  Qed.

  Lemma cl_score_sym : exchangeable (fun u v => exp (clayton_score theta u v)).
  Proof. intros u v U V. rewrite !cl_score_eq by auto. unfold S.
    replace (Rpower v (- theta) + Rpower u (- theta) - 1)
      with (Rpower u (- theta) + Rpower v (- theta) - 1) by ring. ring. Qed.

  Lemma cl_bounds : frechet_bounds (fun X => clayton_cdf theta (fst X) (snd X)).
  Proof.
    intros u v U V. cbn [fst snd]. unfold clayton_cdf. fold (S u v).
    pose proof (pw_unit_neg u (- theta) U ltac:(lra)) as Gu.
    pose proof (pw_unit_neg v (- theta) V ltac:(lra)) as Gv.
    assert (N : - 1 / theta < 0).
    { replace (- 1 / theta) with (- (1 / theta)) by (field; lra).
      assert (0 < 1 / theta) by (apply Rdiv_lt_0_compat; lra). lra. }
    assert (I : forall x, unit x -> Rpower (Rpower x (- theta)) (- 1 / theta) = x).
    { intros x Hx. apply pw_inv; [apply Hx | field; lra]. }
    assert (L : u * v <= Rpower (S u v) (- 1 / theta)).
    { replace (u * v) with (Rpower (Rpower u (- theta) * Rpower v (- theta)) (- 1 / theta)).
      2:{ rewrite pw_mul by apply pw_pos. now rewrite !I. }
      left. apply pw_decr; auto. split; [pose proof (cl_S u v U V); lra|]. unfold S. nra. }
    split; [left; apply pw_pos|]. split; [unfold unit in *; nra|]. split; left.
    - rewrite <- (I u) at 2 by auto. apply pw_decr; auto. split; [apply pw_pos|]. unfold S. lra.
    - rewrite <- (I v) at 2 by auto. apply pw_decr; auto. split; [apply pw_pos|]. unfold S. lra.
  Qed.

  Lemma cl_inverse : inverse_pair (clayton_h theta) (clayton_hinv theta).
  Proof.
    assert (P1 : 0 < 1 / theta) by (apply Rdiv_lt_0_compat; lra).
    assert (E1 : forall v, 0 < v -> Rpower v theta * Rpower v (- theta) = 1) by (intros; apply pw_opp).
    split.
    - intros u v U V. split; [now apply cl_h_unit|]. unfold clayton_hinv, clayton_h.
      rewrite pw_pw. replace (- (1 + 1 / theta) * (- theta / (theta + 1))) with 1 by (field; lra).
      pose proof (pw_unit_neg u (- theta) U ltac:(lra)). pose proof (pw_pos v theta).
      rewrite Rpower_1 by nra.
      replace (1 + Rpower v (- theta) * (1 + Rpower v theta * (Rpower u (- theta) - 1) - 1))
        with (Rpower u (- theta)).
      2:{ pose proof (E1 v (proj1 V)). nra. }
      apply pw_inv; [apply U | field; lra].
    - intros p v P V. unfold clayton_hinv, clayton_h.
      assert (G : 1 < Rpower p (- theta / (theta + 1))).
      { apply pw_unit_neg; auto. replace (- theta / (theta + 1)) with (- (theta / (theta + 1))) by (field; lra).
        assert (0 < theta / (theta + 1)) by (apply Rdiv_lt_0_compat; lra). lra. }
      pose proof (pw_pos v (- theta)) as Q.
      assert (B : 1 < 1 + Rpower v (- theta) * (Rpower p (- theta / (theta + 1)) - 1)) by nra.
      split.
      + apply pw_big_neg; auto. replace (- 1 / theta) with (- (1 / theta)) by (field; lra). lra.
      + rewrite pw_inv; [|lra | field; lra].
        replace (1 + Rpower v theta * (1 + Rpower v (- theta) * (Rpower p (- theta / (theta + 1)) - 1) - 1))
          with (Rpower p (- theta / (theta + 1))).
        2:{ pose proof (E1 v (proj1 V)). nra. }
        apply pw_inv; [apply P | field; lra].
  Qed.
End clayton.

Lemma monotone_of_density h s : density_of h (fun u v => exp (s u v)) ->
  (forall u v, unit u -> unit v -> unit (h u v)) -> conditional_cdf h.
Proof.
  intros D U. split; auto. intros u u' v Hu Hu' Hv L.
  apply (increasing_of (fun t => h t v) (fun t => exp (s t v))); try assumption.
  - intros x Hx. now apply (D x v).
  - intros. apply exp_pos.
Qed.

(* what a copula family has to satisfy: cdf, h-function and log-density fit
   together, on the open unit square *)
Definition coherent (C h score : R -> R -> R) : Prop :=
  exchangeable C /\ frechet_bounds (fun X => C (fst X) (snd X)) /\
  h_function_of C h /\ conditional_cdf h /\
  density_of h (fun u v => exp (score u v)) /\
  exchangeable (fun u v => exp (score u v)).

Theorem C46_clayton : forall theta, 0 < theta ->
  coherent (clayton_cdf theta) (clayton_h theta) (clayton_score theta) /\
  inverse_pair (clayton_h theta) (clayton_hinv theta).
Proof.
  intros theta Ht. split; [|now apply cl_inverse].
  split; [apply cl_sym|]. split; [now apply cl_bounds|]. split; [now apply cl_deriv|].
  split; [|split; [now apply cl_density | now apply cl_score_sym]].
  apply (monotone_of_density _ (clayton_score theta)); [now apply cl_density|].
  intros; now apply cl_h_unit.
Qed.

(* ------------------------------------------------------------------------ *)
(* C46: Gumbel                                                               *)
(* ------------------------------------------------------------------------ *)
Section gumbel.
  Variable theta : R.
  Hypothesis Ht : 1 < theta.

  Let S (u v : R) := Rpower (- ln u) theta + Rpower (- ln v) theta.

  Lemma gu_S u v : 0 < S u v.
  Proof. unfold S. pose proof (pw_pos (- ln u) theta). pose proof (pw_pos (- ln v) theta). lra. Qed.

  Lemma gu_h_eq u v : unit u -> unit v ->
    gumbel_h theta u v
    = exp (- Rpower (S u v) (1 / theta)) * Rpower (S u v) (1 / theta - 1)
      * Rpower (- ln v) (theta - 1) / v.
  Proof.
    intros U V. unfold gumbel_h. fold (S u v).
    pose proof (ln_neg u U). pose proof (ln_neg v V).
    replace (Rpower (- ln u / - ln v) theta + 1) with (S u v * Rpower (- ln v) (- theta)).
    2:{ unfold S, Rdiv. rewrite pw_mul; [|lra | apply Rinv_0_lt_compat; lra].
        replace (Rpower (/ - ln v) theta) with (Rpower (- ln v) (- theta)).
        - rewrite Rmult_plus_distr_r, pw_opp. reflexivity.
        - unfold Rpower. rewrite ln_Rinv by lra. f_equal. ring. }
    rewrite pw_mul; [|apply gu_S | apply pw_pos]. rewrite pw_pw.
    replace (- theta * (1 / theta - 1)) with (theta - 1) by (field; lra).
    unfold Rdiv. ring.
  Qed.

  Lemma gu_sym : exchangeable (gumbel_cdf theta).
  Proof. intros u v _ _. unfold gumbel_cdf. do 3 f_equal. ring. Qed.

  Lemma d_mln u : unit u -> derivable_pt_lim (fun t => - ln t) u (- / u).
  Proof.
    intros U. eapply d_eq; [apply d_opp, (d_ln (fun t => t)); [apply d_id | apply U] | ring].
  Qed.

  Lemma gu_deriv : h_function_of (gumbel_cdf theta) (gumbel_h theta).
  Proof.
    intros u v U V. rewrite gu_h_eq by auto. unfold gumbel_cdf.
    pose proof (ln_neg v V). eapply d_eq.
    - apply d_exp, d_opp.
      apply (d_pow (fun t => Rpower (- ln u) theta + Rpower (- ln t) theta)).
      + apply d_plus; [apply d_const|].
        apply (d_pow (fun t => - ln t)); [now apply d_mln | lra].
      + apply gu_S.
    - cbn beta. fold (S u v). field. unfold unit in V. lra.
  Qed.

  Lemma gu_s_root u v : Rpower (Rpower (S u v) (1 / theta)) (1 - 2 * theta)
                        = Rpower (S u v) (1 / theta - 2).
  Proof. rewrite pw_pw. f_equal. field. lra. Qed.

  (* the guard s >= 1e-10 of the log-density is idle where _validate_X lets
     observations through *)
  Definition gumbel_density (u v : R) : R :=
    exp (- Rpower (S u v) (1 / theta)) * Rpower (S u v) (1 / theta - 2)
    * (Rpower (S u v) (1 / theta) + theta - 1)
    * Rpower (- ln u) (theta - 1) * Rpower (- ln v) (theta - 1) / u / v.

  Lemma gu_density : density_of (gumbel_h theta) gumbel_density.
  Proof.
    intros u v U V. pose proof (ln_neg u U).
    destruct (unit_open u U) as (d & Hd & N).
    apply (d_ext_loc (fun t => (exp (- Rpower (S t v) (1 / theta)) * Rpower (S t v) (1 / theta - 1))
                               * (Rpower (- ln v) (theta - 1) / v))).
    { exists d. split; auto. intros t Htt. rewrite gu_h_eq by auto. unfold Rdiv. ring. }
    assert (DS : derivable_pt_lim (fun t => S t v) u
                   (theta * Rpower (- ln u) (theta - 1) * - / u)).
    { unfold S. eapply d_eq.
      - apply d_plus; [|apply d_const].
        apply (d_pow (fun t => - ln t)); [now apply d_mln | lra].
      - ring. }
    eapply d_eq.
    - apply d_mult; [|apply d_const]. apply d_mult.
      + apply d_exp, d_opp, (d_pow (fun t => S t v)); [exact DS | apply gu_S].
      + apply (d_pow (fun t => S t v)); [exact DS | apply gu_S].
    - cbn beta. unfold gumbel_density.
      set (E := exp (- Rpower (S u v) (1 / theta))).
      replace (1 / theta - 1 - 1) with (1 / theta - 2) by ring.
      assert (E2 : Rpower (S u v) (1 / theta - 1) * Rpower (S u v) (1 / theta - 1)
                   = Rpower (S u v) (1 / theta - 2) * Rpower (S u v) (1 / theta)).
      { rewrite <- !Rpower_plus. f_equal. ring. }
      set (a := Rpower (S u v) (1 / theta - 1)) in *.
      set (b := Rpower (S u v) (1 / theta - 2)) in *.
      set (s := Rpower (S u v) (1 / theta)) in *.
      set (X := Rpower (- ln u) (theta - 1)). set (Y := Rpower (- ln v) (theta - 1)).
      transitivity (E * X * (Y / v) * / u * (a * a + (theta - 1) * b)).
      + field. unfold unit in *. lra.
      + rewrite E2. field. unfold unit in *. lra.
  Qed.

  Lemma gu_s_gt u v : unit u -> unit v -> - ln u < Rpower (S u v) (1 / theta).
  Proof.
    intros U V. pose proof (ln_neg u U).
    rewrite <- (pw_inv (- ln u) theta (1 / theta)) at 1; [|lra | field; lra].
    apply pw_incr; [apply Rdiv_lt_0_compat; lra|]. split; [apply pw_pos|].
    unfold S. pose proof (pw_pos (- ln v) theta). lra.
  Qed.

  Lemma gu_S_sym u v : S u v = S v u.
  Proof. unfold S. ring. Qed.

  Lemma gu_h_unit u v : unit u -> unit v -> unit (gumbel_h theta u v).
  Proof.
    intros U V. unfold gumbel_h. fold (S u v).
    pose proof (ln_neg u U). pose proof (ln_neg v V).
    pose proof (gu_s_gt v u V U) as G. rewrite gu_S_sym in G.
    replace (/ v) with (exp (- ln v)) by (rewrite <- ln_Rinv by apply V;
      apply exp_ln, Rinv_0_lt_compat, V).
    assert (Q : unit (Rpower (Rpower (- ln u / - ln v) theta + 1) (1 / theta - 1))).
    { apply pw_big_neg.
      - pose proof (pw_pos (- ln u / - ln v) theta). lra.
      - assert (1 / theta < 1); [|lra].
        unfold Rdiv. rewrite Rmult_1_l, <- Rinv_1. apply Rinv_lt_contravar; lra. }
    unfold Rdiv at 1.
    assert (P : unit (exp (- Rpower (S u v) (1 / theta)) * / v)).
    { replace (/ v) with (exp (- ln v)) by (rewrite <- ln_Rinv by apply V;
        apply exp_ln, Rinv_0_lt_compat, V).
      rewrite <- exp_plus. split; [apply exp_pos | apply exp_lt1; lra]. }
    replace (exp (- Rpower (S u v) (1 / theta)) *
             Rpower (Rpower (- ln u / - ln v) theta + 1) (1 / theta - 1) * / v)
      with ((exp (- Rpower (S u v) (1 / theta)) * / v) *
             Rpower (Rpower (- ln u / - ln v) theta + 1) (1 / theta - 1)) by ring.
    unfold unit in *. nra.
  Qed.

  Lemma gu_density_pos u v : unit u -> unit v -> 0 < gumbel_density u v.
  Proof.
    intros U V. unfold gumbel_density, Rdiv.
    repeat apply Rmult_lt_0_compat; try apply pw_pos; try apply exp_pos;
      try (apply Rinv_0_lt_compat; unfold unit in *; lra).
    pose proof (pw_pos (S u v) (1 / theta)). unfold Rdiv in *. lra.
  Qed.

  Lemma gu_mono : conditional_cdf (gumbel_h theta).
  Proof.
    split; [intros; now apply gu_h_unit|]. intros u u' v Hu Hu' Hv L.
    apply (increasing_of (fun t => gumbel_h theta t v) (fun t => gumbel_density t v)); try assumption.
    - intros x Hx. now apply gu_density.
    - intros. now apply gu_density_pos.
  Qed.

  Lemma gu_density_sym : exchangeable gumbel_density.
  Proof. intros u v U V. unfold gumbel_density. rewrite (gu_S_sym v u). field. unfold unit in *. lra. Qed.

  Lemma gu_bounds : frechet_bounds (fun X => gumbel_cdf theta (fst X) (snd X)).
  Proof.
    intros u v U V. cbn [fst snd]. unfold gumbel_cdf. fold (S u v).
    pose proof (ln_neg u U). pose proof (ln_neg v V).
    assert (L : Rpower (S u v) (1 / theta) <= - ln u + - ln v).
    { unfold S. eapply Rle_trans; [apply pw_subadd; try apply pw_pos|].
      - split; [apply Rdiv_lt_0_compat; lra|]. apply (Rmult_le_reg_r theta); [lra|].
        unfold Rdiv. rewrite Rmult_assoc, Rinv_l by lra. lra.
      - rewrite !pw_inv; try lra; field; lra. }
    pose proof (gu_s_gt u v U V) as Gu. pose proof (gu_s_gt v u V U) as Gv. rewrite gu_S_sym in Gv.
    assert (B : u * v <= exp (- Rpower (S u v) (1 / theta))).
    { rewrite <- (exp_ln u) at 1 by apply U. rewrite <- (exp_ln v) at 1 by apply V.
      rewrite <- exp_plus. destruct L as [L|L].
      - left. apply exp_increasing. lra.
      - right. f_equal. lra. }
    split; [left; apply exp_pos|]. split; [unfold unit in *; nra|]. split; left.
    - rewrite <- (exp_ln u) at 2 by apply U. apply exp_increasing. lra.
    - rewrite <- (exp_ln v) at 2 by apply V. apply exp_increasing. lra.
  Qed.

  Lemma gu_score_eq u v : unit u -> unit v ->
    1 / 10000000000 <= Rpower (S u v) (1 / theta) ->
    exp (gumbel_score theta u v) = gumbel_density u v.
  Proof.
    intros U V G. unfold gumbel_score. fold (S u v). rewrite Rmax_left by lra.
    pose proof (ln_neg u U). pose proof (ln_neg v V).
    pose proof (pw_pos (S u v) (1 / theta)) as P.
    assert (Iu : exp (- ln u) = / u).
    { rewrite <- ln_Rinv by apply U. apply exp_ln, Rinv_0_lt_compat, U. }
    assert (Iv : exp (- ln v) = / v).
    { rewrite <- ln_Rinv by apply V. apply exp_ln, Rinv_0_lt_compat, V. }
    rewrite (ln_mult (- ln u) (- ln v)) by lra.
    replace (- Rpower (S u v) (1 / theta) + ln (Rpower (S u v) (1 / theta) + theta - 1) +
             (1 - 2 * theta) * ln (Rpower (S u v) (1 / theta)) +
             (theta - 1) * (ln (- ln u) + ln (- ln v)) + (- ln u + - ln v))
      with (- Rpower (S u v) (1 / theta) + ln (Rpower (S u v) (1 / theta) + theta - 1) +
             (1 - 2 * theta) * ln (Rpower (S u v) (1 / theta)) +
             (theta - 1) * ln (- ln u) + (theta - 1) * ln (- ln v) + - ln u + - ln v) by ring.
    rewrite !exp_plus, Iu, Iv, exp_ln by lra. rewrite !exp_ln_mult, gu_s_root.
    unfold gumbel_density, Rdiv. ring.
  Qed.

  Lemma gu_guard u v : inside u -> inside v -> 1 / 10000000000 <= Rpower (S u v) (1 / theta).
  Proof.
    intros U V. pose proof (gu_s_gt u v (inside_unit _ U) (inside_unit _ V)) as G.
    assert (1 - u <= - ln u).
    { pose proof (exp_ineq1_le (ln u)) as E. rewrite exp_ln in E; [lra|].
      apply (inside_unit u U). }
    unfold inside, epsilon in U. lra.
  Qed.
End gumbel.

Theorem C46_gumbel : forall theta, 1 < theta ->
  exchangeable (gumbel_cdf theta) /\
  frechet_bounds (fun X => gumbel_cdf theta (fst X) (snd X)) /\
  h_function_of (gumbel_cdf theta) (gumbel_h theta) /\
  conditional_cdf (gumbel_h theta) /\
  exists c, density_of (gumbel_h theta) c /\ exchangeable c /\
            forall u v, inside u -> inside v -> exp (gumbel_score theta u v) = c u v.
Proof.
  intros theta Ht. split; [apply gu_sym|]. split; [now apply gu_bounds|].
  split; [now apply gu_deriv|]. split; [now apply gu_mono|].
  exists (gumbel_density theta). split; [now apply gu_density|]. split; [apply gu_density_sym|].
  intros u v U V. apply gu_score_eq; try (now apply inside_unit); auto. now apply gu_guard.
Qed.

(* ------------------------------------------------------------------------ *)
(* C46: Joe                                                                  *)
(* ------------------------------------------------------------------------ *)
Section joe.
  Variable theta : R.
  Hypothesis Ht : 1 < theta.

  Let z (u : R) := Rpower (1 - u) theta.
  Let D (u v : R) := z u + z v - z u * z v.

  Lemma jo_z u : unit u -> unit (z u).
  Proof. intros U. apply pw_unit; [now apply unit_1m | lra]. Qed.

  Lemma jo_D u v : unit u -> unit v -> unit (D u v).
  Proof. intros U V. pose proof (jo_z u U). pose proof (jo_z v V). unfold D, unit in *. nra. Qed.

  Lemma jo_inv : 0 < 1 / theta < 1.
  Proof.
    split; [apply Rdiv_lt_0_compat; lra|].
    unfold Rdiv. rewrite Rmult_1_l, <- Rinv_1. apply Rinv_lt_contravar; lra.
  Qed.

  Lemma jo_h_eq u v : unit u -> unit v ->
    joe_h theta u v
    = Rpower (D u v) (1 / theta - 1) * (1 - z u) * Rpower (1 - v) (theta - 1).
  Proof.
    intros U V. unfold joe_h. fold (z u) (z v).
    pose proof (jo_z u U). pose proof (jo_z v V). pose proof (jo_D u v U V).
    pose proof (unit_1m v V).
    replace (1 + z u / z v - z u) with (D u v * Rpower (1 - v) (- theta)).
    2:{ rewrite Rpower_Ropp. unfold D. fold (z v). field. unfold unit in *; lra. }
    rewrite pw_mul; [|unfold unit in *; lra | apply pw_pos]. rewrite pw_pw.
    replace (- theta * (1 / theta - 1)) with (theta - 1) by (field; lra). ring.
  Qed.

  Lemma jo_sym : exchangeable (joe_cdf theta).
  Proof. intros u v _ _. unfold joe_cdf. do 2 f_equal. ring. Qed.

  Lemma d_z u : unit u -> derivable_pt_lim z u (- theta * Rpower (1 - u) (theta - 1)).
  Proof.
    intros U. pose proof (unit_1m u U). unfold z. eapply d_eq.
    - apply (d_pow (fun t => 1 - t)); [apply d_one_minus | unfold unit in *; lra].
    - ring.
  Qed.

  Lemma jo_deriv : h_function_of (joe_cdf theta) (joe_h theta).
  Proof.
    intros u v U V. rewrite jo_h_eq by auto. unfold joe_cdf.
    pose proof (jo_D u v U V). eapply d_eq.
    - apply d_minus; [apply d_const|]. apply (d_pow (fun t => z u + z t - z u * z t)).
      + apply d_minus; [apply d_plus; [apply d_const | now apply d_z]|].
        apply d_mult; [apply d_const | now apply d_z].
      + unfold D, unit in *. lra.
    - cbn beta. fold (D u v). field. lra.
  Qed.

  Lemma jo_score_eq u v : unit u -> unit v ->
    exp (joe_score theta u v)
    = Rpower (D u v) (1 / theta - 2) * Rpower (1 - u) (theta - 1)
      * Rpower (1 - v) (theta - 1) * (theta - 1 + D u v).
  Proof.
    intros U V. unfold joe_score. pose proof (jo_D u v U V).
    fold (1 - u) (1 - v).
    replace (exp (ln (1 - u) * theta) + exp (ln (1 - v) * theta) -
             exp ((ln (1 - u) + ln (1 - v)) * theta)) with (D u v).
    2:{ rewrite (Rmult_plus_distr_r (ln (1 - u))), exp_plus. unfold D, z, Rpower.
        rewrite !(Rmult_comm theta). reflexivity. }
    rewrite (Rmult_plus_distr_r (ln (1 - u))), !exp_plus, exp_ln by (unfold unit in *; lra).
    rewrite (Rmult_comm (ln (1 - u))), (Rmult_comm (ln (1 - v))), !exp_ln_mult. ring.
  Qed.

  Lemma jo_density : density_of (joe_h theta) (fun u v => exp (joe_score theta u v)).
  Proof.
    intros u v U V. rewrite jo_score_eq by auto.
    pose proof (jo_D u v U V). destruct (unit_open u U) as (d & Hd & N).
    apply (d_ext_loc (fun t => Rpower (D t v) (1 / theta - 1) * (1 - z t)
                               * Rpower (1 - v) (theta - 1))).
    { exists d. split; auto. intros t Htt. now rewrite jo_h_eq by auto. }
    eapply d_eq.
    - apply d_mult; [|apply d_const]. apply d_mult.
      + apply (d_pow (fun t => D t v)); [|unfold unit in *; lra].
        unfold D. apply d_minus; [apply d_plus; [now apply d_z | apply d_const]|].
        apply d_mult; [now apply d_z | apply d_const].
      + apply d_minus; [apply d_const | now apply d_z].
    - cbn beta. replace (1 / theta - 1 - 1) with (1 / theta - 2) by ring.
      replace (Rpower (D u v) (1 / theta - 1)) with (Rpower (D u v) (1 / theta - 2) * D u v).
      2:{ rewrite <- (Rpower_1 (D u v)) at 2 by (unfold unit in *; lra).
          rewrite <- Rpower_plus. f_equal. ring. }
      set (A := Rpower (D u v) (1 / theta - 2)). set (X := Rpower (1 - u) (theta - 1)).
      set (Y := Rpower (1 - v) (theta - 1)). unfold D. field. lra.
  Qed.

  Lemma jo_score_sym : exchangeable (fun u v => exp (joe_score theta u v)).
  Proof.
    intros u v U V. rewrite !jo_score_eq by auto.
    replace (D v u) with (D u v) by (unfold D; ring). ring.
  Qed.

  Lemma jo_h_unit u v : unit u -> unit v -> unit (joe_h theta u v).
  Proof.
    intros U V. unfold joe_h. fold (z u) (z v).
    pose proof (jo_z u U) as Zu. pose proof (jo_z v V) as Zv. pose proof jo_inv.
    assert (1 < 1 + z u / z v - z u).
    { assert (z u < z u / z v); [|lra]. unfold unit in *.
      apply (Rmult_lt_reg_r (z v)); [lra|]. unfold Rdiv.
      rewrite Rmult_assoc, Rinv_l by lra. nra. }
    assert (Q : unit (Rpower (1 + z u / z v - z u) (1 / theta - 1))) by (apply pw_big_neg; lra).
    unfold unit in *. nra.
  Qed.

  Lemma jo_bounds : frechet_bounds (fun X => joe_cdf theta (fst X) (snd X)).
  Proof.
    intros u v U V. cbn [fst snd]. unfold joe_cdf. fold (z u) (z v). fold (D u v).
    pose proof (jo_z u U) as Zu. pose proof (jo_z v V) as Zv. pose proof jo_inv.
    pose proof (jo_D u v U V) as HD.
    assert (I : forall x, unit x -> Rpower (z x) (1 / theta) = 1 - x).
    { intros x Hx. apply pw_inv; [apply unit_1m, Hx | field; lra]. }
    assert (unit (Rpower (D u v) (1 / theta))) by (apply pw_unit; auto; lra).
    assert (Rpower (D u v) (1 / theta) <= 1 - u + (1 - v)).
    { rewrite <- (I u), <- (I v) by auto. eapply Rle_trans.
      - left. apply (pw_incr (D u v) (z u + z v)); [lra|]. unfold D, unit in *. nra.
      - apply pw_subadd; unfold unit in *; lra. }
    assert (1 - u <= Rpower (D u v) (1 / theta)).
    { rewrite <- (I u) by auto. left. apply pw_incr; [lra|]. unfold D, unit in *. nra. }
    assert (1 - v <= Rpower (D u v) (1 / theta)).
    { rewrite <- (I v) by auto. left. apply pw_incr; [lra|]. unfold D, unit in *. nra. }
    unfold unit in *. lra.
  Qed.
End joe.

Theorem C46_joe : forall theta, 1 < theta ->
  coherent (joe_cdf theta) (joe_h theta) (joe_score theta).
Proof.
  intros theta Ht.
  split; [apply jo_sym|]. split; [now apply jo_bounds|]. split; [now apply jo_deriv|].
  split; [|split; [now apply jo_density | now apply jo_score_sym]].
  apply (monotone_of_density _ (joe_score theta)); [now apply jo_density|].
  intros; now apply jo_h_unit.
Qed.

(* ------------------------------------------------------------------------ *)
(* C46: Gaussian, Student t and independent copulas                          *)
(* ------------------------------------------------------------------------ *)
(* a distribution function with its quantile function, as scipy documents
   the pairs ndtr/ndtri and stdtr/stdtrit *)
Definition quantile_pair (F Q : R -> R) : Prop :=
  (forall x, unit (F x)) /\ (forall x, Q (F x) = x) /\ (forall p, unit p -> F (Q p) = p).

Theorem C46_gaussian : forall ndtr ndtri rho,
  quantile_pair ndtr ndtri -> -1 < rho < 1 ->
  inverse_pair (gaussian_h ndtr ndtri rho) (gaussian_hinv ndtr ndtri rho).
Proof.
  intros F Q rho (U & QF & FQ) Hr.
  assert (P : 0 < sqrt (1 - rho ^ 2)) by (apply sqrt_lt_R0; nra).
  split; intros a v Ha Hv; unfold gaussian_h, gaussian_hinv; (split; [apply U|]).
  - rewrite QF. replace (_ + _) with (Q a) by (field; lra). now apply FQ.
  - rewrite QF. replace (_ / _) with (Q a) by (field; lra). now apply FQ.
Qed.

Theorem C46_student : forall stdtr stdtrit rho dof,
  (forall nu, 0 < nu -> quantile_pair (stdtr nu) (stdtrit nu)) ->
  -1 < rho < 1 -> 0 < dof ->
  inverse_pair (student_h stdtr stdtrit rho dof) (student_hinv stdtr stdtrit rho dof).
Proof.
  intros F Q rho dof H Hr Hd.
  destruct (H dof Hd) as (U & QF & FQ). destruct (H (dof + 1) ltac:(lra)) as (U' & QF' & FQ').
  assert (P : forall v, 0 < sqrt ((1 - rho ^ 2) * (dof + Q dof v ^ 2) / (dof + 1))).
  { intros v. apply sqrt_lt_R0. apply Rdiv_lt_0_compat; [|lra].
    apply Rmult_lt_0_compat; [nra|]. pose proof (pow2_ge_0 (Q dof v)). lra. }
  assert (E : forall v, (dof + Q dof v ^ 2) / (dof + 1) * (1 - rho ^ 2)
                        = (1 - rho ^ 2) * (dof + Q dof v ^ 2) / (dof + 1))
    by (intros; field; lra).
  split; intros a v Ha Hv; unfold student_h, student_hinv; pose proof (P v);
    rewrite E.
  - split; [apply U'|]. rewrite QF'. replace (_ + _ * _) with (Q dof a) by (field; lra).
    now apply FQ.
  - split; [apply U|]. rewrite QF. replace (_ / sqrt _) with (Q (dof + 1) a) by (field; lra).
    now apply FQ'.
Qed.

Theorem C46_independent :
  coherent independent_cdf independent_h independent_score /\
  inverse_pair independent_h independent_hinv.
Proof.
  unfold independent_cdf, independent_h, independent_score, independent_hinv.
  split.
  - split; [intros u v _ _; ring|]. split.
    { intros u v U V. cbn. unfold unit in *. nra. }
    split.
    { intros u v U V. eapply d_eq; [apply d_mult; [apply d_const | apply d_id] | cbn beta; ring]. }
    split; [split; auto|]. split.
    { intros u v U V. rewrite exp_0. apply d_id. }
    intros u v _ _. reflexivity.
  - split; auto.
Qed.

(* ------------------------------------------------------------------------ *)
(* The hypotheses are met: Clayton with theta = 1 and a 90 degree rotation   *)
(* ------------------------------------------------------------------------ *)
Example C45_applies : forall u v, unit u -> unit v ->
  derivable_pt_lim
    (fun t => rotated_cdf (fun X => clayton_cdf 1 (fst X) (snd X)) R90 (u, t)) v
    (rotated_pd (swapped (clayton_h 1)) R90 (u, v) false).
Proof.
  intros u v U V. destruct (C46_clayton 1 ltac:(lra)) as ((A & B & D & _) & _).
  apply (C45_partial_derivative (clayton_cdf 1) (clayton_h 1) A D R90 false u v U V).
Qed.

(* and the number it gives: h90(1/2 | 1/2) = 1 - h(1/2 | 1/2) = 1 - 4/9 *)
Example C45_value : method_pd (clayton_h 1) R90 (1 / 2, 1 / 2) false = Some (5 / 9).
Proof.
  unfold method_pd. rewrite validate_inside by (unfold inside, epsilon; cbn; lra).
  cbn [option_map]. f_equal. unfold rotated_pd, swapped, margin_swap, rotate, clayton_h.
  cbn [fst snd negb].
  replace (1 - 1 / 2) with (/ 2) by lra. replace (1 / 2) with (/ 2) by lra.
  replace (Rpower (/ 2) (- (1))) with 2.
  2:{ rewrite Rpower_Ropp, Rpower_1 by lra. lra. }
  rewrite Rpower_1 by lra.
  replace (1 + / 2 * (2 - 1)) with (3 / 2) by lra.
  replace (- (1 + 1 / 1)) with (- (2)) by field.
  rewrite Rpower_Ropp. replace 2 with (INR 2) at 2 by (cbn; lra).
  rewrite Rpower_pow by lra. cbn. lra.
Qed.

(* quantile_pair is met by the logistic distribution *)
Example C46_quantiles : quantile_pair (fun x => / (1 + exp (- x))) (fun p => ln (p / (1 - p))).
Proof.
  split; [|split].
  - intros x. pose proof (exp_pos (- x)). split; [apply Rinv_0_lt_compat; lra|].
    rewrite <- Rinv_1. apply Rinv_lt_contravar; lra.
  - intros x. pose proof (exp_pos (- x)).
    replace (/ (1 + exp (- x)) / (1 - / (1 + exp (- x)))) with (/ exp (- x)).
    2:{ field. lra. }
    rewrite <- exp_Ropp, Ropp_involutive. apply ln_exp.
  - intros p [A B]. rewrite exp_Ropp, exp_ln by (apply Rdiv_lt_0_compat; lra).
    field. split; lra.
Qed.

Print Assumptions C45_partial_derivative.
Print Assumptions C45_density.
Print Assumptions C45_copula.
Print Assumptions C45_inverse.
Print Assumptions C45_methods.
Print Assumptions C45_sample.
Print Assumptions C46_clayton.
Print Assumptions C46_gumbel.
Print Assumptions C46_joe.
Print Assumptions C46_gaussian.
Print Assumptions C46_student.
Print Assumptions C46_independent.
