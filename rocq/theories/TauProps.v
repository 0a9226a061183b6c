(** C74: fitting by inversion of Kendall's tau is exact: the fitted Clayton, Gumbel or Joe copula has the tau of the sample. *)
From Coq Require Import Bool Reals List Lra Lia Psatz.
From Coquelicot Require Import Coquelicot.
From Verif Require Import RList CopulaModel CopulaFitModel CopulaFitProps CopulaProps.
Import ListNotations.
Local Open Scope R_scope.

(** * Specification *)
(** The (improper) Riemann integral over (0, 1). *)
Definition integral (f : R -> R) (l : R) : Prop := is_RInt_gen f (at_right 0) (at_left 1) l.
(** Kendall's tau of a copula C, the difference of the probabilities of concordance and discordance of two independent draws:
    4 E[C(U, V)] - 1, where (U, V) has the density c of C. *)
Definition kendall_of (C : R -> R -> R) (tau : R) : Prop :=
  exists h c inner e,
    h_function_of C h /\ density_of h c /\
    (forall v, CopulaProps.unit v -> integral (fun u => C u v * c u v) (inner v)) /\ integral inner e /\ tau = 4 * e - 1.

(** * Limits at the ends of the unit interval *)
Notation unit := CopulaProps.unit.
Lemma near0 : at_right 0 unit.
Proof. exists (mkposreal 1 Rlt_0_1). intros y B H. unfold ball in B. cbn in B. unfold AbsRing_ball in B. cbn in B. unfold abs, minus, plus, opp in B. cbn in B. apply Rabs_def2 in B. split; lra. Qed.
Lemma near1 : at_left 1 unit.
Proof. exists (mkposreal 1 Rlt_0_1). intros y B H. unfold ball in B. cbn in B. unfold AbsRing_ball in B. cbn in B. unfold abs, minus, plus, opp in B. cbn in B. apply Rabs_def2 in B. split; lra. Qed.

Section Limits.
Context {F : (R -> Prop) -> Prop} {FF : ProperFilter F}.
Definition tends (f : R -> R) (l : R) : Prop := filterlim f F (locally l).
Lemma tends_eps f l : tends f l <-> forall eps, 0 < eps -> F (fun x => Rabs (f x - l) < eps).
Proof.
  unfold tends. rewrite filterlim_locally. split.
  - intros H eps E. exact (H (mkposreal eps E)).
  - intros H eps. exact (H eps (cond_pos eps)).
Qed.
Lemma tends_ext f g l : F (fun x => f x = g x) -> tends f l -> tends g l.
Proof. apply filterlim_ext_loc. Qed.
Lemma tends_const c : tends (fun _ => c) c.
Proof. apply filterlim_const. Qed.
Lemma tends_plus f g a b : tends f a -> tends g b -> tends (fun x => f x + g x) (a + b).
Proof. intros A B. exact (filterlim_comp_2 f g Rplus A B (filterlim_plus a b)). Qed.
Lemma tends_mult f g a b : tends f a -> tends g b -> tends (fun x => f x * g x) (a * b).
Proof. intros A B. exact (filterlim_comp_2 f g Rmult A B (@filterlim_mult R_AbsRing a b)). Qed.
Lemma tends_scal c f a : tends f a -> tends (fun x => c * f x) (c * a).
Proof. intros A. apply tends_mult; [apply tends_const|exact A]. Qed.
Lemma tends_opp f a : tends f a -> tends (fun x => - f x) (- a).
Proof. intros A. apply (tends_ext (fun x => -1 * f x)); [apply filter_forall; intros; lra|]. replace (- a) with (-1 * a) by lra. now apply tends_scal. Qed.
Lemma tends_minus f g a b : tends f a -> tends g b -> tends (fun x => f x - g x) (a - b).
Proof. intros A B. apply tends_plus; [exact A|now apply tends_opp]. Qed.
Lemma tends_comp f g a : tends f a -> continuous g a -> tends (fun x => g (f x)) (g a).
Proof. intros A B. exact (filterlim_comp _ _ _ f g F _ _ A B). Qed.
Lemma tends_squeeze f g : tends g 0 -> F (fun x => Rabs (f x) <= g x) -> tends f 0.
Proof.
  rewrite !tends_eps. intros G H eps E. generalize (filter_and _ _ (G eps E) H). apply filter_imp. intros x [A B].
  rewrite Rminus_0_r in *. pose proof (Rle_abs (g x)). lra.
Qed.
Lemma tends_unique f a b : tends f a -> tends f b -> a = b.
Proof. intros A B. exact (filterlim_locally_unique f a b A B). Qed.
End Limits.
Arguments tends F f l : clear implicits.

Lemma at_cont0 f : continuous f 0 -> tends (at_right 0) f (f 0).
Proof. intros C. unfold tends. eapply filterlim_filter_le_1; [|exact C]. intros P H. unfold at_right, within. generalize H. apply filter_imp. auto. Qed.
Lemma at_cont1 f : continuous f 1 -> tends (at_left 1) f (f 1).
Proof. intros C. unfold tends. eapply filterlim_filter_le_1; [|exact C]. intros P H. unfold at_left, within. generalize H. apply filter_imp. auto. Qed.

(** The fundamental theorem of calculus over the open unit interval. *)
Lemma box (P : R -> Prop) : (forall x, unit x -> P x) ->
  filter_prod (at_right 0) (at_left 1) (fun ab => forall x, Rmin (fst ab) (snd ab) <= x <= Rmax (fst ab) (snd ab) -> P x).
Proof.
  intros H. apply (Filter_prod _ _ _ unit unit); [apply near0|apply near1|]. intros a b A B x X. cbn in X. apply H. destruct A, B.
  pose proof (Rmin_glb_lt a b 0). pose proof (Rmax_lub_lt a b 1). split; lra.
Qed.
Lemma ftc F f a b : (forall x, unit x -> is_derive F x (f x)) -> (forall x, unit x -> continuous f x) ->
  tends (at_right 0) F a -> tends (at_left 1) F b -> integral f (b - a).
Proof.
  intros D C A B. unfold integral. apply (is_RInt_gen_ext (Derive F)).
  - generalize (box (fun x => Derive F x = f x) (fun x U => is_derive_unique _ _ _ (D x U))). apply filter_imp. intros ab H x X. apply H. lra.
  - apply is_RInt_gen_Derive; [| |exact A|exact B].
    + apply box. intros x U. exists (f x). now apply D.
    + apply box. intros x U. apply (continuous_ext_loc _ f); [|now apply C].
      destruct (unit_open x U) as [d [Hd Od]]. exists (mkposreal d Hd). intros t T. symmetry. apply is_derive_unique, D, Od. exact T.
Qed.

(** The tau of a copula is unique. *)
Lemma integral_unique f g l m : (forall x, unit x -> f x = g x) -> integral f l -> integral g m -> l = m.
Proof.
  intros E L M. unfold integral in *. assert (L' : is_RInt_gen g (at_right 0) (at_left 1) l).
  { apply (is_RInt_gen_ext f); [|exact L]. generalize (box (fun x => f x = g x) E). apply filter_imp. intros ab H x X. apply H. lra. }
  apply (@is_RInt_gen_unique R_CompleteNormedModule _ _ _ _) in L'. apply (@is_RInt_gen_unique R_CompleteNormedModule _ _ _ _) in M. congruence.
Qed.
Theorem C74_unique : forall C s t, kendall_of C s -> kendall_of C t -> s = t.
Proof.
  intros C s t [h [c [i [e [H [D [I [J ->]]]]]]]] [h' [c' [i' [e' [H' [D' [I' [J' ->]]]]]]]].
  assert (Eh : forall u v, unit u -> unit v -> h u v = h' u v) by (intros; eapply uniqueness_limite; [apply H|apply H']; assumption).
  assert (Ec : forall u v, unit u -> unit v -> c u v = c' u v).
  { intros u v U V. eapply uniqueness_limite; [apply (D u v U V)|]. apply (d_ext_loc (fun t => h' t v)); [|now apply D'].
    destruct (unit_open u U) as [d [Hd Od]]. exists d. split; [exact Hd|]. intros w W. symmetry. apply Eh; [now apply Od|exact V]. }
  assert (Ei : forall v, unit v -> i v = i' v).
  { intros v V. eapply integral_unique; [|apply (I v V)|apply (I' v V)]. intros u U. cbn. now rewrite Ec. }
  assert (e = e') by (eapply integral_unique; [exact Ei|exact J|exact J']). lra.
Qed.

(** * Archimedean copulas: tau = 1 + 4 times the integral of phi / phi' *)
Section Archimedean.
Variables (C h c : R -> R -> R) (phi dphi A P : R -> R) (p0 p1 : R).
Hypothesis Hh : h_function_of C h.
Hypothesis Hc : density_of h c.
Hypothesis Sym : exchangeable C.
Hypothesis Fre : frechet_bounds (fun X => C (fst X) (snd X)).
Hypothesis Cunit : forall u v, unit u -> unit v -> unit (C u v).
Hypothesis Hunit : forall u v, unit u -> unit v -> unit (h u v).
Hypothesis Cc : forall u v, unit u -> unit v -> continuous (fun u => c u v) u.
Hypothesis Gen : forall u v, unit u -> unit v -> h u v = dphi v / dphi (C u v).
Hypothesis Neg : forall z, unit z -> dphi z < 0.
Hypothesis Cd : forall z, unit z -> continuous dphi z.
Hypothesis Dphi : forall z, unit z -> is_derive phi z (dphi z).
Hypothesis DA : forall z, unit z -> is_derive A z (/ dphi z).
Hypothesis DP : forall z, unit z -> is_derive P z (phi z / dphi z).
Hypothesis A0 : tends (at_right 0) A 0.
Hypothesis B0 : tends (at_right 0) (fun z => phi z * A z) 0.
Hypothesis B1 : tends (at_left 1) (fun z => phi z * A z) 0.
Hypothesis P0 : tends (at_right 0) P p0.
Hypothesis P1 : tends (at_left 1) P p1.

Lemma ex_cont (f : R -> R) (x l : R) : is_derive f x l -> continuous f x.
Proof. intros D. apply (@ex_derive_continuous R_AbsRing R_NormedModule). now exists l. Qed.
Lemma arch_inner v : unit v -> integral (fun u => C u v * c u v) (v - dphi v * A v).
Proof.
  intros V.
  assert (DC : forall u, unit u -> is_derive (fun t => C t v) u (dphi u / dphi (C u v))).
  { intros u U. apply is_derive_Reals. rewrite (Sym u v U V), <- (Gen v u V U).
    apply (d_ext_loc (fun t => C v t)); [|apply Hh; assumption].
    destruct (unit_open u U) as [d [Hd Od]]. exists d. split; [exact Hd|]. intros t T. apply Sym; auto. }
  assert (Dh : forall u, unit u -> is_derive (fun t => h t v) u (c u v)) by (intros; apply is_derive_Reals; now apply Hc).
  pose proof (Neg v V) as Nv.
  replace (v - dphi v * A v) with ((v * 1 - dphi v * A v) - (0 - dphi v * 0)) by ring.
  apply (ftc (fun u => C u v * h u v - dphi v * A (C u v))).
  - intros u U. pose proof (Neg _ (Cunit u v U V)) as Nc.
    evar_last.
    + apply (is_derive_minus (fun u => C u v * h u v) (fun u => dphi v * A (C u v))).
      * apply (is_derive_mult (fun u => C u v) (fun u => h u v) u); [apply DC; exact U|apply Dh; exact U|apply Rmult_comm].
      * apply (is_derive_scal (fun u => A (C u v)) u (dphi v)). apply (is_derive_comp A (fun u => C u v)); [apply DA; now apply Cunit|apply DC; exact U].
    + unfold minus, plus, opp, scal, mult; cbn. unfold mult; cbn. rewrite (Gen u v U V). field. lra.
  - intros u U. apply (@continuous_mult R_UniformSpace R_AbsRing (fun u => C u v) (fun u => c u v)).
    + eapply ex_cont, DC, U.
    + now apply Cc.
  - apply tends_minus; [|apply tends_scal].
    + apply (tends_squeeze _ (fun u => u)); [apply (at_cont0 (fun u => u)), continuous_id|].
      generalize near0. apply filter_imp. intros u U. destruct (Fre u v U V) as [F1 [F2 [F3 F4]]]. destruct (Hunit u v U V). cbn in *.
      rewrite Rabs_right by nra. nra.
    + apply (tends_eps (F := at_right 0)). intros eps E. pose proof (proj1 (tends_eps (F := at_right 0) A 0) A0 eps E) as [d Hd].
      exists (mkposreal _ (Rmin_pos d 1 (cond_pos d) Rlt_0_1)). intros u B G. unfold ball in B. cbn in B. unfold AbsRing_ball, abs, minus, plus, opp in B. cbn in B.
      rewrite Ropp_0, Rplus_0_r, Rabs_right in B by lra. pose proof (Rmin_l d 1). pose proof (Rmin_r d 1).
      assert (U : unit u) by (split; lra). destruct (Fre u v U V) as [F1 [F2 [F3 F4]]]. destruct (Cunit u v U V). cbn in *.
      apply Hd; [|lra]. unfold ball. cbn. unfold AbsRing_ball, abs, minus, plus, opp. cbn. rewrite Ropp_0, Rplus_0_r, Rabs_right by lra. lra.
  - assert (L : tends (at_left 1) (fun u => C u v) v).
    { apply (tends_ext (fun u => (C u v - v) + v)); [apply filter_forall; intros; ring|].
      refine (eq_rect (0 + v) (fun w => tends (at_left 1) (fun u => (C u v - v) + v) w) _ v (Rplus_0_l v)).
      apply (tends_plus (F := at_left 1) (fun u => C u v - v) (fun _ => v)); [|apply (tends_const (F := at_left 1))].
      apply (tends_squeeze _ (fun u => 1 - u)).
      - refine (eq_rect (1 - 1) (tends (at_left 1) (fun u => 1 - u)) _ 0 (Rminus_diag_eq 1 1 eq_refl)). apply (at_cont1 (fun u => 1 - u)). apply (ex_cont _ _ (-1)). auto_derive; [exact I|ring].
      - generalize near1. apply filter_imp. intros u U. destruct (Fre u v U V) as [F1 [F2 [F3 F4]]]. cbn in *. rewrite Rabs_left1 by lra. lra. }
    apply tends_minus; [apply tends_mult; [exact L|]|apply tends_scal, tends_comp; [exact L|eapply ex_cont, DA, V]].
    assert (N : dphi v <> 0) by lra. refine (eq_rect _ (tends (at_left 1) (fun u => h u v)) _ 1 (Rinv_r _ N)).
    apply (tends_ext (fun u => dphi v * / dphi (C u v))).
    { generalize near1. apply filter_imp. intros u U. rewrite (Gen u v U V). reflexivity. }
    apply tends_scal. apply (tends_comp (fun u => C u v) (fun z => / dphi z)); [exact L|].
    apply continuous_Rinv_comp; [apply Cd, V|lra].
Qed.
Lemma arch : kendall_of C (1 + 4 * (p1 - p0)).
Proof.
  exists h, c, (fun v => v - dphi v * A v), (1 / 2 + (p1 - p0)). repeat split; auto using arch_inner; [|lra].
  replace (1 / 2 + (p1 - p0)) with (((1 * 1) / 2 - 0 + p1) - ((0 * 0) / 2 - 0 + p0)) by lra.
  assert (Q : forall z, continuous (fun v => v * v / 2) z).
  { intros z. apply (ex_cont _ _ z). evar_last; [auto_derive; [exact I|reflexivity]|cbn; field]. }
  apply (ftc (fun v => v * v / 2 - phi v * A v + P v)).
  - intros v V. pose proof (Neg v V). evar_last.
    + apply (is_derive_plus (fun v => v * v / 2 - phi v * A v) P); [|apply DP; exact V].
      apply (is_derive_minus (fun v => v * v / 2) (fun v => phi v * A v)).
      * auto_derive; [exact I|reflexivity].
      * apply (is_derive_mult phi A v); [apply Dphi; exact V|apply DA; exact V|apply Rmult_comm].
    + unfold minus, plus, opp, mult; cbn. field. lra.
  - intros v V. apply (continuous_minus (fun v => v) (fun v => dphi v * A v)); [apply continuous_id|].
    apply (@continuous_mult R_UniformSpace R_AbsRing dphi A); [now apply Cd|eapply ex_cont, DA, V].
  - apply tends_plus; [apply tends_minus; [apply (at_cont0 (fun v => v * v / 2)), Q|exact B0]|exact P0].
  - apply tends_plus; [apply tends_minus; [apply (at_cont1 (fun v => v * v / 2)), Q|exact B1]|exact P1].
Qed.
End Archimedean.

(** * Powers *)
Lemma tends_eq {F} (f : R -> R) a b : tends F f a -> a = b -> tends F f b.
Proof. now intros H <-. Qed.
Lemma pw_d z a : 0 < z -> is_derive (fun z => Rpower z a) z (a * Rpower z (a - 1)).
Proof. intros Z. apply is_derive_Reals. eapply d_eq; [apply (d_pow (fun t => t)); [apply d_id|exact Z]|]. cbn. ring. Qed.
Lemma pw_lim0 a : 0 < a -> tends (at_right 0) (fun z => Rpower z a) 0.
Proof.
  intros A. apply (tends_eps (F := at_right 0)). intros eps E. exists (mkposreal (Rpower eps (1 / a)) (pw_pos _ _)). intros z B G.
  unfold ball in B. cbn in B. unfold AbsRing_ball, abs, minus, plus, opp in B. cbn in B.
  rewrite Ropp_0, Rplus_0_r, Rabs_right in B by lra. rewrite Rminus_0_r, Rabs_right by (pose proof (pw_pos z a); lra).
  apply (Rlt_le_trans _ (Rpower (Rpower eps (1 / a)) a)); [apply pw_incr; [exact A|split; assumption]|].
  rewrite pw_inv; [lra|exact E|field; lra].
Qed.
Lemma pw_lim1 a : tends (at_left 1) (fun z => Rpower z a) 1.
Proof. refine (tends_eq _ _ _ (at_cont1 (fun z => Rpower z a) _) (pw_one a)). eapply ex_cont, pw_d. lra. Qed.
Lemma pw_1 z : 0 < z -> Rpower z 1 = z.
Proof. apply Rpower_1. Qed.
Lemma pw_neg x a : Rpower x (- a) = / Rpower x a.
Proof. apply Rpower_Ropp. Qed.
Lemma der_ext (f g : R -> R) (x l : R) : (forall t, f t = g t) -> is_derive f x l -> is_derive g x l.
Proof. apply is_derive_ext. Qed.
Lemma pw_2 z : 0 < z -> Rpower z 2 = z * z.
Proof. intros Z. replace 2 with (1 + 1) by ring. rewrite Rpower_plus, !pw_1 by exact Z. reflexivity. Qed.

(** * Clayton *)
Theorem C74_clayton : forall theta, 0 < theta -> kendall_of (clayton_cdf theta) (theta / (theta + 2)).
Proof.
  intros t T.
  replace (t / (t + 2)) with (1 + 4 * ((1 / (t + 2) - 1 / 2) / t - 0)) by (field; lra).
  apply (arch (clayton_cdf t) (clayton_h t) (fun u v => exp (clayton_score t u v)) (fun z => (Rpower z (- t) - 1) / t) (fun z => - Rpower z (- t - 1))
    (fun z => - Rpower z (t + 2) / (t + 2)) (fun z => (Rpower z (t + 2) / (t + 2) - Rpower z 2 / 2) / t)).
  - now apply cl_deriv.
  - now apply cl_density.
  - apply cl_sym.
  - now apply cl_bounds.
  - intros u v U V. unfold clayton_cdf. apply pw_big_neg; [now apply cl_S|]. assert (0 < 1 / t) by (apply Rdiv_lt_0_compat; lra). unfold Rdiv in *. lra.
  - intros. now apply cl_h_unit.
  - intros u v U V. apply (@ex_derive_continuous R_AbsRing R_NormedModule). unfold clayton_score. auto_derive.
    pose proof (cl_S t T u v U V) as K. unfold Rpower in K. destruct U. repeat split; lra.
  - intros u v U V. rewrite cl_h_eq by assumption. unfold clayton_cdf. rewrite pw_pw.
    replace (- 1 / t * (- t - 1)) with (1 + 1 / t) by (field; lra). set (S := Rpower u (- t) + Rpower v (- t) - 1).
    pose proof (pw_pos S (1 + 1 / t)).
    rewrite (pw_neg S (1 + 1 / t)). field. lra.
  - intros z Z. pose proof (pw_pos z (- t - 1)). lra.
  - intros z Z. apply (continuous_opp (fun z => Rpower z (- t - 1))). eapply ex_cont, pw_d. apply Z.
  - intros z [Z _]. apply (der_ext (fun z => / t * (Rpower z (- t) + - 1))); [intros; field; lra|]. evar_last.
    + apply (is_derive_scal (fun z => Rpower z (- t) + - 1)). apply (is_derive_plus (fun z => Rpower z (- t)) (fun _ => - 1)); [now apply pw_d|apply is_derive_const].
    + unfold plus, zero; cbn. field. lra.
  - intros z [Z _]. apply (der_ext (fun z => (- / (t + 2)) * Rpower z (t + 2))); [intros; field; lra|]. evar_last; [apply (is_derive_scal (fun z => Rpower z (t + 2))); now apply pw_d|].
    cbn. replace (t + 2 - 1) with (- (- t - 1)) by ring. pose proof (pw_opp z (- t - 1)). pose proof (pw_pos z (- t - 1)).
    apply (Rmult_eq_reg_l (Rpower z (- t - 1))); [|lra]. transitivity (- (Rpower z (- t - 1) * Rpower z (- (- t - 1)))); [field; lra|]. rewrite H. field. lra.
  - intros z [Z _]. apply (der_ext (fun z => / (t * (t + 2)) * Rpower z (t + 2) - / (2 * t) * Rpower z 2)); [intros; field; lra|]. evar_last.
    + apply (is_derive_minus (fun z => / (t * (t + 2)) * Rpower z (t + 2)) (fun z => / (2 * t) * Rpower z 2)).
      * apply (is_derive_scal (fun z => Rpower z (t + 2))); now apply pw_d.
      * apply (is_derive_scal (fun z => Rpower z 2)); now apply pw_d.
    + unfold minus, plus, opp; cbn. replace (2 - 1) with 1 by ring. rewrite (pw_1 z Z). replace (t + 2 - 1) with (- (- t - 1)) by ring. pose proof (pw_opp z (- t - 1)) as E. pose proof (pw_pos z (- t - 1)) as Q.
      assert (E2 : z * Rpower z (- t - 1) = Rpower z (- t)) by (rewrite <- (pw_1 z Z) at 1; rewrite <- Rpower_plus; f_equal; ring).
      apply (Rmult_eq_reg_l (Rpower z (- t - 1) * t)); [|apply Rmult_integral_contrapositive_currified; lra].
      transitivity (Rpower z (- t - 1) * Rpower z (- (- t - 1)) - z * Rpower z (- t - 1)); [field; lra|]. rewrite E, E2. field. lra.
  - apply (tends_ext (F := at_right 0) (fun z => - / (t + 2) * Rpower z (t + 2))); [apply filter_forall; intros; field; lra|].
    refine (tends_eq _ _ _ (tends_scal (F := at_right 0) _ _ _ (pw_lim0 (t + 2) _)) _); [lra|ring].
  - apply (tends_ext (F := at_right 0) (fun z => - / (t * (t + 2)) * (Rpower z 2 - Rpower z (t + 2)))).
    { generalize near0. apply filter_imp. intros z [Z _]. replace (Rpower z 2) with (Rpower z (- t) * Rpower z (t + 2)) by (rewrite <- Rpower_plus; f_equal; ring). field. lra. }
    refine (tends_eq _ _ _ (tends_scal (F := at_right 0) _ _ _ (tends_minus (F := at_right 0) _ _ _ _ (pw_lim0 2 _) (pw_lim0 (t + 2) _))) _); [lra|lra|ring].
  - apply (tends_ext (F := at_left 1) (fun z => - / (t * (t + 2)) * (Rpower z 2 - Rpower z (t + 2)))).
    { generalize near1. apply filter_imp. intros z [Z _]. replace (Rpower z 2) with (Rpower z (- t) * Rpower z (t + 2)) by (rewrite <- Rpower_plus; f_equal; ring). field. lra. }
    refine (tends_eq _ _ _ (tends_scal (F := at_left 1) _ _ _ (tends_minus (F := at_left 1) _ _ _ _ (pw_lim1 2) (pw_lim1 (t + 2)))) _). ring.
  - apply (tends_ext (F := at_right 0) (fun z => / (t * (t + 2)) * Rpower z (t + 2) - / (2 * t) * Rpower z 2)); [apply filter_forall; intros; field; lra|].
    refine (tends_eq _ _ _ (tends_minus (F := at_right 0) _ _ _ _ (tends_scal (F := at_right 0) _ _ _ (pw_lim0 (t + 2) _)) (tends_scal (F := at_right 0) _ _ _ (pw_lim0 2 _))) _); [lra|lra|ring].
  - apply (tends_ext (F := at_left 1) (fun z => / (t * (t + 2)) * Rpower z (t + 2) - / (2 * t) * Rpower z 2)); [apply filter_forall; intros; field; lra|].
    refine (tends_eq _ _ _ (tends_minus (F := at_left 1) _ _ _ _ (tends_scal (F := at_left 1) _ _ _ (pw_lim1 (t + 2))) (tends_scal (F := at_left 1) _ _ _ (pw_lim1 2))) _). field. lra.
Qed.

(** * Gumbel *)
Lemma ln_le x : 0 < x -> ln x <= x - 1.
Proof. intros X. pose proof (exp_ineq1_le (ln x)) as H. rewrite exp_ln in H by exact X. lra. Qed.
Lemma mln_bound z : unit z -> 0 < - ln z <= / z.
Proof. intros U. pose proof (ln_neg z U). destruct U. pose proof (ln_le (/ z) (Rinv_0_lt_compat z H0)). rewrite ln_Rinv in H2 by lra. lra. Qed.
Section Gumbel.
Variable t : R.
Hypothesis T : 1 < t.
Let K (z : R) : R := if Rle_dec z 0 then 0 else - z * Rpower (- ln z) (1 - t) / t.
Lemma K_in z : 0 < z -> K z = - z * Rpower (- ln z) (1 - t) / t.
Proof. intros Z. unfold K. destruct (Rle_dec z 0); [lra|reflexivity]. Qed.
Lemma K_cont z : z < 1 -> continuous K z.
Proof.
  intros Z. destruct (Rlt_dec 0 z) as [Zp|Zn]; [|destruct (Rlt_dec z 0) as [Zm|Zo]].
  - apply (continuous_ext_loc _ (fun z => - z * Rpower (- ln z) (1 - t) / t)).
    + exists (mkposreal z Zp). intros y Y. unfold ball in Y. cbn in Y. unfold AbsRing_ball, abs, minus, plus, opp in Y. cbn in Y. apply Rabs_def2 in Y. rewrite K_in by lra. reflexivity.
    + apply (@ex_derive_continuous R_AbsRing R_NormedModule). unfold Rpower. auto_derive. pose proof (ln_neg z (conj Zp Z)). repeat split; lra.
  - apply (continuous_ext_loc _ (fun _ => 0)); [|apply continuous_const].
    assert (P : 0 < - z) by lra. exists (mkposreal (- z) P). intros y Y. unfold ball in Y. cbn in Y. unfold AbsRing_ball, abs, minus, plus, opp in Y. cbn in Y. apply Rabs_def2 in Y.
    unfold K. destruct (Rle_dec y 0); [reflexivity|lra].
  - assert (z = 0) by lra. subst z. unfold continuous. apply filterlim_locally. intros eps.
    assert (E1 : 0 < exp (- (1))) by apply exp_pos.
    exists (mkposreal _ (Rmin_pos _ _ (cond_pos eps) E1)). intros y Y. pose proof (Rmin_l eps (exp (- (1)))). pose proof (Rmin_r eps (exp (- (1)))).
    unfold ball in *. cbn in *. unfold AbsRing_ball, abs, minus, plus, opp in *. cbn in *. rewrite Ropp_0, Rplus_0_r in Y.
    assert (K0 : K 0 = 0) by (unfold K; destruct (Rle_dec 0 0); [reflexivity|lra]). rewrite K0, Ropp_0, Rplus_0_r.
    destruct (Rle_dec y 0) as [L|G]; [unfold K; destruct (Rle_dec y 0); [rewrite Rabs_R0; apply cond_pos|contradiction]|].
    rewrite Rabs_right in Y by lra. rewrite K_in by lra.
    assert (B : 0 < Rpower (- ln y) (1 - t) <= 1).
    { split; [apply pw_pos|]. assert (L : ln y < -1) by (replace (-1) with (ln (exp (- (1)))) by (rewrite ln_exp; lra); apply ln_increasing; lra).
      assert (Big : 1 < - ln y) by lra. assert (Ne : 1 - t < 0) by lra. destruct (pw_big_neg _ _ Big Ne). lra. }
    rewrite Rabs_left1; [|apply Rmult_le_reg_r with t; [lra|]; unfold Rdiv; rewrite Rmult_assoc, Rinv_l by lra; nra].
    apply Rle_lt_trans with y; [|lra]. apply Rmult_le_reg_r with t; [lra|]. unfold Rdiv. replace (- (- y * Rpower (- ln y) (1 - t) * / t) * t) with (y * Rpower (- ln y) (1 - t)) by (field; lra). nra.
Qed.
Let A (z : R) : R := RInt K 0 z.
Lemma K_int z : z < 1 -> ex_RInt K 0 z.
Proof. intros Z. apply (@ex_RInt_continuous R_CompleteNormedModule). intros x X. apply K_cont. pose proof (Rmax_lub_lt 0 z 1). lra. Qed.
Lemma A_d z : z < 1 -> is_derive A z (K z).
Proof.
  intros Z. apply (is_derive_RInt K A 0 z); [|now apply K_cont].
  assert (P : 0 < 1 - z) by lra. exists (mkposreal _ P). intros y Y. unfold ball in Y. cbn in Y. unfold AbsRing_ball, abs, minus, plus, opp in Y. cbn in Y. apply Rabs_def2 in Y.
  apply (@RInt_correct R_CompleteNormedModule), K_int. lra.
Qed.
Lemma A_bound z : unit z -> Rabs (A z) <= z * (z * Rpower (- ln z) (1 - t) / t).
Proof.
  intros U. pose proof (mln_bound z U) as M. destruct U as [Z0 Z1]. unfold A. replace z with (z - 0) at 2 by ring.
  apply abs_RInt_le_const; [lra|now apply K_int|]. intros s S.
  assert (Pz : 0 < Rpower (- ln z) (1 - t)) by apply pw_pos.
  unfold K. destruct (Rle_dec s 0) as [L|G].
  - rewrite Rabs_R0. apply Rmult_le_pos; [nra|left; apply Rinv_0_lt_compat; lra].
  - assert (Ps : 0 < Rpower (- ln s) (1 - t)) by apply pw_pos.
    assert (Q : Rpower (- ln s) (1 - t) <= Rpower (- ln z) (1 - t)).
    { destruct (Rle_lt_or_eq_dec s z) as [Lt|Eq]; [lra| |subst; lra]. left. apply pw_decr; [lra|]. split; [lra|]. pose proof (ln_increasing s z). lra. }
    unfold Rdiv. rewrite Rabs_left1; [|apply Rmult_le_reg_r with t; [lra|]; rewrite Rmult_assoc, Rinv_l by lra; nra].
    apply Rmult_le_reg_r with t; [lra|]. replace (- (- s * Rpower (- ln s) (1 - t) * / t) * t) with (s * Rpower (- ln s) (1 - t)) by (field; lra).
    replace (z * Rpower (- ln z) (1 - t) * / t * t) with (z * Rpower (- ln z) (1 - t)) by (field; lra). nra.
Qed.
Lemma phiA_bound z : unit z -> Rabs (Rpower (- ln z) t * A z) <= z * z * - ln z.
Proof.
  intros U. pose proof (A_bound z U) as B. pose proof (mln_bound z U) as M. rewrite Rabs_mult, (Rabs_right (Rpower _ _)) by (left; apply pw_pos).
  apply Rle_trans with (Rpower (- ln z) t * (z * (z * Rpower (- ln z) (1 - t) / t))); [apply Rmult_le_compat_l; [left; apply pw_pos|exact B]|].
  replace (Rpower (- ln z) t * (z * (z * Rpower (- ln z) (1 - t) / t))) with (z * z * (Rpower (- ln z) t * Rpower (- ln z) (1 - t)) / t) by (field; lra).
  rewrite <- Rpower_plus. replace (t + (1 - t)) with 1 by ring. rewrite pw_1 by lra. destruct U.
  apply Rmult_le_reg_r with t; [lra|]. unfold Rdiv. rewrite Rmult_assoc, Rinv_l by lra. assert (0 <= z * z * - ln z) by (apply Rmult_le_pos; nra). nra.
Qed.
Lemma zln0 : tends (at_right 0) (fun z => z * z * ln z) 0.
Proof.
  apply (tends_squeeze (F := at_right 0) _ (fun z => z)); [apply (at_cont0 (fun z => z)), continuous_id|].
  generalize near0. apply filter_imp. intros z U. pose proof (mln_bound z U) as M. destruct U.
  rewrite Rabs_left1 by (assert (0 < z * z) by nra; nra). assert (z * - ln z <= 1) by (replace 1 with (z * / z) by (field; lra); apply Rmult_le_compat_l; lra). nra.
Qed.
Lemma ln_cont z : 0 < z -> continuous ln z.
Proof. intros Z. apply (ex_cont _ _ (/ z)). apply is_derive_Reals. now apply derivable_pt_lim_ln. Qed.
Lemma zln1 : tends (at_left 1) (fun z => z * z * ln z) 0.
Proof.
  refine (tends_eq _ _ _ (at_cont1 (fun z => z * z * ln z) _) _); [|rewrite ln_1; ring].
  apply (@ex_derive_continuous R_AbsRing R_NormedModule). auto_derive. lra.
Qed.
Theorem gumbel_kendall : kendall_of (gumbel_cdf t) (1 - 1 / t).
Proof.
  replace (1 - 1 / t) with (1 + 4 * (- 1 / (4 * t) - 0)) by (field; lra).
  apply (arch (gumbel_cdf t) (gumbel_h t) (gumbel_density t) (fun z => Rpower (- ln z) t) (fun z => - t * Rpower (- ln z) (t - 1) / z) A
    (fun z => / (2 * t) * (z * z * ln z) - / (4 * t) * (z * z))).
  - now apply gu_deriv.
  - now apply gu_density.
  - apply gu_sym.
  - now apply gu_bounds.
  - intros u v U V. unfold gumbel_cdf. split; [apply exp_pos|]. apply exp_lt1. pose proof (pw_pos (Rpower (- ln u) t + Rpower (- ln v) t) (1 / t)). lra.
  - intros. now apply gu_h_unit.
  - intros u v U V. apply (@ex_derive_continuous R_AbsRing R_NormedModule). unfold gumbel_density, Rpower. auto_derive.
    pose proof (mln_bound u U). destruct U. pose proof (exp_pos (t * ln (- ln u))). pose proof (exp_pos (t * ln (- ln v))). repeat split; lra.
  - intros u v U V. rewrite gu_h_eq by assumption. unfold gumbel_cdf. set (S := Rpower (- ln u) t + Rpower (- ln v) t).
    rewrite ln_exp, Ropp_involutive, pw_pw. replace (1 / t * (t - 1)) with (- (1 / t - 1)) by (field; lra). rewrite pw_neg.
    pose proof (exp_pos (- Rpower S (1 / t))). pose proof (pw_pos S (1 / t - 1)). destruct V. field. lra.
  - intros z [Z0 Z1]. pose proof (pw_pos (- ln z) (t - 1)). apply Ropp_lt_cancel. rewrite Ropp_0.
    replace (- (- t * Rpower (- ln z) (t - 1) / z)) with (t * Rpower (- ln z) (t - 1) * / z) by (field; lra). apply Rmult_lt_0_compat; [nra|now apply Rinv_0_lt_compat].
  - intros z U. apply (@ex_derive_continuous R_AbsRing R_NormedModule). unfold Rpower. auto_derive. pose proof (mln_bound z U). destruct U. repeat split; lra.
  - intros z U. pose proof (mln_bound z U). destruct U. apply is_derive_Reals. eapply d_eq.
    + apply (d_pow (fun z => - ln z)); [apply (d_opp ln); apply derivable_pt_lim_ln; lra|lra].
    + cbn. field. lra.
  - intros z U. pose proof (mln_bound z U). destruct U as [Z0 Z1]. pose proof (A_d z Z1) as D. rewrite K_in in D by exact Z0.
    replace (/ (- t * Rpower (- ln z) (t - 1) / z)) with (- z * Rpower (- ln z) (1 - t) / t); [exact D|].
    replace (1 - t) with (- (t - 1)) by ring. rewrite pw_neg. pose proof (pw_pos (- ln z) (t - 1)). field. lra.
  - intros z U. pose proof (mln_bound z U). destruct U as [Z0 Z1]. evar_last; [auto_derive; [exact Z0|reflexivity]|].
    replace (Rpower (- ln z) t) with (Rpower (- ln z) (t - 1) * - ln z) by (rewrite <- (pw_1 (- ln z)) at 2; [|lra]; rewrite <- Rpower_plus; f_equal; ring).
    pose proof (pw_pos (- ln z) (t - 1)). field. lra.
  - refine (tends_eq _ _ _ (at_cont0 A _) _); [eapply ex_cont, A_d; lra|]. apply (@RInt_point R_CompleteNormedModule).
  - apply (tends_squeeze (F := at_right 0) _ (fun z => - (z * z * ln z))).
    + refine (tends_eq _ _ _ (tends_opp (F := at_right 0) _ _ zln0) _). ring.
    + generalize near0. apply filter_imp. intros z U. pose proof (phiA_bound z U). lra.
  - apply (tends_squeeze (F := at_left 1) _ (fun z => - (z * z * ln z))).
    + refine (tends_eq _ _ _ (tends_opp (F := at_left 1) _ _ zln1) _). ring.
    + generalize near1. apply filter_imp. intros z U. pose proof (phiA_bound z U). lra.
  - refine (tends_eq _ _ _ (tends_minus (F := at_right 0) _ _ _ _ (tends_scal (F := at_right 0) _ _ _ zln0) (tends_scal (F := at_right 0) _ _ _ (at_cont0 (fun z => z * z) _))) _); [|ring].
    apply (@ex_derive_continuous R_AbsRing R_NormedModule). auto_derive. auto.
  - refine (tends_eq _ _ _ (tends_minus (F := at_left 1) _ _ _ _ (tends_scal (F := at_left 1) _ _ _ zln1) (tends_scal (F := at_left 1) _ _ _ (at_cont1 (fun z => z * z) _))) _); [|field; lra].
    apply (@ex_derive_continuous R_AbsRing R_NormedModule). auto_derive. auto.
Qed.
End Gumbel.
Theorem C74_gumbel : forall theta, 1 < theta -> kendall_of (gumbel_cdf theta) (1 - 1 / theta).
Proof. exact gumbel_kendall. Qed.

(** * Joe *)
(** psi and gamma are the digamma function and the constant of Euler: psi(x + 1) + gamma is the harmonic number of x, written as an
    integral. *)
Definition digamma_at (psi : R -> R) (gamma x : R) : Prop :=
  is_RInt_gen (fun s => (1 - Rpower s x) / (1 - s)) (at_point 0) (at_left 1) (psi (x + 1) + gamma).

Lemma tends_dom {F} {FF : ProperFilter F} f g c : 0 <= c -> tends F g 0 -> F (fun x => Rabs (f x) <= c * Rabs (g x)) -> tends F f 0.
Proof.
  intros Cp G H. apply (tends_squeeze (F := F) f (fun x => c * Rabs (g x))); [|exact H].
  refine (tends_eq _ _ _ (tends_scal (F := F) c _ 0 _) (Rmult_0_r c)).
  refine (tends_eq _ _ _ (tends_comp (F := F) g Rabs 0 G (continuous_Rabs 0)) Rabs_R0).
Qed.
Lemma ln_zero : ln 0 = 0.
Proof. unfold ln. destruct (Rlt_dec 0 0) as [H|H]; [destruct (Rlt_irrefl 0 H)|reflexivity]. Qed.
Lemma wlnw : tends (at_right 0) (fun w => w * ln w) 0.
Proof.
  apply (tends_dom (F := at_right 0) _ (fun w => Rpower w (1 / 2)) 2); [lra|apply pw_lim0; lra|].
  generalize near0. apply filter_imp. intros w U. pose proof (ln_neg w U) as N. assert (Uw : unit (Rpower w (1 / 2))) by (apply pw_unit; [exact U|lra]).
  pose proof (mln_bound _ Uw) as M. rewrite ln_pw in M. destruct U, Uw. rewrite Rabs_left1 by nra. rewrite Rabs_right by lra.
  assert (S : Rpower w (1 / 2) * Rpower w (1 / 2) = w) by (rewrite <- Rpower_plus; replace (1 / 2 + 1 / 2) with 1 by field; now apply pw_1).
  assert (Q : Rpower w (1 / 2) * / Rpower w (1 / 2) = 1) by (apply Rinv_r; lra).
  set (y := Rpower w (1 / 2)) in *. nra.
Qed.
Lemma to_right f F {FF : ProperFilter F} : tends F f 0 -> F (fun x => 0 < f x) -> filterlim f F (at_right 0).
Proof.
  intros T P Q H. unfold at_right, within in H. pose proof (T _ H) as K. unfold filtermap in *. generalize (filter_and _ _ K P). apply filter_imp. intros x [A B]. auto.
Qed.
Lemma to_left f F {FF : ProperFilter F} : tends F f 1 -> F (fun x => f x < 1) -> filterlim f F (at_left 1).
Proof.
  intros T P Q H. unfold at_left, within in H. pose proof (T _ H) as K. unfold filtermap in *. generalize (filter_and _ _ K P). apply filter_imp. intros x [A B]. auto.
Qed.
Lemma tends_via {F G} f g l : filterlim f F G -> tends G g l -> tends F (fun x => g (f x)) l.
Proof. intros A B. exact (filterlim_comp _ _ _ f g F G _ A B). Qed.
Lemma flip0 : filterlim (fun z => 1 - z) (at_left 1) (at_right 0).
Proof.
  apply to_right; [typeclasses eauto| |].
  - refine (tends_eq _ _ _ (at_cont1 (fun z => 1 - z) _) _); [|ring]. apply (@ex_derive_continuous R_AbsRing R_NormedModule). auto_derive. auto.
  - generalize near1. apply filter_imp. intros z [Z0 Z1]. lra.
Qed.
Lemma flip1 : filterlim (fun z => 1 - z) (at_right 0) (at_left 1).
Proof.
  apply to_left; [typeclasses eauto| |].
  - refine (tends_eq _ _ _ (at_cont0 (fun z => 1 - z) _) _); [|ring]. apply (@ex_derive_continuous R_AbsRing R_NormedModule). auto_derive. auto.
  - generalize near0. apply filter_imp. intros z [Z0 Z1]. lra.
Qed.
(** The difference quotient at the ends. *)
Lemma quotient1 (f : R -> R) l : is_derive f 1 l -> tends (at_left 1) (fun p => (f p - f 1) / (p - 1)) l.
Proof.
  intros D. apply is_derive_Reals in D. apply (tends_eps (F := at_left 1)). intros eps E. destruct (D eps E) as [d H]. exists d. intros y Y L.
  unfold ball in Y. cbn in Y. unfold AbsRing_ball, abs, minus, plus, opp in Y. cbn in Y. assert (N : y - 1 <> 0) by lra. specialize (H (y - 1) N Y). rewrite (Rplus_minus 1 y) in H. exact H.
Qed.
Lemma quotient0 (f : R -> R) l : is_derive f 0 l -> tends (at_right 0) (fun p => (f p - f 0) / p) l.
Proof.
  intros D. apply is_derive_Reals in D. apply (tends_eps (F := at_right 0)). intros eps E. destruct (D eps E) as [d H]. exists d. intros y Y L.
  unfold ball in Y. cbn in Y. unfold AbsRing_ball, abs, minus, plus, opp in Y. cbn in Y. rewrite Ropp_0, Rplus_0_r in Y. assert (N : y <> 0) by lra. specialize (H y N Y). rewrite Rplus_0_l in H. exact H.
Qed.
Lemma half0 : at_right 0 (fun p => 0 < p < 1 / 2).
Proof.
  assert (P : 0 < 1 / 2) by lra. exists (mkposreal _ P). intros y B H. unfold ball in B. cbn in B. unfold AbsRing_ball, abs, minus, plus, opp in B. cbn in B. apply Rabs_def2 in B. lra.
Qed.
Lemma ln1m p : 0 < p < 1 / 2 -> 0 < - ln (1 - p) <= 2 * p.
Proof.
  intros P. split; [assert (U : unit (1 - p)) by (split; lra); pose proof (ln_neg _ U); lra|].
  pose proof (ln_le (/ (1 - p)) ltac:(apply Rinv_0_lt_compat; lra)) as H. rewrite ln_Rinv in H by lra.
  apply Rle_trans with (/ (1 - p) - 1); [exact H|]. apply Rmult_le_reg_r with (1 - p); [lra|].
  replace ((/ (1 - p) - 1) * (1 - p)) with p by (field; lra). nra.
Qed.

(** An antiderivative of (1 - p) ln (1 - p) p^(a - 2) on (0, 1). *)
Section Harmonic.
Variables a l : R.
Hypothesis a0 : 0 < a.
Hypothesis a1 : a <> 1.
Let f (s : R) : R := (1 - Rpower s a) / (1 - s).
Hypothesis L : is_RInt_gen f (at_point 0) (at_left 1) l.
Let D (p : R) : R := RInt f 0 p.
Lemma D_near (Q : R -> Prop) : locally l Q -> at_left 1 (fun b => ex_RInt f 0 b /\ Q (D b)).
Proof.
  intros H. destruct (L Q H) as [X Y HX HY HXY]. unfold at_point in HX. generalize HY. apply filter_imp. intros b B.
  destruct (HXY 0 b HX B) as [y [I Qy]]. cbn in I. split; [now exists y|]. unfold D. rewrite (@is_RInt_unique R_CompleteNormedModule _ _ _ _ I). exact Qy.
Qed.
Lemma D_1 : tends (at_left 1) D l.
Proof. intros Q H. unfold filtermap. generalize (D_near Q H). apply filter_imp. tauto. Qed.
Lemma D_ex p : unit p -> ex_RInt f 0 p.
Proof.
  intros [P0 P1]. pose proof (D_near (fun _ => True) (filter_true)) as N.
  assert (G : at_left 1 (fun b => p < b)).
  { assert (P : 0 < 1 - p) by lra. exists (mkposreal _ P). intros y B H. unfold ball in B. cbn in B. unfold AbsRing_ball, abs, minus, plus, opp in B. cbn in B. apply Rabs_def2 in B. lra. }
  destruct (filter_ex _ (filter_and _ _ N G)) as [b [[I _] B]]. apply (@ex_RInt_Chasles_1 R_CompleteNormedModule f 0 p b); [lra|exact I].
Qed.
Lemma f_cont p : unit p -> continuous f p.
Proof. intros [P0 P1]. apply (@ex_derive_continuous R_AbsRing R_NormedModule). unfold f, Rpower. auto_derive. repeat split; lra. Qed.
Lemma D_d p : unit p -> is_derive D p (f p).
Proof.
  intros U. apply (is_derive_RInt f D 0 p); [|now apply f_cont]. destruct (unit_open p U) as [d [Hd Od]]. exists (mkposreal d Hd). intros t T.
  apply (@RInt_correct R_CompleteNormedModule), D_ex, Od. exact T.
Qed.
Lemma D_0 : tends (at_right 0) D 0.
Proof.
  apply (tends_dom (F := at_right 0) _ (fun p => p) 2); [lra|apply (at_cont0 (fun p => p)), continuous_id|].
  generalize half0. apply filter_imp. intros p P. rewrite (Rabs_right p) by lra. unfold D. replace (2 * p) with ((p - 0) * 2) by ring.
  apply abs_RInt_le_const; [lra|apply D_ex; split; lra|]. intros s S. unfold f.
  assert (B : 0 <= 1 - Rpower s a <= 1).
  { pose proof (pw_pos s a). destruct (Req_dec s 0) as [->|N]; [unfold Rpower in *; rewrite ln_zero, Rmult_0_r, exp_0; lra|]. destruct (pw_unit s a); [split; lra|exact a0|lra]. }
  rewrite Rabs_right; [|apply Rle_ge, Rmult_le_pos; [lra|left; apply Rinv_0_lt_compat; lra]].
  apply Rmult_le_reg_r with (1 - s); [lra|]. unfold Rdiv. rewrite Rmult_assoc, Rinv_l by lra. lra.
Qed.
Let q (p : R) : R := (Rpower p (a - 1) - 1) / (a - 1).
Let r (p : R) : R := Rpower p a / a - p - (1 / a - 1).
Definition J (p : R) : R := (1 - p) * ln (1 - p) * q p + / (a - 1) * (r p * ln (1 - p) + r p - / a * D p + p).
Lemma J_d p : unit p -> is_derive J p ((1 - p) * ln (1 - p) * Rpower p (a - 2)).
Proof.
  intros U. pose proof (D_d p U) as HD. destruct U as [P0 P1].
  assert (Dl : is_derive (fun p => ln (1 - p)) p (- / (1 - p))) by (auto_derive; [lra|field; lra]).
  assert (Dw : is_derive (fun p => (1 - p) * ln (1 - p)) p (- ln (1 - p) - 1)) by (auto_derive; [lra|change (1 + - p) with (1 - p); field; lra]).
  assert (Dq : is_derive q p (Rpower p (a - 2))).
  { apply (der_ext (fun p => / (a - 1) * (Rpower p (a - 1) + - 1))); [intros; unfold q; field; lra|]. evar_last.
    - apply (is_derive_scal (fun p => Rpower p (a - 1) + - 1)). apply (is_derive_plus (fun p => Rpower p (a - 1)) (fun _ => - 1)); [now apply pw_d|apply is_derive_const].
    - unfold plus, zero; cbn. replace (a - 1 - 1) with (a - 2) by ring. field. lra. }
  assert (Dr : is_derive r p (Rpower p (a - 1) - 1)).
  { apply (der_ext (fun p => / a * Rpower p a + (- p - (1 / a - 1)))); [intros; unfold r; field; lra|]. evar_last.
    - apply (is_derive_plus (fun p => / a * Rpower p a) (fun p => - p - (1 / a - 1))); [apply (is_derive_scal (fun p => Rpower p a)); now apply pw_d|auto_derive; [exact I|reflexivity]].
    - unfold plus; cbn. field. lra. }
  unfold J. evar_last.
  - apply (is_derive_plus (fun p => (1 - p) * ln (1 - p) * q p) (fun p => / (a - 1) * (r p * ln (1 - p) + r p - / a * D p + p))).
    + apply (is_derive_mult (fun p => (1 - p) * ln (1 - p)) q p); [exact Dw|exact Dq|apply Rmult_comm].
    + apply (is_derive_scal (fun p => r p * ln (1 - p) + r p - / a * D p + p)).
      apply (is_derive_plus (fun p => r p * ln (1 - p) + r p - / a * D p) (fun p => p)); [|apply is_derive_id].
      apply (is_derive_minus (fun p => r p * ln (1 - p) + r p) (fun p => / a * D p)); [|apply (is_derive_scal D); exact HD].
      apply (is_derive_plus (fun p => r p * ln (1 - p)) r); [|exact Dr].
      apply (is_derive_mult r (fun p => ln (1 - p)) p); [exact Dr|exact Dl|apply Rmult_comm].
  - unfold plus, minus, opp, mult, plus, one; cbn. unfold q, r, f. unfold plus, opp; cbn. unfold one; cbn. field. lra.
Qed.
Lemma ln1m_0 : tends (at_right 0) (fun p => ln (1 - p)) 0.
Proof.
  refine (tends_eq _ _ _ (at_cont0 (fun p => ln (1 - p)) _) _); [|rewrite Rminus_0_r; apply ln_1].
  apply (@ex_derive_continuous R_AbsRing R_NormedModule). auto_derive. lra.
Qed.
Lemma id0 : tends (at_right 0) (fun p => p) 0.
Proof. apply (at_cont0 (fun p => p)), continuous_id. Qed.
Lemma id1 : tends (at_left 1) (fun p => p) 1.
Proof. apply (at_cont1 (fun p => p)), continuous_id. Qed.
Lemma J_0 : tends (at_right 0) J (1 / a).
Proof.
  assert (Q0 : tends (at_right 0) (fun p => ln (1 - p) * Rpower p (a - 1)) 0).
  { apply (tends_dom (F := at_right 0) _ (fun p => Rpower p a) 2); [lra|now apply pw_lim0|]. generalize half0. apply filter_imp. intros p P. pose proof (ln1m p P) as B.
    rewrite Rabs_mult, (Rabs_left1 (ln _)), !Rabs_right by (try (left; apply pw_pos); try apply Rle_ge; try (left; apply pw_pos); lra).
    replace (Rpower p a) with (p * Rpower p (a - 1)) by (rewrite <- (pw_1 p) at 1 by lra; rewrite <- Rpower_plus; f_equal; ring). pose proof (pw_pos p (a - 1)). nra. }
  apply (tends_ext (F := at_right 0) (fun p => (1 - p) * (/ (a - 1) * (ln (1 - p) * Rpower p (a - 1) - ln (1 - p)))
    + / (a - 1) * ((/ a * Rpower p a - p - (1 / a - 1)) * ln (1 - p) + (/ a * Rpower p a - p - (1 / a - 1)) - / a * D p + p))).
  { apply filter_forall. intros p. unfold J, q, r. field. lra. }
  assert (R0 : tends (at_right 0) (fun p => / a * Rpower p a - p - (1 / a - 1)) (/ a * 0 - 0 - (1 / a - 1))).
  { apply (tends_minus (F := at_right 0)); [apply (tends_minus (F := at_right 0)); [apply (tends_scal (F := at_right 0)); now apply pw_lim0|apply id0]|apply (tends_const (F := at_right 0))]. }
  refine (tends_eq _ _ _ (tends_plus (F := at_right 0) _ _ _ _
     (tends_mult (F := at_right 0) _ _ _ _ (tends_minus (F := at_right 0) _ _ _ _ (tends_const (F := at_right 0) 1) id0)
        (tends_scal (F := at_right 0) (/ (a - 1)) _ _ (tends_minus (F := at_right 0) _ _ _ _ Q0 ln1m_0)))
     (tends_scal (F := at_right 0) (/ (a - 1)) _ _ (tends_plus (F := at_right 0) _ _ _ _ (tends_minus (F := at_right 0) _ _ _ _
        (tends_plus (F := at_right 0) _ _ _ _ (tends_mult (F := at_right 0) _ _ _ _ R0 ln1m_0) R0) (tends_scal (F := at_right 0) (/ a) _ _ D_0)) id0))) _).
  field. lra.
Qed.
Lemma J_1 : tends (at_left 1) J (/ (a - 1) * (1 - / a * l)).
Proof.
  assert (W : tends (at_left 1) (fun p => (1 - p) * ln (1 - p)) 0) by exact (tends_via _ _ _ flip0 wlnw).
  assert (Q1 : tends (at_left 1) (fun p => / (a - 1) * (Rpower p (a - 1) - 1)) (/ (a - 1) * (1 - 1))).
  { apply (tends_scal (F := at_left 1)). apply (tends_minus (F := at_left 1)); [apply pw_lim1|apply (tends_const (F := at_left 1))]. }
  assert (R1 : tends (at_left 1) (fun p => / a * Rpower p a - p - (1 / a - 1)) (/ a * 1 - 1 - (1 / a - 1))).
  { apply (tends_minus (F := at_left 1)); [apply (tends_minus (F := at_left 1)); [apply (tends_scal (F := at_left 1)), pw_lim1|apply id1]|apply (tends_const (F := at_left 1))]. }
  assert (H01 : 0 < 1) by lra.
  pose proof (quotient1 (fun p => Rpower p a) _ (pw_d 1 a H01)) as G. rewrite !pw_one in G.
  apply (tends_ext (F := at_left 1) (fun p => (1 - p) * ln (1 - p) * (/ (a - 1) * (Rpower p (a - 1) - 1))
    + / (a - 1) * ((1 - / a * ((Rpower p a - 1) / (p - 1))) * ((1 - p) * ln (1 - p)) + (/ a * Rpower p a - p - (1 / a - 1)) - / a * D p + p))).
  { generalize near1. apply filter_imp. intros p [P0 P1]. unfold J, q, r. field. lra. }
  refine (tends_eq _ _ _ (tends_plus (F := at_left 1) _ _ _ _ (tends_mult (F := at_left 1) _ _ _ _ W Q1)
    (tends_scal (F := at_left 1) (/ (a - 1)) _ _ (tends_plus (F := at_left 1) _ _ _ _ (tends_minus (F := at_left 1) _ _ _ _
       (tends_plus (F := at_left 1) _ _ _ _ (tends_mult (F := at_left 1) _ _ _ _ (tends_minus (F := at_left 1) _ _ _ _ (tends_const (F := at_left 1) 1) (tends_scal (F := at_left 1) (/ a) _ _ G)) W) R1)
       (tends_scal (F := at_left 1) (/ a) _ _ D_1)) id1))) _).
  field. lra.
Qed.
End Harmonic.

Section Joe.
Variables t psi : R.
Hypothesis T : 1 < t.
Hypothesis T2 : t <> 2.
Hypothesis L : is_RInt_gen (fun s => (1 - Rpower s (2 / t)) / (1 - s)) (at_point 0) (at_left 1) psi.
Let a := 2 / t.
Lemma a_pos : 0 < a. Proof. unfold a. apply Rdiv_lt_0_compat; lra. Qed.
Lemma a_one : a <> 1.
Proof. unfold a. intros H. apply T2. apply (Rmult_eq_compat_r t) in H. unfold Rdiv in H. rewrite Rmult_assoc, Rinv_l in H by lra. lra. Qed.
Let A (z : R) : R := / t * (/ (2 - t) * Rpower (1 - z) (2 - t) - (1 - z) * (1 - z) / 2 - (/ (2 - t) - 1 / 2)).
Lemma s_d e z : z < 1 -> is_derive (fun z => Rpower (1 - z) e) z (- e * Rpower (1 - z) (e - 1)).
Proof.
  intros Z. apply is_derive_Reals. eapply d_eq; [apply (d_pow (fun z => 1 - z)); [apply d_one_minus|lra]|]. cbn. ring.
Qed.
Lemma jA_d z : z < 1 -> is_derive A z (- / t * (Rpower (1 - z) (1 - t) - (1 - z))).
Proof.
  intros Z. unfold A. evar_last.
  - apply (is_derive_scal (fun z => / (2 - t) * Rpower (1 - z) (2 - t) - (1 - z) * (1 - z) / 2 - (/ (2 - t) - 1 / 2))).
    apply (is_derive_minus (fun z => / (2 - t) * Rpower (1 - z) (2 - t) - (1 - z) * (1 - z) / 2) (fun _ => / (2 - t) - 1 / 2)); [|apply is_derive_const].
    apply (is_derive_minus (fun z => / (2 - t) * Rpower (1 - z) (2 - t)) (fun z => (1 - z) * (1 - z) / 2)).
    + apply (is_derive_scal (fun z => Rpower (1 - z) (2 - t))). now apply s_d.
    + auto_derive; [exact I|reflexivity].
  - unfold minus, plus, opp, zero; cbn. unfold one; cbn. replace (2 - t - 1) with (1 - t) by ring. field. lra.
Qed.
Lemma A_zero : A 0 = 0.
Proof. unfold A. rewrite Rminus_0_r, pw_one. field. lra. Qed.
Lemma s_unit z : unit z -> unit (Rpower (1 - z) t).
Proof. intros U. apply pw_unit; [now apply unit_1m|lra]. Qed.
Lemma s_to0 : filterlim (fun z => Rpower (1 - z) t) (at_left 1) (at_right 0).
Proof.
  apply to_right; [typeclasses eauto| |].
  - apply (tends_via _ (fun s => Rpower s t) _ flip0). apply pw_lim0. lra.
  - apply filter_forall. intros z. apply pw_pos.
Qed.
Lemma s_to1 : filterlim (fun z => Rpower (1 - z) t) (at_right 0) (at_left 1).
Proof.
  apply to_left; [typeclasses eauto| |].
  - apply (tends_via _ (fun s => Rpower s t) _ flip1). apply pw_lim1.
  - generalize near0. apply filter_imp. intros z U. apply (s_unit z U).
Qed.
Theorem joe_kendall : kendall_of (joe_cdf t) (1 + 2 / (2 - t) * (1 - psi)).
Proof.
  pose proof a_pos as a0. pose proof a_one as a1.
  replace (1 + 2 / (2 - t) * (1 - psi)) with (1 + 4 * (- / (t * t) * (1 / a) - - / (t * t) * (/ (a - 1) * (1 - / a * psi)))) by (unfold a; field; lra).
  apply (arch (joe_cdf t) (joe_h t) (fun u v => exp (joe_score t u v)) (fun z => - ln (1 - Rpower (1 - z) t)) (fun z => - t * Rpower (1 - z) (t - 1) / (1 - Rpower (1 - z) t)) A
    (fun z => - / (t * t) * J a (Rpower (1 - z) t))).
  - now apply jo_deriv.
  - now apply jo_density.
  - apply jo_sym.
  - now apply jo_bounds.
  - intros u v U V. unfold joe_cdf. apply unit_1m. apply pw_unit; [now apply jo_D|apply Rdiv_lt_0_compat; lra].
  - intros. now apply jo_h_unit.
  - intros u v U V. apply (@ex_derive_continuous R_AbsRing R_NormedModule). unfold joe_score. auto_derive.
    pose proof (jo_D t T u v U V) as [K _]. destruct U.
    assert (K' : 0 < exp (ln (1 + - u) * t) + exp (ln (1 + - v) * t) - exp ((ln (1 + - u) + ln (1 + - v)) * t)).
    { rewrite Rmult_plus_distr_r, exp_plus, !(Rmult_comm _ t). exact K. }
    repeat split; lra.
  - intros u v U V. rewrite jo_h_eq by assumption. pose proof (jo_D t T u v U V) as [D0 D1]. pose proof (s_unit u U) as [u0 u1]. pose proof (s_unit v V) as [v0 v1].
    unfold joe_cdf. set (x := Rpower (1 - u) t) in *. set (y := Rpower (1 - v) t) in *. set (d := x + y - x * y) in *.
    replace (1 - (1 - Rpower d (1 / t))) with (Rpower d (1 / t)) by ring. rewrite (pw_inv d (1 / t) t D0) by (field; lra). rewrite pw_pw.
    replace (1 / t * (t - 1)) with (- (1 / t - 1)) by (field; lra). rewrite pw_neg. pose proof (pw_pos d (1 / t - 1)).
    assert (E : 1 - d = (1 - x) * (1 - y)) by (unfold d; ring). rewrite E. field. nra.
  - intros z U. pose proof (s_unit z U) as [S0 S1]. pose proof (pw_pos (1 - z) (t - 1)). apply Ropp_lt_cancel. rewrite Ropp_0.
    replace (- (- t * Rpower (1 - z) (t - 1) / (1 - Rpower (1 - z) t))) with (t * Rpower (1 - z) (t - 1) * / (1 - Rpower (1 - z) t)) by (field; lra).
    apply Rmult_lt_0_compat; [nra|apply Rinv_0_lt_compat; lra].
  - intros z U. apply (@ex_derive_continuous R_AbsRing R_NormedModule). pose proof (s_unit z U) as [S0 S1]. unfold Rpower in *. auto_derive. destruct U. change (1 + - z) with (1 - z). repeat split; lra.
  - intros z U. pose proof (s_unit z U) as [S0 S1]. destruct U. apply is_derive_Reals. eapply d_eq.
    + apply (d_opp (fun z => ln (1 - Rpower (1 - z) t))). apply (d_ln (fun z => 1 - Rpower (1 - z) t)); [|lra]. apply d_minus; [apply d_const|]. apply is_derive_Reals, s_d. lra.
    + cbn. field. lra.
  - intros z U. pose proof (s_unit z U) as [S0 S1]. destruct U as [Z0 Z1]. pose proof (jA_d z Z1) as Dz.
    replace (/ (- t * Rpower (1 - z) (t - 1) / (1 - Rpower (1 - z) t))) with (- / t * (Rpower (1 - z) (1 - t) - (1 - z))); [exact Dz|].
    replace (1 - t) with (- (t - 1)) by ring. rewrite pw_neg. pose proof (pw_pos (1 - z) (t - 1)).
    assert (E : Rpower (1 - z) t = Rpower (1 - z) (t - 1) * (1 - z)) by (rewrite <- (pw_1 (1 - z)) at 3 by lra; rewrite <- Rpower_plus; f_equal; ring).
    apply (Rmult_eq_reg_r (t * Rpower (1 - z) (t - 1))); [|nra]. rewrite E in *. field. lra.
  - intros z U. pose proof (s_unit z U) as S. evar_last.
    + apply (is_derive_scal (fun z => J a (Rpower (1 - z) t))). apply (is_derive_comp (J a) (fun z => Rpower (1 - z) t)); [apply (J_d a psi a0 a1 L _ S)|apply s_d; apply U].
    + destruct S as [S0 S1]. destruct U as [Z0 Z1]. unfold scal; cbn. unfold mult; cbn. rewrite pw_pw. pose proof (pw_pos (1 - z) (t - 1)).
      replace (t * (a - 2)) with (- (t - 1) + - (t - 1)) by (unfold a; field; lra). rewrite Rpower_plus, !pw_neg. field. repeat split; lra.
  - refine (tends_eq _ _ _ (at_cont0 A _) A_zero). eapply ex_cont, jA_d. lra.
  - (* at 0 *)
    assert (Z1 : 0 < 1) by lra. pose proof (quotient0 A _ (jA_d 0 Z1)) as G. rewrite A_zero, Rminus_0_r, pw_one in G.
    apply (tends_ext (F := at_right 0) (fun z => (- ln (1 - Rpower (1 - z) t) * z) * ((A z - 0) / z))).
    { generalize near0. apply filter_imp. intros z [Z _]. field. lra. }
    refine (tends_eq _ _ _ (tends_mult (F := at_right 0) _ _ 0 _ _ G) _); [|ring].
    apply (tends_dom (F := at_right 0) _ (fun w => w * ln w) 1); [lra|exact wlnw|]. generalize near0. apply filter_imp. intros z U.
    pose proof (s_unit z U) as [S0 S1]. assert (U1 : unit (1 - Rpower (1 - z) t)) by (split; lra). pose proof (ln_neg _ U1). pose proof (ln_neg _ U).
    assert (M : Rpower (1 - z) t <= 1 - z).
    { rewrite <- (pw_1 (1 - z)) at 2 by (destruct U; lra). unfold Rpower. left. apply exp_increasing. assert (U2 : unit (1 - z)) by (now apply unit_1m). pose proof (ln_neg _ U2). nra. }
    assert (ln z <= ln (1 - Rpower (1 - z) t)).
    { destruct (Rle_lt_or_eq_dec z (1 - Rpower (1 - z) t)) as [Lt|Eq]; [lra| |rewrite <- Eq; lra]. left. apply ln_increasing; [apply U|exact Lt]. }
    destruct U. rewrite Rabs_right by nra. rewrite Rabs_left1 by nra. nra.
  - (* at 1 *)
    apply (tends_dom (F := at_left 1) _ (fun z => Rpower (1 - z) t * A z) 2); [lra| |].
    + apply (tends_ext (F := at_left 1) (fun z => / t * (/ (2 - t) * Rpower (1 - z) 2 - Rpower (1 - z) t * ((1 - z) * (1 - z) / 2 + (/ (2 - t) - 1 / 2))))).
      { generalize near1. apply filter_imp. intros z [Z0 Z1]. replace (Rpower (1 - z) 2) with (Rpower (1 - z) t * Rpower (1 - z) (2 - t)) by (rewrite <- Rpower_plus; f_equal; ring). unfold A. field. lra. }
      assert (P2 : tends (at_left 1) (fun z => Rpower (1 - z) 2) 0) by (apply (tends_via _ (fun s => Rpower s 2) _ flip0); apply pw_lim0; lra).
      assert (Pt : tends (at_left 1) (fun z => Rpower (1 - z) t) 0) by (apply (tends_via _ (fun s => Rpower s t) _ flip0); apply pw_lim0; lra).
      assert (C1 : continuous (fun z => (1 - z) * (1 - z) / 2 + (/ (2 - t) - 1 / 2)) 1) by (apply (@ex_derive_continuous R_AbsRing R_NormedModule); auto_derive; lra).
      refine (tends_eq _ _ _ (tends_scal (F := at_left 1) (/ t) _ _ (tends_minus (F := at_left 1) _ _ _ _ (tends_scal (F := at_left 1) (/ (2 - t)) _ _ P2) (tends_mult (F := at_left 1) _ _ _ _ Pt (at_cont1 _ C1)))) _). ring.
    + generalize (filter_and _ _ near1 (s_to0 _ half0)). apply filter_imp. intros z [U H]. unfold filtermap in H. pose proof (ln1m _ H) as B.
      rewrite !Rabs_mult, (Rabs_right (- ln _)), (Rabs_right (Rpower _ _)) by lra. pose proof (Rabs_pos (A z)). nra.
  - apply (tends_scal (F := at_right 0)). apply (tends_via _ (J a) _ s_to1). exact (J_1 a psi a0 a1 L).
  - apply (tends_scal (F := at_left 1)). apply (tends_via _ (J a) _ s_to0). exact (J_0 a psi a0 a1 L).
Qed.
End Joe.
Theorem C74_joe : forall theta psi gamma, 1 < theta -> theta <> 2 -> digamma_at psi gamma (2 / theta) ->
  kendall_of (joe_cdf theta) (1 + 2 / (2 - theta) * ((1 - gamma) - psi (2 / theta + 1))).
Proof.
  intros t psi gamma T T2 L. replace (1 - gamma - psi (2 / t + 1)) with (1 - (psi (2 / t + 1) + gamma)) by ring. now apply joe_kendall.
Qed.

(** * Fitting *)
Lemma abs_tau_eq tau : abs_tau (Some tau) = Some (Rmin (Rabs tau) (9999 / 10000)).
Proof. unfold abs_tau, nmin, Rmin. cbn. destruct (Rlt_dec (9999 / 10000) (Rabs tau)); destruct (Rle_dec (Rabs tau) (9999 / 10000)); f_equal; lra. Qed.
(** The attainable tau nearest to |tau| is reached. *)
Lemma clayton_inverts tau theta : clayton_theta_of (Some tau) = Some theta ->
  1 / 10000 <= theta <= 50 /\ theta / (theta + 2) = clip (1 / 20001) (25 / 26) (Rabs tau).
Proof.
  intros H. unfold clayton_theta_of, nclip in H. rewrite abs_tau_eq in H. cbn in H. injection H as <-. pose proof (Rabs_pos tau) as P.
  set (a := Rmin (Rabs tau) (9999 / 10000)).
  assert (A : 0 <= a <= 9999 / 10000) by (unfold a; split; [apply Rmin_glb; lra|apply Rmin_r]).
  assert (E : clip (1 / 20001) (25 / 26) (Rabs tau) = clip (1 / 20001) (25 / 26) a).
  { unfold a, Rmin. destruct (Rle_dec (Rabs tau) (9999 / 10000)); [reflexivity|]. unfold clip. rewrite !Rmax_right, !Rmin_left by lra. reflexivity. }
  rewrite E. clear E. unfold clip. split; [split; [apply Rmin_glb; [lra|apply Rmax_l]|apply Rmin_l]|].
  assert (D : forall a k, 0 <= a < 1 -> 0 <= k < 1 -> (2 * a / (1 - a) <= 2 * k / (1 - k) <-> a <= k)).
  { clear. intros a k A K. split; intros H.
    - apply (Rmult_le_compat_r ((1 - a) * (1 - k))) in H; [|nra].
      replace (2 * a / (1 - a) * ((1 - a) * (1 - k))) with (2 * a * (1 - k)) in H by (field; lra).
      replace (2 * k / (1 - k) * ((1 - a) * (1 - k))) with (2 * k * (1 - a)) in H by (field; lra). nra.
    - apply (Rmult_le_reg_r ((1 - a) * (1 - k))); [nra|].
      replace (2 * a / (1 - a) * ((1 - a) * (1 - k))) with (2 * a * (1 - k)) by (field; lra).
      replace (2 * k / (1 - k) * ((1 - a) * (1 - k))) with (2 * k * (1 - a)) by (field; lra). nra. }
  pose proof (D (1 / 20001) a ltac:(lra) ltac:(lra)) as D1. pose proof (D (25 / 26) a ltac:(lra) ltac:(lra)) as D2.
  replace (2 * (1 / 20001) / (1 - 1 / 20001)) with (1 / 10000) in D1 by lra. replace (2 * (25 / 26) / (1 - 25 / 26)) with 50 in D2 by lra.
  unfold Rmax. destruct (Rle_dec (1 / 10000) (2 * a / (1 - a))) as [L|L]; destruct (Rle_dec (1 / 20001) a) as [L'|L'].
  - unfold Rmin. destruct (Rle_dec 50 (2 * a / (1 - a))) as [M|M]; destruct (Rle_dec (25 / 26) a) as [M'|M']; [lra|exfalso; apply M', D2, M|exfalso; apply M, D2, M'|field; lra].
  - exfalso. apply L', D1, L.
  - exfalso. apply L, D1, L'.
  - rewrite !Rmin_right by lra. lra.
Qed.
Lemma gumbel_inverts tau theta : gumbel_theta_of (Some tau) = Some theta ->
  10001 / 10000 <= theta <= 80 /\ 1 - 1 / theta = clip (1 / 10001) (79 / 80) (Rabs tau).
Proof.
  intros H. unfold gumbel_theta_of, nclip in H. rewrite abs_tau_eq in H. cbn in H. injection H as <-. pose proof (Rabs_pos tau) as P.
  set (a := Rmin (Rabs tau) (9999 / 10000)).
  assert (A : 0 <= a <= 9999 / 10000) by (unfold a; split; [apply Rmin_glb; lra|apply Rmin_r]).
  assert (E : clip (1 / 10001) (79 / 80) (Rabs tau) = clip (1 / 10001) (79 / 80) a).
  { unfold a, Rmin. destruct (Rle_dec (Rabs tau) (9999 / 10000)); [reflexivity|]. unfold clip. rewrite !Rmax_right, !Rmin_left by lra. reflexivity. }
  rewrite E. clear E. unfold clip. split; [split; [apply Rmin_glb; [lra|apply Rmax_l]|apply Rmin_l]|].
  assert (D : forall a k, 0 <= a < 1 -> 0 <= k < 1 -> (1 / (1 - a) <= 1 / (1 - k) <-> a <= k)).
  { clear. intros a k A K. split; intros H.
    - apply (Rmult_le_compat_r ((1 - a) * (1 - k))) in H; [|nra].
      replace (1 / (1 - a) * ((1 - a) * (1 - k))) with (1 - k) in H by (field; lra).
      replace (1 / (1 - k) * ((1 - a) * (1 - k))) with (1 - a) in H by (field; lra). nra.
    - apply (Rmult_le_reg_r ((1 - a) * (1 - k))); [nra|].
      replace (1 / (1 - a) * ((1 - a) * (1 - k))) with (1 - k) by (field; lra).
      replace (1 / (1 - k) * ((1 - a) * (1 - k))) with (1 - a) by (field; lra). nra. }
  pose proof (D (1 / 10001) a ltac:(lra) ltac:(lra)) as D1. pose proof (D (79 / 80) a ltac:(lra) ltac:(lra)) as D2.
  replace (1 / (1 - 1 / 10001)) with (10001 / 10000) in D1 by lra. replace (1 / (1 - 79 / 80)) with 80 in D2 by lra.
  unfold Rmax. destruct (Rle_dec (10001 / 10000) (1 / (1 - a))) as [L|L]; destruct (Rle_dec (1 / 10001) a) as [L'|L'].
  - unfold Rmin. destruct (Rle_dec 80 (1 / (1 - a))) as [M|M]; destruct (Rle_dec (79 / 80) a) as [M'|M']; [lra|exfalso; apply M', D2, M|exfalso; apply M, D2, M'|field; lra].
  - exfalso. apply L', D1, L.
  - exfalso. apply L, D1, L'.
  - rewrite !Rmin_right by lra. lra.
Qed.

Section Fit.
Variable gaussian_score : R -> R * R -> num.
Variable student_score : R -> R -> R * R -> num.
Variable minimize_scalar : (R -> num) -> R * R -> option (num * R).
Variable minimize : (R -> R -> num) -> num -> R * R -> R * R -> option (R * R).
Variable brentq : (R -> R) -> R -> R -> R.
Variable digamma : R -> R.
Variable euler_gamma : R.
Notation fit := (fit gaussian_score student_score minimize_scalar minimize brentq digamma euler_gamma).
(** Fitting by inversion: the tau of the fitted Clayton or Gumbel copula is the attainable value nearest to the absolute value of the
    sample's Kendall tau, computed on the clipped data Y; that of the Joe copula is this absolute value whenever the root finder found a
    root. *)
Theorem C74_fit : forall c X Y m tau, itau c = true -> kendall_tau c = None -> fit c X = Ok m ->
  Forall2 (fun p q => validate p = Some q) X Y -> kendalltau Y = Some tau ->
  (fam c = Clayton -> exists theta, params_ m = [Some theta] /\ kendall_of (clayton_cdf theta) (clip (1 / 20001) (25 / 26) (Rabs tau))) /\
  (fam c = Gumbel -> exists theta, params_ m = [Some theta] /\ kendall_of (gumbel_cdf theta) (clip (1 / 10001) (79 / 80) (Rabs tau))) /\
  (fam c = Joe -> exists theta, params_ m = [Some theta] /\
     (1 < theta -> theta <> 2 -> digamma_at digamma euler_gamma (2 / theta) -> tau_diff digamma euler_gamma theta (Rabs tau) = 0 ->
      kendall_of (joe_cdf theta) (Rabs tau)) /\
     (digamma_at digamma euler_gamma (2 / (1005 / 1000)) -> digamma_at digamma euler_gamma (2 / 20) ->
      forall lo hi, kendall_of (joe_cdf (1005 / 1000)) lo -> kendall_of (joe_cdf 20) hi ->
      (Rabs tau < lo /\ Rabs tau < hi \/ lo < Rabs tau /\ hi < Rabs tau ->
         theta = 1005 / 1000 /\ Rabs (lo - Rabs tau) < Rabs (hi - Rabs tau) \/ theta = 20 /\ Rabs (hi - Rabs tau) <= Rabs (lo - Rabs tau)) /\
      (lo <= Rabs tau <= hi -> theta = brentq (fun t => tau_diff digamma euler_gamma t (Rabs tau)) (1005 / 1000) 20))).
Proof.
  intros c X Y m tau I K H V T.
  assert (VX : validate_X X = Ok Y).
  { unfold CopulaFitModel.fit in H. destruct (validate_X X) as [Z| | |] eqn:E; try discriminate. f_equal. apply X_ok in E. destruct E as [_ E]. apply rows_square in E. destruct E as [_ E].
    clear - E V. revert Z E. induction V as [|p q X Y Hp V IH]; intros Z E; inversion E; subst; [reflexivity|]. f_equal; [congruence|now apply IH]. }
  unfold CopulaFitModel.fit in H. rewrite VX in H. cbn [bind] in H.
  assert (U : tau_used c Y = Some tau) by (unfold tau_used; now rewrite K).
  repeat split; intros F; rewrite F in H; unfold fit_archimedean in H; rewrite I, U in H; injection H as <-; cbn [params_].
  - destruct (clayton_theta_of (Some tau)) as [theta|] eqn:E; [|unfold clayton_theta_of, nclip in E; rewrite abs_tau_eq in E; discriminate E]. exists theta. split; [reflexivity|].
    destruct (clayton_inverts _ _ E) as [B <-]. apply C74_clayton. lra.
  - destruct (gumbel_theta_of (Some tau)) as [theta|] eqn:E; [|unfold gumbel_theta_of, nclip in E; rewrite abs_tau_eq in E; discriminate E]. exists theta. split; [reflexivity|].
    destruct (gumbel_inverts _ _ E) as [B <-]. apply C74_gumbel. lra.
  - destruct (joe_theta_of brentq digamma euler_gamma (Some tau)) as [theta|] eqn:E; [|cbn in E; destruct (Rlt_dec 0 _); [destruct (Rlt_dec _ _)|]; discriminate E].
    exists theta. split; [reflexivity|]. split; [|intros Da Db lo hi Lo Hi;
      rewrite (C74_unique _ _ _ Lo (C74_joe (1005 / 1000) digamma euler_gamma ltac:(lra) ltac:(lra) Da)), (C74_unique _ _ _ Hi (C74_joe 20 digamma euler_gamma ltac:(lra) ltac:(lra) Db));
      revert E; unfold joe_theta_of; cbn [option_map fst snd joe_bounds]; cbv zeta;
      set (fa := tau_diff digamma euler_gamma (1005 / 1000) (Rabs tau)); set (fb := tau_diff digamma euler_gamma 20 (Rabs tau)); intros E;
      match goal with |- context [Rabs tau < ?l] => replace l with (fa + Rabs tau) by (unfold fa, tau_diff; ring) end;
      match goal with |- context [_ /\ Rabs tau < ?l] => replace l with (fb + Rabs tau) by (unfold fb, tau_diff; ring) end;
      replace (fa + Rabs tau - Rabs tau) with fa by ring; replace (fb + Rabs tau - Rabs tau) with fb by ring; split; intros O;
      [destruct (Rlt_dec 0 (fa * fb)) as [P|P]; [destruct (Rlt_dec (Rabs fa) (Rabs fb)) as [Q|Q]; injection E as <-; [left|right]; split; lra|exfalso; apply P; nra]
      |destruct (Rlt_dec 0 (fa * fb)) as [P|P]; [exfalso; nra|injection E as <-; reflexivity]]].
    intros T1 T2 D R. unfold tau_diff in R. replace (Rabs tau) with (1 + 2 / (2 - theta) * (1 - euler_gamma - digamma (2 / theta + 1))) by lra. now apply C74_joe.
Qed.
End Fit.

(** Kendall's tau one half: Clayton's theta is 2; and Euler's integral at one half, so that theta = 4 for Joe. *)
Example C74_half : clayton_theta_of (Some (- (1/2))) = Some 2 /\ kendall_of (clayton_cdf 2) (1 / 2) /\ gumbel_theta_of (Some (1/2)) = Some 2 /\ kendall_of (gumbel_cdf 2) (1 / 2).
Proof.
  repeat split.
  - unfold clayton_theta_of, nclip. rewrite abs_tau_eq. cbn. f_equal. rewrite Rabs_Ropp, Rabs_right by lra. rewrite Rmin_left by lra. unfold clip. rewrite Rmax_right, Rmin_right by lra. field.
  - replace (1 / 2) with (2 / (2 + 2)) by lra. apply C74_clayton. lra.
  - unfold gumbel_theta_of, nclip. rewrite abs_tau_eq. cbn. f_equal. rewrite Rabs_right by lra. rewrite Rmin_left by lra. unfold clip. rewrite Rmax_right, Rmin_right by lra. field.
  - replace (1 / 2) with (1 - 1 / 2) by lra. apply C74_gumbel. lra.
Qed.
Lemma digamma_half : digamma_at (fun _ => 2 - 2 * ln 2) 0 (1 / 2).
Proof.
  unfold digamma_at. rewrite Rplus_0_r.
  assert (Rt : forall s, 0 < s -> Rpower s (1 / 2) = sqrt s) by (intros s S; replace (1 / 2) with (/ 2) by lra; now apply Rpower_sqrt).
  assert (Ik : forall b, unit b -> is_RInt (fun s => (1 - Rpower s (1 / 2)) / (1 - s)) 0 b (2 * sqrt b - 2 * ln (1 + sqrt b))).
  { intros b [B0 B1]. apply (is_RInt_ext (fun s => / (1 + sqrt s))).
    - intros s S. rewrite Rmin_left, Rmax_right in S by lra. rewrite Rt by lra. pose proof (sqrt_lt_R0 s ltac:(lra)) as Q. pose proof (sqrt_sqrt s ltac:(lra)) as E.
      assert (sqrt s < 1) by (rewrite <- sqrt_1; apply sqrt_lt_1_alt; lra). replace (1 - s) with ((1 - sqrt s) * (1 + sqrt s)) by nra. change (@eq R (/ (1 + sqrt s)) ((1 - sqrt s) / ((1 - sqrt s) * (1 + sqrt s)))). field. lra.
    - assert (Ex : ex_RInt (fun s => / (1 + sqrt s)) 0 b).
      { apply (@ex_RInt_continuous R_CompleteNormedModule). intros s S. apply continuous_Rinv_comp; [|pose proof (sqrt_pos s); lra].
        apply (@continuous_plus R_UniformSpace R_AbsRing R_NormedModule (fun _ => 1) sqrt); [apply continuous_const|]. apply continuous_sqrt. }
      assert (L : RInt (fun s => / (1 + sqrt s)) 0 b = 2 * sqrt b - 2 * ln (1 + sqrt b)).
      { apply (tends_unique (F := at_right 0) (fun e => RInt (fun s => / (1 + sqrt s)) 0 e + RInt (fun s => / (1 + sqrt s)) e b)).
        - apply (tends_ext (F := at_right 0) (fun _ => RInt (fun s => / (1 + sqrt s)) 0 b)); [|apply (tends_const (F := at_right 0))].
          assert (P : at_right 0 (fun e => 0 < e < b)). { exists (mkposreal b B0). intros y Y H. unfold ball in Y. cbn in Y. unfold AbsRing_ball, abs, minus, plus, opp in Y. cbn in Y. apply Rabs_def2 in Y. lra. }
          generalize P. apply filter_imp. intros e H. symmetry. apply (@RInt_Chasles R_CompleteNormedModule); [apply (@ex_RInt_Chasles_1 R_CompleteNormedModule _ 0 e b); [lra|exact Ex]|apply (@ex_RInt_Chasles_2 R_CompleteNormedModule _ 0 e b); [lra|exact Ex]].
        - apply (tends_ext (F := at_right 0) (fun e => RInt (fun s => / (1 + sqrt s)) 0 e + ((2 * sqrt b - 2 * ln (1 + sqrt b)) - (2 * sqrt e - 2 * ln (1 + sqrt e))))).
          { assert (P : at_right 0 (fun e => 0 < e < b)). { exists (mkposreal b B0). intros y Y H. unfold ball in Y. cbn in Y. unfold AbsRing_ball, abs, minus, plus, opp in Y. cbn in Y. apply Rabs_def2 in Y. lra. }
            generalize P. apply filter_imp. intros e H. f_equal. symmetry. apply (@is_RInt_unique R_CompleteNormedModule).
            apply (is_RInt_derive (fun s => 2 * sqrt s - 2 * ln (1 + sqrt s)) (fun s => / (1 + sqrt s))).
            - intros s S. rewrite Rmin_left, Rmax_right in S by lra. pose proof (sqrt_lt_R0 s ltac:(lra)) as Q. evar_last; [auto_derive; [|reflexivity]|]; [repeat split; lra|]. field. lra.
            - intros s S. rewrite Rmin_left, Rmax_right in S by lra. apply continuous_Rinv_comp; [|pose proof (sqrt_pos s); lra].
              apply (@continuous_plus R_UniformSpace R_AbsRing R_NormedModule (fun _ => 1) sqrt); [apply continuous_const|]. apply continuous_sqrt. }
          assert (C0 : continuous (fun e => 2 * sqrt e - 2 * ln (1 + sqrt e)) 0).
          { apply (@continuous_minus R_UniformSpace R_AbsRing R_NormedModule (fun e => 2 * sqrt e) (fun e => 2 * ln (1 + sqrt e))).
            - apply (@continuous_mult R_UniformSpace R_AbsRing (fun _ => 2) sqrt); [apply continuous_const|apply continuous_sqrt].
            - apply (@continuous_mult R_UniformSpace R_AbsRing (fun _ => 2) (fun e => ln (1 + sqrt e))); [apply continuous_const|].
              apply (continuous_comp (fun e => 1 + sqrt e) ln).
              + apply (@continuous_plus R_UniformSpace R_AbsRing R_NormedModule (fun _ => 1) sqrt); [apply continuous_const|apply continuous_sqrt].
              + apply ln_cont. rewrite sqrt_0. lra. }
          assert (T0 : tends (at_right 0) (fun e => RInt (fun s => / (1 + sqrt s)) 0 e) 0).
          { apply (tends_dom (F := at_right 0) _ (fun e => e) 1); [lra|apply id0|]. generalize near0. apply filter_imp. intros e [E0 E1]. rewrite (Rabs_right e) by lra.
            replace (1 * e) with ((e - 0) * 1) by ring. apply abs_RInt_le_const; [lra| |].
            - apply (@ex_RInt_continuous R_CompleteNormedModule). intros s S. apply continuous_Rinv_comp; [|pose proof (sqrt_pos s); lra].
              apply (@continuous_plus R_UniformSpace R_AbsRing R_NormedModule (fun _ => 1) sqrt); [apply continuous_const|]. apply continuous_sqrt.
            - intros s S. pose proof (sqrt_pos s). rewrite Rabs_right by (apply Rle_ge; left; apply Rinv_0_lt_compat; lra). rewrite <- Rinv_1 at 2. apply Rinv_le_contravar; lra. }
          refine (tends_eq _ _ _ (tends_plus (F := at_right 0) _ _ _ _ T0 (tends_minus (F := at_right 0) _ _ _ _ (tends_const (F := at_right 0) _) (at_cont0 _ C0))) _).
          cbn. rewrite sqrt_0, Rplus_0_r, ln_1. ring. }
      rewrite <- L. now apply (@RInt_correct R_CompleteNormedModule). }
  intros Q H.
  assert (C1 : continuous (fun b => 2 * sqrt b - 2 * ln (1 + sqrt b)) 1).
  { apply (@ex_derive_continuous R_AbsRing R_NormedModule). auto_derive. rewrite sqrt_1. repeat split; lra. }
  pose proof (at_cont1 _ C1) as T1. cbn beta in T1. rewrite sqrt_1 in T1. replace (2 * 1 - 2 * ln (1 + 1)) with (2 - 2 * ln 2) in T1 by (replace (1 + 1) with 2 by ring; ring).
  apply (Filter_prod _ _ _ (fun z => z = 0) (fun b => unit b /\ Q (2 * sqrt b - 2 * ln (1 + sqrt b)))); [reflexivity|apply filter_and; [apply near1|apply (T1 Q H)]|].
  intros x b -> [B HQ]. exists (2 * sqrt b - 2 * ln (1 + sqrt b)). split; [now apply Ik|exact HQ].
Qed.
Example C74_joe_applies : kendall_of (joe_cdf 4) (2 - 2 * ln 2).
Proof.
  pose proof (C74_joe 4 (fun _ => 2 - 2 * ln 2) 0 ltac:(lra) ltac:(lra)) as H. replace (2 / 4) with (1 / 2) in H by lra. specialize (H digamma_half).
  replace (2 - 2 * ln 2) with (1 + 2 / (2 - 4) * (1 - 0 - (2 - 2 * ln 2))) by field. exact H.
Qed.

Print Assumptions C74_unique.
Print Assumptions C74_clayton.
Print Assumptions C74_gumbel.
Print Assumptions C74_joe.
Print Assumptions C74_fit.
