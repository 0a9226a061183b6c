(** C39: the Black-Litterman posterior. *)
From mathcomp Require Import all_ssreflect all_algebra.
From Verif Require Import MatForm BlackLittermanModel.
Set Implicit Arguments.
Unset Strict Implicit.
Unset Printing Implicit Defensive.
Import Order.TTheory GRing.Theory Num.Theory.
Local Open Scope ring_scope.

(** * Specification *)
Section Spec.
Variable F : realFieldType.
(** The variance of view i under the prior, tau * p_i' S p_i. *)
Definition view_variance n k (tau : F) (P : 'M[F]_(k, n)) (S : 'M[F]_n) (i : 'I_k) : F := tau * form S (row i P)^T.
(** How much a confidence c (in percent/100) inflates it: 1/c - 1, no confidence being taken as 1e-16; one half when none is given. *)
Definition doubt (c : F) : F := (if c == 0 then 10 ^+ 16 else 1 / c) - 1.
Definition uncertainty n k (tau : F) (conf : option 'cV[F]_k) (P : 'M[F]_(k, n)) (S : 'M[F]_n) (U : 'M[F]_k) : Prop :=
  forall i j, U i j = if i == j then view_variance tau P S i * (if conf is Some c then doubt (c i 0) else 1) else 0.
Definition confidences_in k (p : F -> bool) (conf : option 'cV[F]_k) : Prop := if conf is Some c then forall i, p (c i 0) else True.
(** Squared distance to the prior mean plus squared distance to the views, each in its own metric. *)
Definition disagreement n k (tau : F) (mu : 'cV[F]_n) (S : 'M[F]_n) (P : 'M[F]_(k, n)) (q : 'cV[F]_k) (U : 'M[F]_k) (m : 'cV[F]_n) : F :=
  form (invmx (tau *: S)) (m - mu) + form (invmx U) (q - P *m m).
End Spec.

Section Main.
Variable F : realFieldType.
Variables n k : nat.
Implicit Types (tau rf : F) (pm : prior_model F n) (P : 'M[F]_(k, n)) (q : 'cV[F]_k) (S : 'M[F]_n).
Lemma psp P S i : (P *m S *m P^T) i i = form S (row i P)^T.
Proof.
rewrite /form trmxK; have -> : (row i P *m S *m (row i P)^T) 0 0 = (row i (P *m S) *m (row i P)^T) 0 0 by rewrite row_mul.
by rewrite !mxE; apply: eq_bigr => j _; rewrite !mxE.
Qed.
Lemma doubt_alpha (c : F) : alpha c = doubt c.
Proof. rewrite /alpha /doubt /clean_confidence; case: eqP => _; [by rewrite invrK|by rewrite mul1r]. Qed.
(** the fit either rejects or works with exactly the documented uncertainty *)
Lemma omega_spec tau conf P S U : omega tau conf P S = inr U -> uncertainty tau conf P S U /\ confidences_in (fun c => (0 <= c) && (c <= 1)) conf.
Proof.
rewrite /omega; case: conf => [c|]; last first.
  by case=> <-; split=> // i j; rewrite /default_omega /diagonal mxE; case: eqP => // _; rewrite mulr1 /view_variance -psp mxE.
case: ifP => // /negbT /existsPn A [] <-; split=> [i j|i].
  rewrite /confidence_omega /diagonal mxE; case: eqP => // _; rewrite mxE.
  by rewrite doubt_alpha /view_variance -psp mulrAC -mulrA.
by have := A i; rewrite negb_or -!leNgt.
Qed.
Lemma omega_ok tau conf P S : confidences_in (fun c => (0 <= c) && (c <= 1)) conf -> exists U, omega tau conf P S = inr U.
Proof.
rewrite /omega; case: conf => [c H|_]; last by eexists.
rewrite ifF; first by eexists.
by apply/negbTE/existsPn=> i; rewrite negb_or -!leNgt.
Qed.
Lemma doubt_ge0 (c : F) : 0 <= c -> c <= 1 -> 0 <= doubt c.
Proof.
rewrite /doubt => H0 H1; case: eqP => [_|/eqP N].
  by rewrite subr_ge0 exprn_ege1 // ler1n.
rewrite subr_ge0 mul1r invf_ge1 // lt_def N //.
Qed.
Lemma doubt_gt0 (c : F) : 0 <= c -> c < 1 -> 0 < doubt c.
Proof.
rewrite /doubt => H0 H1; case: eqP => [_|/eqP N].
  by rewrite subr_gt0 exprn_egt1 // ltr1n.
rewrite subr_gt0 mul1r invf_gt1 // lt_def N //.
Qed.
Lemma uncertainty_matrix tau conf P S U : uncertainty tau conf P S U ->
  U = \matrix_(i, j) (if i == j then view_variance tau P S i * (if conf is Some c then doubt (c i 0) else 1) else 0).
Proof. by move=> H; apply/matrixP=> i j; rewrite H mxE. Qed.
Lemma variance_gt0 tau P S i : 0 < tau -> positive S -> row i P != 0 -> 0 < view_variance tau P S i.
Proof.
move=> T H R; apply: mulr_gt0 => //; apply: H.
by rewrite -trmx0 (inj_eq trmx_inj).
Qed.

Lemma fit_cases hi tau rf conf pm P q pm' : bl_fit hi tau rf conf pm P q = inr pm' ->
  exists U, hi = false /\ omega tau conf P (bl_cov pm) = inr U /\ posterior tau rf pm P q U = inr pm'.
Proof. by rewrite /bl_fit; case: hi => //; case E: (omega _ _ _ _) => [//|U] H; exists U. Qed.

Definition system tau S P (U : 'M[F]_k) := P *m (tau *: S) *m P^T + U.
Lemma posterior_eq tau rf pm P q U pm' : symmetric (bl_cov pm) -> posterior tau rf pm P q U = inr pm' ->
  let T := tau *: bl_cov pm in let A := system tau (bl_cov pm) P U in
  [/\ A \in unitmx, bl_mu pm' = bl_mu pm + T *m P^T *m invmx A *m (q - P *m bl_mu pm) + const_mx rf
     & bl_cov pm' = bl_cov pm + (T - T *m P^T *m invmx A *m P *m T)].
Proof.
move=> Hs; rewrite /posterior /system; set T := tau *: bl_cov pm.
have Ev : tau *: (bl_cov pm *m P^T) = T *m P^T by rewrite scalemxAl.
rewrite Ev mulmxA; case: ifP => // Hu [] <- /=; split=> //; rewrite ?mulmxA //.
have Tt : T^T = T by rewrite linearZ /= sym_tr.
by rewrite trmx_mul trmxK Tt addrA !mulmxA.
Qed.
Lemma posterior_some tau rf pm P q U : system tau (bl_cov pm) P U \in unitmx -> exists pm', posterior tau rf pm P q U = inr pm'.
Proof.
rewrite /posterior /system => H; have Ev : tau *: (bl_cov pm *m P^T) = (tau *: bl_cov pm) *m P^T by rewrite scalemxAl.
by rewrite Ev mulmxA H; eexists.
Qed.
Lemma system_sym tau S P U : symmetric S -> symmetric U -> symmetric (system tau S P U).
Proof.
move=> /sym_tr Hs /sym_tr Hu; apply: tr_sym; rewrite /system trD Hu !trmx_mul trmxK linearZ /= Hs.
by rewrite mulmxA.
Qed.
Lemma system_nonneg tau S P U : 0 <= tau -> nonnegative S -> nonnegative U -> nonnegative (system tau S P U).
Proof. by move=> t Hs Hu x; rewrite /system form_add form_congr form_scale addr_ge0 ?mulr_ge0. Qed.
Lemma system_positive tau S P U : 0 <= tau -> nonnegative S -> positive U -> positive (system tau S P U).
Proof. by move=> t Hs Hu x X; rewrite /system form_add form_congr form_scale ltr_paddl ?mulr_ge0 ?Hu. Qed.

Lemma woodbury (T : 'M[F]_n) P (U : 'M[F]_k) : T \in unitmx -> U \in unitmx -> P *m T *m P^T + U \in unitmx ->
  let A := P *m T *m P^T + U in
  (T - T *m P^T *m invmx A *m P *m T) *m (invmx T + P^T *m invmx U *m P) = 1%:M.
Proof.
move=> Ht Hu Ha A.
rewrite mulmxBl !mulmxDr mulmxV //.
have E1 : T *m P^T *m invmx A *m P *m T *m invmx T = T *m P^T *m invmx A *m P by rewrite mulmxK.
have E2 : T *m P^T *m invmx A *m P *m T *m (P^T *m invmx U *m P) = T *m P^T *m invmx A *m (P *m T *m P^T) *m invmx U *m P by rewrite !mulmxA.
have E3 : P *m T *m P^T = A - U by rewrite /A addrK.
rewrite E1 E2 E3 mulmxBr mulmxKV // !mulmxBl.
have -> : T *m P^T *m invmx A *m U *m invmx U = T *m P^T *m invmx A by rewrite mulmxK.
by rewrite !mulmxA [_ + (_ - _)]addrC subrK addrK.
Qed.
Lemma woodbury_mu (T : 'M[F]_n) P (U : 'M[F]_k) mu q : T \in unitmx -> U \in unitmx -> P *m T *m P^T + U \in unitmx ->
  let A := P *m T *m P^T + U in
  (invmx T + P^T *m invmx U *m P) *m (mu + T *m P^T *m invmx A *m (q - P *m mu)) = invmx T *m mu + P^T *m invmx U *m q.
Proof.
move=> Ht Hu Ha A; rewrite mulmxDr.
have -> : (invmx T + P^T *m invmx U *m P) *m (T *m P^T *m invmx A *m (q - P *m mu)) = P^T *m invmx U *m (q - P *m mu).
  have E : (invmx T + P^T *m invmx U *m P) *m (T *m P^T) = P^T *m invmx U *m A.
    rewrite mulmxDl /A mulmxDr mulKmx // mulmxKV // addrC; congr (_ + _); by rewrite !mulmxA.
  by rewrite !mulmxA -!mulmxA in E *; rewrite !mulmxA; rewrite !mulmxA in E; rewrite E mulmxK.
by rewrite mulmxBr mulmxDl !mulmxA addrA addrAC addrK.
Qed.

Lemma scaled_pos tau S : 0 < tau -> positive S -> positive (tau *: S).
Proof. by move=> t H x X; rewrite form_scale mulr_gt0 ?H. Qed.
Lemma scaled_sym tau S : symmetric S -> symmetric (tau *: S).
Proof. by move=> H i j; rewrite !mxE H. Qed.
Lemma unc_positive tau conf P S U : 0 < tau -> positive S -> (forall i, row i P != 0) ->
  confidences_in (fun c => (0 <= c) && (c < 1)) conf -> uncertainty tau conf P S U -> positive U.
Proof.
move=> t H R C /uncertainty_matrix ->; apply: diag_positive => i; apply: mulr_gt0; first exact: variance_gt0.
case: conf C => [c C|_]; last exact: ltr01. by case/andP: (C i) => H0 H1; apply: doubt_gt0.
Qed.
Lemma unc_nonneg tau conf P S U : 0 <= tau -> nonnegative S ->
  confidences_in (fun c => (0 <= c) && (c <= 1)) conf -> uncertainty tau conf P S U -> nonnegative U.
Proof.
move=> t H C /uncertainty_matrix ->; apply: diag_nonneg => i; apply: mulr_ge0; first by apply: mulr_ge0.
case: conf C => [c C|_]; last exact: ler01. by case/andP: (C i) => H0 H1; apply: doubt_ge0.
Qed.
Lemma unc_sym tau conf P S U : uncertainty tau conf P S U -> symmetric U.
Proof. move=> /uncertainty_matrix ->; apply: diag_sym. Qed.
Lemma conf_weaken (p1 p2 : F -> bool) (conf : option 'cV[F]_k) : (forall c, p1 c -> p2 c) -> confidences_in p1 conf -> confidences_in p2 conf.
Proof. by move=> H; case: conf => [c|//] C i; apply: H. Qed.

Lemma main_facts tau rf conf pm P q U : 0 < tau -> symmetric (bl_cov pm) -> positive (bl_cov pm) -> (forall i, row i P != 0) ->
  confidences_in (fun c => (0 <= c) && (c < 1)) conf -> uncertainty tau conf P (bl_cov pm) U ->
  let T := tau *: bl_cov pm in let M := invmx T + P^T *m invmx U *m P in
  exists2 pm', bl_fit false tau rf conf pm P q = inr pm' &
    [/\ positive U, M \in unitmx, M *m (bl_mu pm' - const_mx rf) = invmx T *m bl_mu pm + P^T *m invmx U *m q & bl_cov pm' = bl_cov pm + invmx M].
Proof.
move=> t Hs Hp R C HU T M.
have PU := unc_positive t Hp R C HU; have SU := unc_sym HU.
have C' : confidences_in (fun c => (0 <= c) && (c <= 1)) conf by apply: conf_weaken C => c /andP [-> /ltW ->].
have [U' EU] := omega_ok tau P (bl_cov pm) C'.
have [HU' _] := omega_spec EU; have EE : U' = U by rewrite (uncertainty_matrix HU') (uncertainty_matrix HU).
rewrite EE in EU.
have PA : positive (system tau (bl_cov pm) P U) by apply: system_positive => //; [exact: ltW|exact: positive_nonneg].
have [pm' Epm] := posterior_some rf q (positive_unit PA).
exists pm'; first by rewrite /bl_fit EU.
have [UA Emu Ecov] := posterior_eq Hs Epm.
have UT : T \in unitmx by apply: positive_unit; apply: scaled_pos.
have UU := positive_unit PU.
have W := woodbury UT UU UA.
have UM : M \in unitmx by case: (mulmx1_unit W).
split=> //.
  by rewrite Emu addrK; apply: woodbury_mu.
rewrite Ecov; congr (_ + _).
by rewrite -[LHS](mulmxK UM) W mul1mx.
Qed.

(** * C39 *)
(** The fit succeeds and returns the precision-weighted combination of the prior and the views (the risk-free rate is added to every mean),
    and the prior covariance plus the covariance of the estimated mean. *)
Theorem C39_posterior tau rf conf pm P q U :
  0 < tau -> symmetric (bl_cov pm) -> positive (bl_cov pm) -> (forall i, row i P != 0) ->
  confidences_in (fun c => (0 <= c) && (c < 1)) conf -> uncertainty tau conf P (bl_cov pm) U ->
  let precision := invmx (tau *: bl_cov pm) + P^T *m invmx U *m P in
  exists2 pm', bl_fit false tau rf conf pm P q = inr pm' &
    [/\ precision \in unitmx,
        precision *m (bl_mu pm' - const_mx rf) = invmx (tau *: bl_cov pm) *m bl_mu pm + P^T *m invmx U *m q
      & bl_cov pm' = bl_cov pm + invmx precision].
Proof.
move=> t Hs Hp R C HU pr; have [pm' E [_ A B D]] := main_facts rf q t Hs Hp R C HU; by exists pm'.
Qed.

(** The posterior mean is the unique vector that disagrees least with the prior and the views together. *)
Theorem C39_least_disagreement tau rf conf pm P q U :
  0 < tau -> symmetric (bl_cov pm) -> positive (bl_cov pm) -> (forall i, row i P != 0) ->
  confidences_in (fun c => (0 <= c) && (c < 1)) conf -> uncertainty tau conf P (bl_cov pm) U ->
  exists2 pm', bl_fit false tau rf conf pm P q = inr pm' &
    forall m, m != bl_mu pm' - const_mx rf ->
      disagreement tau (bl_mu pm) (bl_cov pm) P q U (bl_mu pm' - const_mx rf) < disagreement tau (bl_mu pm) (bl_cov pm) P q U m.
Proof.
move=> t Hs Hp R C HU; have [pm' E [PU UM EM _]] := main_facts rf q t Hs Hp R C HU; exists pm' => // m Nm.
set m0 := bl_mu pm' - const_mx rf in EM Nm *; clearbody m0; set T := tau *: bl_cov pm in EM UM *.
have ST : symmetric T by apply: scaled_sym. have PT : positive T by apply: scaled_pos.
have [SI _] := inv_form ST (positive_unit PT). have [SUI _] := inv_form (unc_sym HU) (positive_unit PU).
set d := m - m0; have Em : m = m0 + d by rewrite /d addrC subrK.
have D0 : d != 0 by rewrite subr_eq0.
rewrite /disagreement -/T.
have -> : m - bl_mu pm = (m0 - bl_mu pm) + d by rewrite Em addrAC.
have -> : q - P *m m = (q - P *m m0) + - (P *m d) by rewrite Em mulmxDr opprD addrA.
rewrite (form_sum (m0 - bl_mu pm) d SI) (form_sum (q - P *m m0) (- (P *m d)) SUI) form_opp.
have X : ((m0 - bl_mu pm)^T *m invmx T *m d) 0 0 = ((q - P *m m0)^T *m invmx U *m (P *m d)) 0 0.
  rewrite (form_cross _ _ SI) (form_cross _ _ SUI) trmx_mul -!mulmxA; congr ((_ *m _) 0 0).
  move: EM; rewrite mulmxDl => EM; rewrite !mulmxBr.
  apply/eqP; rewrite subr_eq addrAC eq_sym subr_eq eq_sym; apply/eqP.
  by rewrite !mulmxA EM addrC.
have -> : ((q - P *m m0)^T *m invmx U *m - (P *m d)) 0 0 = - ((m0 - bl_mu pm)^T *m invmx T *m d) 0 0.
  by rewrite X mulmxN [in LHS]mxE.
rewrite mulrN.
set a := form _ (m0 - _); set b := form _ (q - _); set c := 2%:R * _; set e := form (invmx T) d; set f := form _ (P *m d).
have e0 : 0 < e by apply: (positive_inv ST PT).
have f0 : 0 <= f by apply: positive_nonneg; apply: positive_inv PU; apply: unc_sym HU.
have -> : a + c + e + (b - c + f) = a + b + (e + f).
  by rewrite addrACA (addrACA a c b) subrr addr0.
by rewrite ltr_addl ltr_paddr.
Qed.

(** The posterior covariance is symmetric and lies between S and (1 + tau) S. *)
Theorem C39_covariance_bounds hi tau rf conf pm P q pm' :
  0 <= tau -> symmetric (bl_cov pm) -> nonnegative (bl_cov pm) -> bl_fit hi tau rf conf pm P q = inr pm' ->
  [/\ symmetric (bl_cov pm'), nonnegative (bl_cov pm' - bl_cov pm) & nonnegative ((1 + tau) *: bl_cov pm - bl_cov pm')].
Proof.
move=> t Hs Hn /fit_cases [U [_ [/omega_spec [HU C] Epm]]].
have NU := unc_nonneg t Hn C HU; have SU := unc_sym HU.
have [UA Emu Ecov] := posterior_eq Hs Epm.
set T := tau *: bl_cov pm in UA Emu Ecov *; set A := system _ _ _ _ in UA Emu Ecov.
have ST : symmetric T by apply: scaled_sym. have NT : nonnegative T by move=> x; rewrite form_scale mulr_ge0.
have SA : symmetric A by apply: system_sym. have NA : nonnegative A by apply: system_nonneg.
have [SI _] := inv_form SA UA; have NI := nonneg_inv SA UA NA.
have Tt := sym_tr ST; have At := sym_tr SI.
pose G := T *m P^T; have Gt : G^T = P *m T by rewrite trmx_mul trmxK Tt.
have EG : T *m P^T *m invmx A *m P *m T = G *m invmx A *m G^T by rewrite Gt !mulmxA.
rewrite EG in Ecov; clear EG; clearbody G.
have SG : (G *m invmx A *m G^T)^T = G *m invmx A *m G^T by rewrite !trmx_mul trmxK At mulmxA.
split.
- apply: tr_sym; rewrite Ecov; apply/matrixP=> i j; rewrite !mxE.
  have := congr1 (fun Z : 'M[F]_n => Z i j) SG; rewrite !mxE => ->; by rewrite Hs.
- move=> x; rewrite Ecov addrC addKr form_sub form_congr.
  pose y := invmx A *m (G^T *m x).
  have Ey : A *m y = G^T *m x by rewrite /y mulKVmx.
  have X : form (invmx A) (G^T *m x) = (y^T *m A *m y) 0 0 by have [_ ->] := inv_form SA UA.
  clearbody y.
  have X2 : (y^T *m A *m y) 0 0 = form T (P^T *m y) + form U y.
    by rewrite -/(form A y) /A /system form_add form_congr.
  have X3 : (y^T *m A *m y) 0 0 = ((P^T *m y)^T *m T *m x) 0 0.
    by rewrite -mulmxA Ey Gt trmx_mul trmxK !mulmxA.
  have X4 : form T (x - P^T *m y) = form T x - 2%:R * (y^T *m A *m y) 0 0 + form T (P^T *m y).
    rewrite (form_sum x (- (P^T *m y)) ST) form_opp X3 (form_cross (P^T *m y) x ST) mulmxN; congr (_ + _ + _).
    by rewrite [in LHS]mxE mulrN.
  have -> : form T x - form (invmx A) (G^T *m x) = form T (x - P^T *m y) + form U y.
    rewrite X4 -addrA -X2 X -addrA; congr (_ + _).
    by rewrite mulr_natl mulr2n opprD addrNK.
  by rewrite addr_ge0.
- move=> x; have -> : (1 + tau) *: bl_cov pm - bl_cov pm' = G *m invmx A *m G^T.
    by rewrite Ecov scalerDl scale1r -/T opprD opprB addrACA subrr add0r addrC subrK.
  by rewrite form_congr.
Qed.

(** Views held with full confidence hold exactly in the posterior (up to the risk-free rate added to every mean);
    the fit can fail only when such views are linearly dependent. *)
Theorem C39_certain_views tau rf pm P q :
  0 < tau -> symmetric (bl_cov pm) -> positive (bl_cov pm) ->
  (row_free P -> exists pm', bl_fit false tau rf (Some (const_mx 1)) pm P q = inr pm') /\
  (forall pm', bl_fit false tau rf (Some (const_mx 1)) pm P q = inr pm' -> P *m (bl_mu pm' - const_mx rf) = q).
Proof.
move=> t Hs Hp.
have Z U : uncertainty tau (Some (const_mx 1)) P (bl_cov pm) U -> U = 0.
  move=> /uncertainty_matrix ->; apply/matrixP=> i j; rewrite !mxE; case: eqP => // _.
  by rewrite /doubt oner_eq0 divr1 subrr mulr0.
split.
- move=> Rf.
  have [U EU] : exists U, omega tau (Some (const_mx 1)) P (bl_cov pm) = inr U by apply: omega_ok => i; rewrite mxE ler01 lexx.
  have [HU _] := omega_spec EU.
  have PA : positive (system tau (bl_cov pm) P U).
    move=> x X; rewrite (Z _ HU) /system addr0 form_congr; apply: scaled_pos => //.
    apply/negP=> /eqP E; move/negP: X; apply; apply/eqP; apply: trmx_inj; rewrite trmx0.
    apply: (row_free_inj Rf); rewrite mul0mx; apply: trmx_inj; by rewrite trmx_mul trmxK E trmx0.
  have [pm' Epm] := posterior_some rf q (positive_unit PA); exists pm'; by rewrite /bl_fit EU.
- move=> pm' /fit_cases [U [_ [/omega_spec [HU _] Epm]]].
  have [UA Emu _] := posterior_eq Hs Epm.
  rewrite Emu addrK mulmxDr !mulmxA.
  have -> : P *m (tau *: bl_cov pm) *m P^T = system tau (bl_cov pm) P U by rewrite /system (Z _ HU) addr0.
  by rewrite mulmxV // mul1mx addrC subrK.
Qed.

(** Views that agree with the prior leave the means where they were. *)
Theorem C39_neutral_views hi tau rf conf pm P q pm' :
  symmetric (bl_cov pm) -> q = P *m bl_mu pm -> bl_fit hi tau rf conf pm P q = inr pm' -> bl_mu pm' = bl_mu pm + const_mx rf.
Proof.
move=> Hs -> /fit_cases [U [_ [_ Epm]]]; have [_ -> _] := posterior_eq Hs Epm.
by rewrite subrr mulmx0 addr0.
Qed.

(** Exactly these inputs are rejected. *)
Theorem C39_rejected hi tau rf conf pm P q :
  0 < tau -> symmetric (bl_cov pm) -> positive (bl_cov pm) -> (forall i, row i P != 0) ->
  [/\ bl_fit hi tau rf conf pm P q = inl InequalityViews <-> hi = true,
      bl_fit hi tau rf conf pm P q = inl ConfidenceOutOfRange <-> hi = false /\ ~ confidences_in (fun c => (0 <= c) && (c <= 1)) conf
    & bl_fit hi tau rf conf pm P q = inl (SingularSystem) -> exists c i, conf = Some c /\ c i 0 = 1].
Proof.
move=> t Hs Hp R; split.
- rewrite /bl_fit; case: hi; first by [].
  split=> //; rewrite /omega; case: conf => [c|]; [case: ifP => // _|]; rewrite /posterior; by case: ifP.
- rewrite /bl_fit; case: hi; first by split=> // [[]].
  split.
  + move=> H; split=> // C; have [U EU] := omega_ok tau P (bl_cov pm) C; move: H; rewrite EU /posterior; by case: ifP.
  + case=> _; rewrite /omega; case: conf => [c|] H; last by case: H.
    case: ifP => // /negbT /existsPn A; case: H => i; have := A i; by rewrite negb_or -!leNgt.
- rewrite /bl_fit; case: hi => //; case EU: (omega _ _ _ _) => [e|U]; first by move: EU; rewrite /omega; case: conf => [c|//]; case: ifP => // _ [] <-.
  have [HU C] := omega_spec EU; move=> H.
  case: conf HU C EU => [c|] HU C EU; last first.
    have PU := unc_positive t Hp R (I : confidences_in _ None) HU.
    have PA : positive (system tau (bl_cov pm) P U) by apply: system_positive => //; [exact: ltW|exact: positive_nonneg].
    by have [pm' Epm] := posterior_some rf q (positive_unit PA); rewrite Epm in H.
  case: (pickP (fun i => c i 0 == 1)) => [i /eqP Hi|A]; first by exists c, i.
  have C' : confidences_in (fun c => (0 <= c) && (c < 1)) (Some c).
    by move=> i; case/andP: (C i) => H0 H1; rewrite H0 lt_def H1 andbT eq_sym A.
  have PU := unc_positive t Hp R C' HU.
  have PA : positive (system tau (bl_cov pm) P U) by apply: system_positive => //; [exact: ltW|exact: positive_nonneg].
  by have [pm' Epm] := posterior_some rf q (positive_unit PA); rewrite Epm in H.
Qed.
End Main.

(** With a single view, the confidence is the weight of the view against the prior. *)
Theorem C39_single_view (F : realFieldType) n (tau rf c : F) (pm : prior_model F n) (P : 'M[F]_(1, n)) (q : 'cV[F]_1) :
  0 < tau -> symmetric (bl_cov pm) -> positive (bl_cov pm) -> P != 0 -> 0 < c -> c <= 1 ->
  exists2 pm', bl_fit false tau rf (Some (const_mx c)) pm P q = inr pm' &
    P *m (bl_mu pm' - const_mx rf) = (1 - c) *: (P *m bl_mu pm) + c *: q.
Proof.
move=> t Hs Hp NP c0 c1.
have [U EU] : exists U, omega tau (Some (const_mx c)) P (bl_cov pm) = inr U by apply: omega_ok => i; rewrite mxE (ltW c0) c1.
have [HU _] := omega_spec EU.
have NR : row 0 P != 0 by rewrite (_ : row 0 P = P) //; apply/matrixP=> i j; rewrite mxE !ord1.
pose w := view_variance tau P (bl_cov pm) 0.
have w0 : 0 < w by apply: variance_gt0.
have E1 : P *m (tau *: bl_cov pm) *m P^T = w%:M.
  by apply: scalar_eq; rewrite -scalemxAr -scalemxAl mxE psp !mxE eqxx.
have E2 : U = (w * (1 / c - 1))%:M.
  apply: scalar_eq; rewrite HU eqxx !mxE eqxx /doubt gt_eqF // -/w mulr1n //.
have E3 : system tau (bl_cov pm) P U = (w / c)%:M.
  rewrite /system E1 E2 -[LHS]raddfD /=; congr (_%:M); by rewrite mulrBr mulr1 addrC subrK mul1r.
have wc : w / c != 0 by rewrite mulf_neq0 // ?invr_neq0 // gt_eqF.
have UA : system tau (bl_cov pm) P U \in unitmx.
  by rewrite E3 unitmxE det_scalar1 unitfE.
have [pm' Epm] := posterior_some rf q UA; exists pm'; first by rewrite /bl_fit EU.
have [_ -> _] := posterior_eq Hs Epm.
rewrite addrK mulmxDr !mulmxA E1 E3 invmx_scalar -scalar_mxM.
have -> : w * (w / c)^-1 = c.
  rewrite invf_div mulrCA mulfV ?mulr1 // gt_eqF //.
by rewrite mul_scalar_mx scalerBr scalerBl scale1r addrA addrAC.
Qed.
(** No confidences at all means one half. *)
Theorem C39_no_confidences (F : realFieldType) n k hi (tau rf : F) (pm : prior_model F n) (P : 'M[F]_(k, n)) q :
  bl_fit hi tau rf None pm P q = bl_fit hi tau rf (Some (const_mx (1 / 2%:R))) pm P q.
Proof.
have h : (1 / 2%:R : F) != 0 by rewrite mul1r invr_eq0 pnatr_eq0.
rewrite /bl_fit; case: hi => //; rewrite /omega ifF; last first.
  apply/negbTE/existsPn=> i; rewrite mxE negb_or -!leNgt mul1r invr_ge0 ler0n /= invf_le1 ?ler1n ?ltr0n //.
congr (posterior _ _ _ _ _ _); apply/matrixP=> i j; rewrite /default_omega /confidence_omega /diagonal mxE [RHS]mxE; case: eqP => // _.
rewrite [LHS]mxE [RHS]mxE; congr (_ * _); rewrite mxE doubt_alpha /doubt (negbTE h).
by rewrite mul1r div1r invrK (_ : 2%:R = 1 + 1) // addrK mulr1.
Qed.

(** Refuted: fit does not leave the caller's confidence array alone. *)
Theorem C39_confidences_kept_refuted : exists c : 'cV[rat]_1, confidences_in (fun c => (0 <= c) && (c <= 1)) (Some c) /\ confidences_after c <> c.
Proof.
exists 0; split=> [i|]; first by rewrite mxE lexx ler01.
by move/matrixP/(_ 0 0); rewrite !mxE /clean_confidence eqxx => /eqP; rewrite invr_eq0 expf_eq0 pnatr_eq0.
Qed.

(** Two correlated assets and the view that the first returns more than the second. *)
Definition example_cov : 'M[rat]_2 := 1%:M + const_mx 1.
Definition example_prior : prior_model rat_realFieldType 2 := {| bl_mu := const_mx (1 / 10); bl_cov := example_cov |}.
Definition example_view : 'M[rat]_(1, 2) := \matrix_(i, j) (if j == 0 then 1 else -1).
Lemma example_cov_ok : symmetric example_cov /\ positive example_cov.
Proof.
split; first by move=> i j; rewrite !mxE eq_sym.
move=> x X; rewrite form_add; apply: ltr_paddr.
  rewrite /form; have -> : x^T *m const_mx 1 *m x = (\sum_i x i 0) ^+ 2 *: const_mx 1.
    apply/matrixP=> i j; rewrite !ord1 !mxE mulr1 expr2 mulr_sumr; apply: eq_bigr => l _.
    by rewrite !mxE; congr (_ * _); apply: eq_bigr => m _; rewrite !mxE mulr1.
  by rewrite !mxE mulr1 sqr_ge0.
have -> : (1%:M : 'M[rat]_2) = \matrix_(i, j) (if i == j then (fun _ => 1) i else 0) by apply/matrixP=> i j; rewrite !mxE; case: eqP.
by apply: diag_positive.
Qed.
Example C39_hypotheses_met : [/\ symmetric (bl_cov example_prior), positive (bl_cov example_prior), forall i, row i example_view != 0 &
  exists pm', bl_fit false (1 / 20) 0 None example_prior example_view (const_mx (1 / 50)) = inr pm' /\
    example_view *m (bl_mu pm' - const_mx 0) = const_mx (1 / 100)].
Proof.
have [A B] := example_cov_ok.
have R : example_view != 0 by apply/eqP=> /matrixP/(_ 0 0); rewrite !mxE eqxx => /eqP; rewrite oner_eq0.
split=> //.
  move=> i; rewrite (_ : row i example_view = example_view) //; by apply/matrixP=> a b; rewrite !mxE.
have [pm' E V] := @C39_single_view _ _ (1 / 20) 0 (1 / 2%:R) example_prior example_view (const_mx (1 / 50)) isT A B R isT isT.
exists pm'; rewrite C39_no_confidences; split=> //; rewrite V.
apply/matrixP=> i j; rewrite !mxE !big_ord_recl big_ord0 !mxE /=. by apply/eqP.
Qed.
Print Assumptions C39_posterior.
Print Assumptions C39_least_disagreement.
Print Assumptions C39_covariance_bounds.
Print Assumptions C39_certain_views.
Print Assumptions C39_single_view.
Print Assumptions C39_neutral_views.
Print Assumptions C39_no_confidences.
Print Assumptions C39_rejected.
Print Assumptions C39_confidences_kept_refuted.
