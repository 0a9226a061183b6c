(** C48 for vines made of the bivariate copulas of the library, and the rotated
    copulas for which it fails. *)
Require Import List Arith Bool Lia Permutation Reals Lra.
From Verif Require Import CopulaModel CopulaProps VineModel VineGraph VineProps
  VineSampleProps VinePropagateProps.
Import ListNotations.
Open Scope R_scope.

(** * Specification *)

(** A fitted bivariate copula: its conditional distribution function, the inverse
    and the rotation, through the library's [partial_derivative] and
    [inverse_partial_derivative] inside the bounds of the input validation. *)
Record fitted := { cond_h : R -> R -> R; cond_hinv : R -> R -> R; angle : rotation }.
Definition pd_first (c : fitted) (x y : R) : R :=
  rotated_pd (swapped (cond_h c)) (angle c) (x, y) false.
Definition pd_second (c : fitted) (x y : R) : R :=
  rotated_pd (swapped (cond_h c)) (angle c) (x, y) true.
Definition inverse_pd (c : fitted) (p y : R) : R :=
  rotated_pd (swapped (cond_hinv c)) (angle c) (p, y) false.

Definition clayton theta r :=
  {| cond_h := clayton_h theta; cond_hinv := clayton_hinv theta; angle := r |}.
Definition independent :=
  {| cond_h := independent_h; cond_hinv := independent_hinv; angle := R0 |}.

(** * Proofs *)

(* the copulas that are not rotated, or rotated by half a turn *)
Definition straight : Type :=
  { c : fitted | inverse_pair (cond_h c) (cond_hinv c) /\ (angle c = R0 \/ angle c = R180) }.

Definition on {A : Type} (f : fitted -> A) (c : straight) : A := f (proj1_sig c).

Lemma straight_inverts : inverts R straight (on pd_first) (on inverse_pd) unit.
Proof.
  intros [c [Hc Ha]] p y Hp Hy. unfold on; cbn [proj1_sig].
  destruct (C45_inverse _ _ Hc (angle c) false (p, y) Hp Hy) as [H1 H2].
  cbn [fst snd replace_other other] in H1, H2. unfold pd_first, inverse_pd.
  split; [apply H2|]. split; [apply H2|]. split; apply H1.
Qed.

Lemma straight_exchangeable :
  VinePropagateProps.exchangeable R straight (on pd_first) (on pd_second).
Proof.
  intros [c [Hc Ha]] x y. unfold on, pd_first, pd_second; cbn [proj1_sig].
  destruct Ha as [-> | ->]; reflexivity.
Qed.

(** Vines of copulas that are not rotated by a quarter turn. *)
Theorem C48_copulas : forall (copula : nat -> nat -> straight) enum n ts cond given rand,
  enumerates enum -> regular n ts -> ts <> [] -> (length ts < n)%nat ->
  (length (filter (fun v => negb (mem v cond)) (seq 0 n)) <= length rand)%nat ->
  let eps := 1 / 100000000000000 in
  exists order s x,
    sampling_order enum cond n ts = Some order
    /\ propagate enum R straight (on pd_first) (on pd_second) (on inverse_pd) copula
         (CopulaModel.clip eps (1 - eps)) cond given ts order rand = Some s
    /\ (forall r, (r < n)%nat -> roots R s r = Some (x r) /\ 0 < x r < 1)
    /\ (forall r, (r < n)%nat -> In r cond -> eps <= given r <= 1 - eps -> x r = given r)
    /\ map (entry_value R straight (on pd_first) (on pd_second) copula ts x) order
       = map (CopulaModel.clip eps (1 - eps))
           (uniforms R cond given (map (entry_var enum ts) order) rand).
Proof.
  intros copula enum n ts cond given rand Hen Hr Hne Hl Hrand eps.
  assert (Heps : 0 < eps < 1 / 2) by (unfold eps; lra).
  assert (Hclip : forall v, unit (CopulaModel.clip eps (1 - eps) v)).
  { intros v. unfold CopulaModel.clip, unit, Rmin, Rmax.
    destruct (Rle_dec eps v); destruct (Rle_dec (1 - eps) _); lra. }
  destruct (C48_sampling R straight (on pd_first) (on pd_second) (on inverse_pd) copula unit
              enum _ n ts cond given rand straight_inverts straight_exchangeable Hen Hr Hne Hl
              Hclip Hrand) as (order & s & x & H1 & H2 & H3 & H4 & H5 & _).
  exists order, s, x. split; [exact H1|]. split; [exact H2|]. split; [exact H3|].
  split; [|exact H4]. intros r Hrn Hrc Hg. rewrite H5 by auto.
  unfold CopulaModel.clip, Rmin, Rmax.
  destruct (Rle_dec eps (given r)); destruct (Rle_dec (1 - eps) _); lra.
Qed.
Print Assumptions C48_copulas.

(** * A concrete vine: 0-1 and 0-2, then 1,2|0 *)

Definition vine3 : list tree := [[(0, 1)]; [(0, 1); (0, 2)]]%nat.

Lemma linked_two : forall a b x y, linked [(a, b)] x y ->
  x = y \/ (x = a \/ x = b) /\ (y = a \/ y = b).
Proof.
  intros a b x y H. induction H as [x|x y z [H|H] _ IH]; [auto| |];
    destruct H as [E|[]]; inversion E; subst; right; destruct IH; subst; tauto.
Qed.

Lemma vine3_regular : regular 3 vine3.
Proof.
  assert (L0 : forall x y, linked [] x y -> x = y).
  { intros x y H. destruct H as [|x y z [[]|[]] _]. reflexivity. }
  assert (A1 : acyclic [(0, 1)]%nat).
  { apply acyclic_cons. split; [intros H; apply L0 in H; discriminate|].
    intros E1 a b E2 E. destruct E1; discriminate. }
  assert (A2 : acyclic [(0, 1); (0, 2)]%nat).
  { apply acyclic_cons. split.
    - intros H. apply linked_two in H. lia.
    - apply acyclic_cons. split; [intros H; apply L0 in H; discriminate|].
      intros E1 a b E2 E. destruct E1; discriminate. }
  assert (J : forall t x y, In (x, y) t \/ In (y, x) t -> linked t x y).
  { intros t x y H. eapply linked_step; [exact H | apply linked_refl]. }
  cbn [vine3 regular length]. split; [split; [exact I|split; [|split]]|split; [|split]].
  - split; [|split].
    + intros a b H. cbn [In] in H.
      repeat (destruct H as [E|H]; [inversion E; subst; lia|]). destruct H.
    + intros x y Hx Hy.
      assert (H0 : forall z, (z < 3 - 0)%nat -> linked [(0, 1); (0, 2)]%nat 0 z /\ linked [(0, 1); (0, 2)]%nat z 0).
      { intros z Hz. destruct z as [|[|[|z]]]; [| | |lia]; split; try apply linked_refl; apply J; cbn; auto. }
      eapply linked_trans; [apply H0; exact Hx | apply H0; exact Hy].
    + exact A2.
  - intros i j H. cbn [length] in H. assert (i = 0 /\ j = 1)%nat as [-> ->] by lia. cbn. lia.
  - exact I.
  - split; [|split].
    + intros a b H. cbn [In] in H.
      repeat (destruct H as [E|H]; [inversion E; subst; lia|]). destruct H.
    + intros x y Hx Hy.
      destruct x as [|[|x]], y as [|[|y]]; try lia; try apply linked_refl; apply J; cbn; auto.
    + exact A1.
  - intros i j H. cbn [length] in H. lia.
  - intros a b [E|[]]. inversion E; subst. exists 0%nat. cbn. auto.
Qed.

(** The hypotheses of the theorem hold for a vine of Clayton copulas. *)
Example C48_applies :
  exists order s x,
    sampling_order (fun l => l) [1%nat] 3 vine3 = Some order
    /\ propagate (fun l => l) R straight (on pd_first) (on pd_second) (on inverse_pd)
         (fun _ _ => exist _ (clayton 2 R180)
            (conj (proj2 (C46_clayton 2 ltac:(lra))) (or_intror eq_refl)))
         (CopulaModel.clip (1 / 100000000000000) (1 - 1 / 100000000000000))
         [1%nat] (fun _ => 1 / 4) vine3 order [1 / 3; 2 / 3] = Some s
    /\ roots R s 1 = Some (1 / 4) /\ x 1%nat = 1 / 4.
Proof.
  destruct (C48_copulas (fun _ _ => exist _ (clayton 2 R180)
            (conj (proj2 (C46_clayton 2 ltac:(lra))) (or_intror eq_refl)))
            (fun l => l) 3 vine3 [1%nat] (fun _ => 1 / 4) [1 / 3; 2 / 3])
    as (order & s & x & H1 & H2 & H3 & H4 & _).
  - intros l. apply Permutation_refl.
  - exact vine3_regular.
  - discriminate.
  - cbn. lia.
  - cbn. lia.
  - exists order, s, x. split; [exact H1|]. split; [exact H2|].
    assert (E : x 1%nat = 1 / 4) by (apply H4; [lia | cbn; auto | lra]).
    split; [|exact E]. rewrite <- E. apply H3. lia.
Qed.

Lemma clayton1 : clayton_h 1 (1 / 2) (1 / 2) = 4 / 9.
Proof.
  unfold clayton_h.
  rewrite (Rpower_Ropp (1 / 2) 1), Rpower_1 by lra.
  replace (1 + 1 / 2 * (/ (1 / 2) - 1)) with (3 / 2) by field.
  replace (- (1 + 1 / 1)) with (- INR 2) by (cbn; field).
  rewrite Rpower_Ropp, Rpower_pow by lra. cbn. field.
Qed.

(** A quarter turn: sampling the same vine with a Clayton copula rotated by 90
    degrees on the edge 0-1 gives a point whose last model value is 4/9 while the
    uniform it was generated from is 5/9. *)
Theorem C48_rotated_refuted :
  let copula := fun l k : nat => match l, k with
                | O, O => clayton 1 R90
                | _, _ => independent
                end in
  let keep := CopulaModel.clip (1 / 100000000000000) (1 - 1 / 100000000000000) in
  let rand := [1 / 2; 1 / 2; 5 / 9] in
  exists order s,
    sampling_order (fun l => l) [] 3 vine3 = Some order
    /\ propagate (fun l => l) R fitted pd_first pd_second inverse_pd copula keep [] (fun _ => 0)
         vine3 order rand = Some s
    /\ (forall r, (r < 3)%nat -> roots R s r = Some (1 / 2))
    /\ map keep (uniforms R [] (fun _ => 0) (map (entry_var (fun l => l) vine3) order) rand) = rand
    /\ map (entry_value R fitted pd_first pd_second copula vine3 (fun _ => 1 / 2)) order
       = [1 / 2; 1 / 2; 4 / 9].
Proof.
  intros copula keep rand.
  assert (Hkeep : forall v, 1 / 4 <= v <= 3 / 4 -> keep v = v).
  { intros v Hv. unfold keep, CopulaModel.clip, Rmin, Rmax.
    destruct (Rle_dec (1 / 100000000000000) v);
      destruct (Rle_dec (1 - 1 / 100000000000000) _); lra. }
  assert (Hx : inverse_pd (clayton 1 R90) (5 / 9) (1 / 2) = 1 / 2).
  { unfold inverse_pd. cbn.
    replace (1 - 5 / 9) with (4 / 9) by field. rewrite <- clayton1.
    destruct (proj2 (C46_clayton 1 ltac:(lra))) as [I _].
    rewrite (proj2 (I (1 / 2) (1 / 2) ltac:(unfold unit; lra) ltac:(unfold unit; lra))). field. }
  exists [RootEntry 2; ChildEntry 0 1 true; ChildEntry 1 0 true].
  eexists. split; [reflexivity|]. split; [|split; [|split]].
  - unfold propagate, rand. cbn -[Rdiv keep inverse_pd pd_first pd_second copula].
    rewrite !Hkeep by lra. cbn -[Rdiv keep inverse_pd pd_first pd_second].
    reflexivity.
  - intros r Hr. destruct r as [|[|[|r]]]; [| | |lia]; cbn -[Rdiv keep inverse_pd pd_first pd_second].
    + reflexivity.
    + change (inverse_pd independent (1 / 2) (1 / 2)) with (1 / 2).
      change (inverse_pd independent (5 / 9) (pd_second independent (1 / 2) (1 / 2))) with (5 / 9).
      rewrite Hx. reflexivity.
    + reflexivity.
  - cbn -[Rdiv keep]. rewrite !Hkeep by lra. reflexivity.
  - cbn -[Rdiv pd_first pd_second].
    change (pd_first independent (1 / 2) (1 / 2)) with (1 / 2).
    change (pd_second independent (1 / 2) (1 / 2)) with (1 / 2).
    change (pd_first independent (pd_second (clayton 1 R90) (1 / 2) (1 / 2)) (1 / 2))
      with (pd_second (clayton 1 R90) (1 / 2) (1 / 2)).
    assert (E : pd_second (clayton 1 R90) (1 / 2) (1 / 2) = 4 / 9).
    { unfold pd_second. cbn. replace (1 - 1 / 2) with (1 / 2) by field. exact clayton1. }
    rewrite E. reflexivity.
Qed.
Print Assumptions C48_rotated_refuted.
