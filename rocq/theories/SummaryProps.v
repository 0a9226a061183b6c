(** C90: the summary tables of portfolios. *)
From Coq Require Import String Ascii Reals Lra Lia ZArith List Bool Arith.
From Verif Require Import RList MeasuresModel PortfolioModel PortfolioSpec PortfolioProofs PortfolioProps SummaryModel.
Import ListNotations.
Local Open Scope string_scope.
Local Open Scope list_scope.
Local Open Scope R_scope.

(** * Specification: reading a printed number *)
Definition digit_value (c : ascii) : option Z :=
  let n := nat_of_ascii c in if ((48 <=? n) && (n <=? 57))%nat then Some (Z.of_nat n - 48)%Z else None.
(** digits with at most one point, then possibly a final percent sign: the digits, the number of decimals, the percent sign *)
Fixpoint scan (s : string) (units : Z) (decimals : option nat) : option (Z * nat * bool) :=
  let d := match decimals with Some d => d | None => 0%nat end in
  match s with
  | EmptyString => Some (units, d, false)
  | String c s =>
      match digit_value c with
      | Some v => scan s (units * 10 + v)%Z (option_map S decimals)
      | None => if Ascii.eqb c "." then match decimals with None => scan s units (Some 0%nat) | Some _ => None end
                else if Ascii.eqb c "%" then match s with EmptyString => Some (units, d, true) | _ => None end
                else None
      end
  end.
(** the number printed, the number of decimals and whether it is a percentage *)
Definition read (s : string) : option (R * nat * bool) :=
  let value sign t :=
    match scan t 0 None with
    | Some (u, d, p) => Some (sign * IZR u / 10 ^ d / (if p then 100 else 1), d, p)
    | None => None
    end in
  match s with
  | EmptyString => None
  | String c t => if Ascii.eqb c "-" then value (-1) t else value 1 s
  end.
(** the number of decimals: two, and one more for every power of ten from 1/10 to 1/10000 that is not exceeded; none for zero *)
Definition one_if (P : Prop) (d : {P} + {~ P}) : nat := if d then 1%nat else 0%nat.
Definition decimals_of (y : R) : nat :=
  let b (c : R) := one_if (Rabs y <= c) (Rle_dec (Rabs y) c) in
  if Req_EM_T y 0 then 0%nat else (2 + b (1 / 10)%R + b (1 / 100)%R + b (1 / 1000)%R + b (1 / 10000)%R)%nat.
(** what is printed before the percent sign *)
Definition printed (x : R) (percent : bool) : R := if percent then x * 100 else x.

(** * Digits *)
Lemma append_assoc (a b c : string) : ((a ++ b) ++ c = a ++ (b ++ c))%string.
Proof. induction a as [|x a IH]; cbn; [reflexivity|]. now rewrite IH. Qed.
Lemma append_nil (a : string) : (a ++ "" = a)%string.
Proof. induction a as [|x a IH]; cbn; [reflexivity|]. now rewrite IH. Qed.
Lemma digit_value_digit d : (0 <= d < 10)%Z -> digit_value (digit d) = Some d.
Proof.
  intros H. unfold digit_value, digit. rewrite nat_ascii_embedding by lia.
  replace ((48 <=? 48 + Z.to_nat d) && (48 + Z.to_nat d <=? 57))%nat with true; [f_equal; lia|].
  symmetry. apply andb_true_intro. split; apply Nat.leb_le; lia.
Qed.
Lemma scan_digit d t u f : (0 <= d < 10)%Z -> scan (String (digit d) t) u f = scan t (u * 10 + d)%Z (option_map S f).
Proof. intros H. cbn [scan]. now rewrite digit_value_digit. Qed.
Lemma scan_last k : forall z t u f, (0 <= z)%Z ->
  scan (last_digits k z ++ t) u f = scan t (u * 10 ^ Z.of_nat k + z mod 10 ^ Z.of_nat k)%Z (option_map (fun d => d + k)%nat f).
Proof.
  induction k as [|k IH]; intros z t u f Hz.
  - cbn [last_digits append]. rewrite Z.mod_1_r. cbn [Z.of_nat]. change (10 ^ 0)%Z with 1%Z.
    replace (u * 1 + 0)%Z with u by lia. destruct f as [d|]; cbn [option_map]; [|reflexivity]. now rewrite Nat.add_0_r.
  - cbn [last_digits]. rewrite append_assoc, IH by (apply Z.div_pos; lia). unfold single. cbn [append].
    rewrite scan_digit by (apply Z.mod_pos_bound; lia).
    replace (Z.of_nat (S k)) with (Z.of_nat k + 1)%Z by lia. rewrite Z.pow_add_r by lia. change (10 ^ 1)%Z with 10%Z.
    f_equal.
    + assert (0 < 10 ^ Z.of_nat k)%Z by (apply Z.pow_pos_nonneg; lia). set (P := (10 ^ Z.of_nat k)%Z) in *.
      rewrite (Z.mul_comm P 10), (Z.rem_mul_r z 10 P) by lia. ring.
    + destruct f as [d|]; cbn [option_map]; [|reflexivity]. f_equal. lia.
Qed.
Lemma scan_all fuel : forall z t, (0 <= z < 10 ^ (Z.of_nat fuel + 1))%Z -> scan (all_digits fuel z ++ t) 0 None = scan t z None.
Proof.
  induction fuel as [|fuel IH]; intros z t Hz.
  - cbn [all_digits append]. unfold single. cbn [append]. change (10 ^ (Z.of_nat 0 + 1))%Z with 10%Z in Hz.
    rewrite scan_digit by (apply Z.mod_pos_bound; lia). rewrite Z.mod_small by lia. reflexivity.
  - cbn [all_digits]. destruct (Z.ltb_spec z 10) as [L|L].
    + unfold single. cbn [append]. rewrite scan_digit by lia. reflexivity.
    + rewrite append_assoc, IH.
      * unfold single. cbn [append]. rewrite scan_digit by (apply Z.mod_pos_bound; lia). f_equal.
        rewrite Z.mul_comm. symmetry. apply Z.div_mod. lia.
      * split; [apply Z.div_pos; lia|]. apply Z.div_lt_upper_bound; [lia|].
        replace (Z.of_nat (S fuel) + 1)%Z with (1 + (Z.of_nat fuel + 1))%Z in Hz by lia. rewrite Z.pow_add_r in Hz by lia. lia.
Qed.
Lemma whole_fuel z : (0 <= z -> z < 10 ^ (Z.of_nat (Z.to_nat (Z.log2 z)) + 1))%Z.
Proof.
  intros H. rewrite Z2Nat.id by apply Z.log2_nonneg. destruct (Z.eq_dec z 0) as [->|N]; [reflexivity|].
  apply Z.lt_le_trans with (2 ^ (Z.log2 z + 1))%Z; [apply Z.log2_spec; lia|]. apply Z.pow_le_mono_l. lia.
Qed.
Lemma all_digits_head fuel : forall z, (0 <= z)%Z -> exists d s, (0 <= d < 10)%Z /\ all_digits fuel z = String (digit d) s.
Proof.
  induction fuel as [|fuel IH]; intros z Hz; cbn [all_digits].
  - exists (z mod 10)%Z, EmptyString. split; [apply Z.mod_pos_bound; lia|reflexivity].
  - destruct (Z.ltb_spec z 10) as [L|L]; [exists z, EmptyString; split; [lia|reflexivity]|].
    assert (Q : (0 <= z / 10)%Z) by (apply Z.div_pos; lia).
    destruct (IH (z / 10)%Z Q) as (d & s & Hd & E). rewrite E. cbn [append]. eauto.
Qed.
Lemma digit_not_minus d : (0 <= d < 10)%Z -> Ascii.eqb (digit d) "-" = false.
Proof.
  intros H. destruct (Ascii.eqb_spec (digit d) "-") as [E|E]; [|reflexivity]. exfalso.
  pose proof (digit_value_digit d H) as D. rewrite E in D. discriminate D.
Qed.

(** * Rounding *)
Lemma int_part_bounds x : IZR (Int_part x) <= x < IZR (Int_part x) + 1.
Proof. pose proof (base_Int_part x). lra. Qed.
Lemma nearest_close x : Rabs (IZR (nearest x) - x) <= 1 / 2.
Proof.
  unfold nearest. pose proof (int_part_bounds x).
  destruct (Rlt_dec _ _) as [A|A]; [|destruct (Rlt_dec _ _) as [B|B]; [|destruct (Z.even _)]]; rewrite ?plus_IZR; apply Rabs_le; lra.
Qed.
Lemma nearest_floor x : (Int_part x <= nearest x <= Int_part x + 1)%Z.
Proof.
  unfold nearest. destruct (Rlt_dec _ _) as [A|A]; [|destruct (Rlt_dec _ _) as [B|B]; [|destruct (Z.even _)]]; lia.
Qed.
Lemma int_part_mono x y : x <= y -> (Int_part x <= Int_part y)%Z.
Proof.
  intros H. pose proof (int_part_bounds x). pose proof (int_part_bounds y).
  apply Z.lt_succ_r. apply lt_IZR. rewrite succ_IZR. lra.
Qed.
Lemma nearest_mono x y : x <= y -> (nearest x <= nearest y)%Z.
Proof.
  intros H. pose proof (int_part_mono x y H) as M.
  destruct (Z.eq_dec (Int_part x) (Int_part y)) as [E|E].
  - unfold nearest. rewrite <- E.
    destruct (Rlt_dec (x - _) _) as [A|A], (Rlt_dec (y - _) _) as [B|B]; try lra; try lia;
    repeat (destruct (Rlt_dec _ _) || destruct (Z.even _)); try lia; lra.
  - pose proof (nearest_floor x). pose proof (nearest_floor y). lia.
Qed.
Lemma int_part_IZR n : Int_part (IZR n) = n.
Proof. pose proof (int_part_bounds (IZR n)) as [A B]. apply le_IZR in A. rewrite <- succ_IZR in B. apply lt_IZR in B. lia. Qed.
Lemma nearest_IZR n : nearest (IZR n) = n.
Proof. unfold nearest. rewrite int_part_IZR. destruct (Rlt_dec _ _); [reflexivity|]. exfalso. lra. Qed.
Lemma nearest_nonneg x : 0 <= x -> (0 <= nearest x)%Z.
Proof. intros H. rewrite <- (nearest_IZR 0). now apply nearest_mono. Qed.

Lemma read_fixed x n tail p : (tail = "" /\ p = false \/ tail = "%" /\ p = true)%string ->
  read (fixed_point x n ++ tail) =
  Some ((if Rlt_dec x 0 then -1 else 1) * IZR (nearest (Rabs x * 10 ^ n)) / 10 ^ n / (if p then 100 else 1), n, p).
Proof.
  intros Ht. unfold fixed_point. set (u := nearest (Rabs x * 10 ^ n)).
  assert (U : (0 <= u)%Z) by (apply nearest_nonneg, Rmult_le_pos; [apply Rabs_pos|apply pow_le; lra]).
  assert (P : (0 < 10 ^ Z.of_nat n)%Z) by (apply Z.pow_pos_nonneg; lia).
  set (body := (whole (u / 10 ^ Z.of_nat n) ++ match n with 0%nat => "" | S _ => "." ++ last_digits n u end)%string).
  assert (B : scan (body ++ tail) 0 None = Some (u, n, p)).
  { unfold body. rewrite append_assoc. unfold whole. rewrite scan_all by (split; [apply Z.div_pos; lia|apply whole_fuel, Z.div_pos; lia]).
    destruct n as [|n].
    - rewrite Z.div_1_r. destruct Ht as [[-> ->]|[-> ->]]; reflexivity.
    - set (n' := S n) in *. cbn [append]. cbn [scan]. cbn [digit_value]. change (digit_value ".") with (@None Z). cbv iota.
      change (Ascii.eqb "." ".") with true. cbv iota.
      rewrite scan_last by lia. cbn [option_map]. cbn [Nat.add].
      replace (u / 10 ^ Z.of_nat n' * 10 ^ Z.of_nat n' + u mod 10 ^ Z.of_nat n')%Z with u.
      + destruct Ht as [[-> ->]|[-> ->]]; reflexivity.
      + rewrite Z.mul_comm. apply Z.div_mod. lia. }
  destruct (Rlt_dec x 0) as [L|L].
  - change (("-" ++ body) ++ tail)%string with (String "-" (body ++ tail)). unfold read.
    change (Ascii.eqb "-" "-") with true. cbv iota. rewrite B. reflexivity.
  - cbn [append].
    destruct (all_digits_head (Z.to_nat (Z.log2 (u / 10 ^ Z.of_nat n))) (u / 10 ^ Z.of_nat n) (Z.div_pos _ _ U P)) as (d & t & Hd & E).
    assert (E' : exists t', (body ++ tail)%string = String (digit d) t').
    { unfold body, whole. rewrite E. cbn [append]. eauto. }
    destruct E' as [t' E']. rewrite E' in B |- *. unfold read. rewrite digit_not_minus by exact Hd. rewrite B. reflexivity.
Qed.

(** * The number of decimals *)
Lemma trunc_le k z : (1 <= k)%Z -> (k <= trunc z)%Z <-> IZR k <= z.
Proof.
  intros K. apply IZR_le in K as K'. unfold trunc. destruct (Rle_dec 0 z) as [P|P].
  - pose proof (int_part_bounds z) as B. split; intros H.
    + apply IZR_le in H. lra.
    + apply Z.lt_succ_r, lt_IZR. rewrite succ_IZR. lra.
  - pose proof (int_part_bounds (- z)) as B. split; intros H; [exfalso|lra].
    assert (0 <= Int_part (- z))%Z; [|lia]. apply Z.lt_succ_r, lt_IZR. rewrite succ_IZR. lra.
Qed.
Lemma ln10_pos : 0 < ln 10.
Proof. rewrite <- ln_1. apply ln_increasing; lra. Qed.
Lemma log_threshold y (k : nat) : 0 < y -> INR k <= - log10 y <-> y <= / 10 ^ k.
Proof.
  intros Hy. pose proof ln10_pos as L. pose proof (pow_lt 10 k ltac:(lra)) as T.
  assert (E : ln (/ 10 ^ k) = - (INR k * ln 10)).
  { rewrite ln_Rinv by exact T. f_equal. rewrite <- Rpower_pow by lra. unfold Rpower. apply ln_exp. }
  unfold log10. split; intros H.
  - apply Rnot_lt_le. intros N. apply ln_increasing in N; [|now apply Rinv_0_lt_compat]. rewrite E in N.
    apply (Rmult_le_compat_r (ln 10)) in H; [|lra]. unfold Rdiv in H. rewrite Ropp_mult_distr_l, Rmult_assoc, Rinv_l in H by lra. lra.
  - apply (Rmult_le_reg_r (ln 10)); [exact L|]. unfold Rdiv. rewrite Ropp_mult_distr_l, Rmult_assoc, Rinv_l by lra.
    assert (ln y <= ln (/ 10 ^ k)); [|rewrite E in H0; lra].
    destruct H as [H|H]; [left; now apply ln_increasing|right; now rewrite H].
Qed.
Lemma decimals_eq y : y <> 0 -> Z.to_nat (optimal_rounding_decimals y) = decimals_of y.
Proof.
  intros Hy. apply Rabs_pos_lt in Hy as P. unfold optimal_rounding_decimals, decimals_of, one_if.
  destruct (Req_EM_T y 0) as [E|_]; [contradiction|].
  set (t := trunc _).
  assert (T : forall k : nat, (1 <= k)%nat -> (Z.of_nat k <= t)%Z <-> Rabs y <= / 10 ^ k).
  { intros k K. unfold t. rewrite trunc_le by lia. rewrite <- INR_IZR_INZ. now apply log_threshold. }
  pose proof (T 1%nat ltac:(lia)) as T1. pose proof (T 2%nat ltac:(lia)) as T2. pose proof (T 3%nat ltac:(lia)) as T3.
  pose proof (T 4%nat ltac:(lia)) as T4. clear T.
  replace (/ 10 ^ 1) with (1 / 10) in T1 by lra. replace (/ 10 ^ 2) with (1 / 100) in T2 by lra.
  replace (/ 10 ^ 3) with (1 / 1000) in T3 by lra. replace (/ 10 ^ 4) with (1 / 10000) in T4 by lra.
  repeat (destruct (Rle_dec _ _)); try lra;
  repeat match goal with
         | H : _ <-> ?Q, K : ?Q |- _ => apply (proj2 H) in K; clear H
         | H : ?A <-> ?Q, K : ~ ?Q |- _ => assert (~ A) by (intros Z; apply K, (proj1 H Z)); clear H
         end; lia.
Qed.
Lemma decimals_zero y : y = 0 -> decimals_of y = 0%nat.
Proof. intros E. unfold decimals_of. destruct (Req_EM_T y 0); [reflexivity|contradiction]. Qed.
Lemma format_eq x percent :
  format_measure (Finite x) percent = Some (fixed_format x (decimals_of (printed x percent)) percent).
Proof.
  unfold format_measure, printed. destruct percent;
  (destruct (Req_EM_T _ 0) as [E|E]; [rewrite (decimals_zero _ E)|rewrite (decimals_eq _ E)]; reflexivity).
Qed.

(** the number printed *)
Definition shown (x : R) (percent : bool) : R :=
  let y := printed x percent in
  let n := decimals_of y in
  (if Rlt_dec y 0 then -1 else 1) * IZR (nearest (Rabs y * 10 ^ n)) / 10 ^ n.
Lemma read_format x percent : exists s, format_measure (Finite x) percent = Some s /\
  read s = Some (shown x percent / (if percent then 100 else 1), decimals_of (printed x percent), percent).
Proof.
  rewrite format_eq. eexists. split; [reflexivity|]. unfold fixed_format, shown. destruct percent; cbn [printed].
  - apply (read_fixed _ _ "%" true). right. auto.
  - rewrite <- (append_nil (fixed_point _ _)). apply (read_fixed _ _ "" false). left. auto.
Qed.
Lemma ten_pos n : 0 < 10 ^ n.
Proof. apply pow_lt. lra. Qed.
Lemma shown_close x percent : Rabs (shown x percent - printed x percent) <= 1 / 2 / 10 ^ decimals_of (printed x percent).
Proof.
  unfold shown. set (y := printed x percent). set (n := decimals_of y). pose proof (ten_pos n) as T. set (P := 10 ^ n) in *.
  pose proof (nearest_close (Rabs y * P)) as C. set (u := IZR (nearest (Rabs y * P))) in *.
  assert (E : (if Rlt_dec y 0 then -1 else 1) * u / P - y = (if Rlt_dec y 0 then -1 else 1) * (u - Rabs y * P) / P).
  { destruct (Rlt_dec y 0) as [L|L]; [rewrite Rabs_left by exact L|rewrite Rabs_right by lra]; field; lra. }
  rewrite E. unfold Rdiv. rewrite !Rabs_mult, (Rabs_right (/ P)) by (apply Rle_ge, Rlt_le, Rinv_0_lt_compat, T).
  apply Rmult_le_compat_r; [apply Rlt_le, Rinv_0_lt_compat, T|]. replace (Rabs (if Rlt_dec y 0 then -1 else 1)) with 1; [lra|].
  destruct (Rlt_dec y 0); [rewrite Rabs_left|rewrite Rabs_right]; lra.
Qed.
(** rounding of a non-negative quantity to its own number of decimals *)
Definition rounded (y : R) : R := IZR (nearest (Rabs y * 10 ^ decimals_of y)) / 10 ^ decimals_of y.
Lemma rounded_nonneg y : 0 <= rounded y.
Proof.
  unfold rounded. pose proof (ten_pos (decimals_of y)) as T. apply Rmult_le_pos; [|apply Rlt_le, Rinv_0_lt_compat, T].
  apply IZR_le, nearest_nonneg, Rmult_le_pos; [apply Rabs_pos|lra].
Qed.
Lemma decimals_abs y : decimals_of (Rabs y) = decimals_of y.
Proof.
  unfold decimals_of. rewrite Rabs_Rabsolu. destruct (Req_EM_T y 0) as [E|E], (Req_EM_T (Rabs y) 0) as [E'|E']; try reflexivity; exfalso.
  - apply E'. rewrite E. apply Rabs_R0.
  - now apply Rabs_no_R0 in E.
Qed.
Lemma rounded_abs y : rounded (Rabs y) = rounded y.
Proof. unfold rounded. now rewrite decimals_abs, Rabs_Rabsolu. Qed.
(** a multiple of the last decimal bounds the rounding *)
Lemma rounded_le y (N : Z) : Rabs y * 10 ^ decimals_of y <= IZR N -> rounded y <= IZR N / 10 ^ decimals_of y.
Proof.
  intros H. unfold rounded. pose proof (ten_pos (decimals_of y)) as T. apply Rmult_le_compat_r; [apply Rlt_le, Rinv_0_lt_compat, T|].
  apply IZR_le. rewrite <- (nearest_IZR N). now apply nearest_mono.
Qed.
Lemma rounded_ge y (N : Z) : IZR N <= Rabs y * 10 ^ decimals_of y -> IZR N / 10 ^ decimals_of y <= rounded y.
Proof.
  intros H. unfold rounded. pose proof (ten_pos (decimals_of y)) as T. apply Rmult_le_compat_r; [apply Rlt_le, Rinv_0_lt_compat, T|].
  apply IZR_le. rewrite <- (nearest_IZR N). now apply nearest_mono.
Qed.
Lemma decimals_cases y : 0 < y ->
  decimals_of y = 2%nat /\ 1 / 10 < y \/ decimals_of y = 3%nat /\ 1 / 100 < y <= 1 / 10 \/ decimals_of y = 4%nat /\ 1 / 1000 < y <= 1 / 100 \/
  decimals_of y = 5%nat /\ 1 / 10000 < y <= 1 / 1000 \/ decimals_of y = 6%nat /\ y <= 1 / 10000.
Proof.
  intros P. unfold decimals_of, one_if. destruct (Req_EM_T y 0) as [E|_]; [lra|]. rewrite (Rabs_right y) by lra.
  repeat (destruct (Rle_dec _ _)); try lra; cbn [Nat.add].
  - right. right. right. right. split; [reflexivity|lra].
  - right. right. right. left. split; [reflexivity|lra].
  - right. right. left. split; [reflexivity|lra].
  - right. left. split; [reflexivity|lra].
  - left. split; [reflexivity|lra].
Qed.
Lemma rounded_mono a b : 0 <= a -> a <= b -> rounded a <= rounded b.
Proof.
  intros A B. destruct (Req_EM_T a 0) as [->|N].
  { replace (rounded 0) with 0; [apply rounded_nonneg|]. unfold rounded. rewrite Rabs_R0, Rmult_0_l, nearest_IZR. unfold Rdiv. ring. }
  assert (PA : 0 < a) by lra. assert (PB : 0 < b) by lra.
  destruct (decimals_cases a PA) as [[Da Ia]|[[Da Ia]|[[Da Ia]|[[Da Ia]|[Da Ia]]]]];
  destruct (decimals_cases b PB) as [[Db Ib]|[[Db Ib]|[[Db Ib]|[[Db Ib]|[Db Ib]]]]]; try lra;
  try (unfold rounded; rewrite Da, Db, (Rabs_right a), (Rabs_right b) by lra; apply Rmult_le_compat_r; [lra|apply IZR_le, nearest_mono; lra]);
  (match goal with |- _ => idtac end);
  (let go k Na Nb := (apply Rle_trans with k;
     [apply Rle_trans with (IZR Na / 10 ^ decimals_of a); [apply rounded_le; rewrite Da, (Rabs_right a) by lra; lra|rewrite Da; lra]
     |apply Rle_trans with (IZR Nb / 10 ^ decimals_of b); [rewrite Db; lra|apply rounded_ge; rewrite Db, (Rabs_right b) by lra; lra]]) in
   first [ go (1 / 10) 100%Z 10%Z | go (1 / 10) 1000%Z 10%Z | go (1 / 10) 10000%Z 10%Z | go (1 / 10) 100000%Z 10%Z
         | go (1 / 100) 100%Z 10%Z | go (1 / 100) 1000%Z 10%Z | go (1 / 100) 10000%Z 10%Z
         | go (1 / 1000) 100%Z 10%Z | go (1 / 1000) 1000%Z 10%Z | go (1 / 10000) 100%Z 10%Z ]).
Qed.
Lemma shown_rounded x percent : shown x percent = (if Rlt_dec (printed x percent) 0 then -1 else 1) * rounded (printed x percent).
Proof. unfold shown, rounded, Rdiv. ring. Qed.
Lemma shown_mono x x' percent : x <= x' -> shown x percent <= shown x' percent.
Proof.
  intros H. assert (P : printed x percent <= printed x' percent) by (destruct percent; cbn; lra).
  rewrite !shown_rounded. set (y := printed x percent) in *. set (y' := printed x' percent) in *.
  pose proof (rounded_nonneg y). pose proof (rounded_nonneg y').
  destruct (Rlt_dec y 0) as [L|L], (Rlt_dec y' 0) as [L'|L']; try lra.
  - assert (rounded y' <= rounded y); [|lra]. rewrite <- (rounded_abs y'), <- (rounded_abs y), !Rabs_left by lra. apply rounded_mono; lra.
  - assert (rounded y <= rounded y'); [|lra]. apply rounded_mono; lra.
Qed.

(** C90: a printed measure reads back, with the number of decimals of the specification, as a number at most half a unit of its
    last decimal away, hence within five per cent unless it is below 1/100000; it has a minus sign exactly when the measure is
    negative; it reads zero exactly when the quantity printed is at most half a millionth. *)
Theorem C90_number :
  forall x percent,
    exists s v,
      format_measure (Finite x) percent = Some s /\
      read s = Some (v, decimals_of (printed x percent), percent) /\
      Rabs (printed v percent - printed x percent) <= 1 / 2 / 10 ^ decimals_of (printed x percent) /\
      (1 / 100000 <= Rabs (printed x percent) -> Rabs (v - x) <= Rabs x / 20) /\
      (prefix "-" s = true <-> x < 0) /\ 0 <= v * x /\
      (v = 0 <-> Rabs (printed x percent) <= 5 / 10000000).
Proof.
  intros x percent. destruct (read_format x percent) as (s & F & Rd). exists s. eexists. split; [exact F|]. split; [exact Rd|].
  pose proof (shown_close x percent) as C.
  assert (PE : printed (shown x percent / (if percent then 100 else 1)) percent = shown x percent) by (destruct percent; cbn; field).
  assert (Sg : (printed x percent < 0 <-> x < 0)) by (destruct percent; cbn; lra).
  rewrite PE. split; [exact C|]. split; [|split; [|split]].
  - intros L. assert (Rabs (shown x percent - printed x percent) <= Rabs (printed x percent) / 20).
    { eapply Rle_trans; [exact C|]. rewrite <- (decimals_abs (printed x percent)). set (a := Rabs (printed x percent)) in *.
      destruct (decimals_cases a) as [[D I]|[[D I]|[[D I]|[[D I]|[D I]]]]]; try lra; rewrite D; lra. }
    destruct percent; cbn [printed] in *; [|now replace (shown x false / 1) with (shown x false) by field].
    replace (shown x true / 100 - x) with ((shown x true - x * 100) / 100) by field. unfold Rdiv in *. rewrite Rabs_mult in *.
    rewrite (Rabs_right (/ 100)) by lra. rewrite (Rabs_right 100) in H by lra. lra.
  - rewrite format_eq in F. inversion F as [F']. subst s. rewrite <- Sg. unfold fixed_format.
    set (y := printed x percent). set (n := decimals_of y).
    assert (Pf : forall t, prefix "-" (fixed_point y n ++ t) = true <-> y < 0).
    { intros t. unfold fixed_point. destruct (Rlt_dec y 0) as [L|L]; [cbn; split; auto; destruct (_ ++ _)%string; reflexivity|].
      split; [|contradiction]. intros Hp. exfalso. cbn [append] in Hp.
      set (u := nearest (Rabs y * 10 ^ n)) in *.
      assert (U : (0 <= u / 10 ^ Z.of_nat n)%Z).
      { apply Z.div_pos; [apply nearest_nonneg, Rmult_le_pos; [apply Rabs_pos|apply pow_le; lra]|apply Z.pow_pos_nonneg; lia]. }
      destruct (all_digits_head (Z.to_nat (Z.log2 (u / 10 ^ Z.of_nat n))) _ U) as (d & w & Hd & E).
      unfold whole in Hp. rewrite E in Hp. cbn [append prefix] in Hp.
      destruct (ascii_dec "-" (digit d)) as [Q|Q]; [|discriminate Hp].
      pose proof (digit_not_minus d Hd) as M. rewrite <- Q in M. discriminate M. }
    destruct percent; [apply Pf|]. rewrite <- (append_nil (fixed_point _ _)). apply Pf.
  - rewrite shown_rounded. pose proof (rounded_nonneg (printed x percent)).
    destruct (Rlt_dec (printed x percent) 0) as [L|L].
    + apply Sg in L. destruct percent; cbn [printed]; [replace (-1 * rounded (x * 100) / 100 * x) with (rounded (x * 100) * (- x) / 100) by field|replace (-1 * rounded x / 1 * x) with (rounded x * (- x)) by field]; cbn [printed] in H; nra.
    + assert (0 <= x) by (apply Rnot_lt_le; intros Q; apply L, Sg, Q). destruct percent; cbn [printed] in *; unfold Rdiv; nra.
  - assert (Z0 : shown x percent / (if percent then 100 else 1) = 0 <-> rounded (printed x percent) = 0).
    { rewrite shown_rounded. destruct (Rlt_dec _ 0); destruct percent; split; intros E; try (rewrite E; field); nra. }
    rewrite Z0. rewrite <- rounded_abs. clear. set (a := Rabs (printed x percent)).
    assert (A : 0 <= a) by apply Rabs_pos. destruct (Req_EM_T a 0) as [->|N].
    { split; intros; [lra|]. unfold rounded. rewrite Rabs_R0, Rmult_0_l, nearest_IZR. unfold Rdiv. ring. }
    assert (P : 0 < a) by lra.
    assert (Big : 1 / 10000 < a -> rounded a <> 0).
    { intros B E. assert (rounded (1 / 10000) <= rounded a) by (apply rounded_mono; lra).
      destruct (decimals_cases (1 / 10000)) as [[D I]|[[D I]|[[D I]|[[D I]|[D I]]]]]; try lra.
      assert (IZR 100 / 10 ^ 6 <= rounded (1 / 10000)); [|lra]. rewrite <- D. apply rounded_ge. rewrite D, Rabs_right; lra. }
    destruct (decimals_cases a P) as [[D I]|[[D I]|[[D I]|[[D I]|[D I]]]]]; try (split; [intros E; exfalso; apply Big; [lra|exact E]|lra]).
    unfold rounded. rewrite D, (Rabs_right a) by lra. split.
    + intros E. assert (E' : IZR (nearest (a * 10 ^ 6)) = 0) by lra. pose proof (nearest_close (a * 10 ^ 6)) as Cl. rewrite E' in Cl.
      rewrite Rabs_left1 in Cl by lra. lra.
    + intros L. replace (nearest (a * 10 ^ 6)) with 0%Z; [lra|]. unfold nearest.
      replace (Int_part (a * 10 ^ 6)) with 0%Z.
      * destruct (Rlt_dec _ _); [reflexivity|]. destruct (Rlt_dec _ _); [lra|reflexivity].
      * pose proof (int_part_bounds (a * 10 ^ 6)) as [B1 B2].
        assert (Int_part (a * 10 ^ 6) < 1)%Z by (apply lt_IZR; lra). assert (-1 < Int_part (a * 10 ^ 6))%Z by (apply lt_IZR; lra). lia.
Qed.
Print Assumptions C90_number.

(** C90: printing never changes the order of two measures printed with the same unit, although their numbers of decimals differ *)
Theorem C90_order :
  forall x x' percent s s' v v' n n' p p',
    x <= x' -> format_measure (Finite x) percent = Some s -> format_measure (Finite x') percent = Some s' ->
    read s = Some (v, n, p) -> read s' = Some (v', n', p') -> v <= v'.
Proof.
  intros x x' percent s s' v v' n n' p p' H F F' Rd Rd'.
  destruct (read_format x percent) as (t & G & Rt). destruct (read_format x' percent) as (t' & G' & Rt').
  rewrite F in G. rewrite F' in G'. inversion G; subst t. inversion G'; subst t'. rewrite Rt in Rd. rewrite Rt' in Rd'.
  assert (E : v = shown x percent / (if percent then 100 else 1)) by congruence.
  assert (E' : v' = shown x' percent / (if percent then 100 else 1)) by congruence.
  pose proof (shown_mono x x' percent H). destruct percent; lra.
Qed.
Print Assumptions C90_order.

(** * Specification of the rows *)
(** the printed names *)
Definition name_of (m : measure) : string :=
  match m with
  | MEAN => "Mean" | ANNUALIZED_MEAN => "Annualized Mean" | VARIANCE => "Variance" | ANNUALIZED_VARIANCE => "Annualized Variance"
  | SEMI_VARIANCE => "Semi-Variance" | ANNUALIZED_SEMI_VARIANCE => "Annualized Semi-Variance"
  | STANDARD_DEVIATION => "Standard Deviation" | ANNUALIZED_STANDARD_DEVIATION => "Annualized Standard Deviation"
  | SEMI_DEVIATION => "Semi-Deviation" | ANNUALIZED_SEMI_DEVIATION => "Annualized Semi-Deviation"
  | MEAN_ABSOLUTE_DEVIATION => "Mean Absolute Deviation" | CVAR => "CVaR" | EVAR => "EVaR" | WORST_REALIZATION => "Worst Realization"
  | CDAR => "CDaR" | MAX_DRAWDOWN => "MAX Drawdown" | AVERAGE_DRAWDOWN => "Average Drawdown" | EDAR => "EDaR"
  | FIRST_LOWER_PARTIAL_MOMENT => "First Lower Partial Moment" | ULCER_INDEX => "Ulcer Index"
  | GINI_MEAN_DIFFERENCE => "Gini Mean Difference" | VALUE_AT_RISK => "Value at Risk" | DRAWDOWN_AT_RISK => "Drawdown at Risk"
  | ENTROPIC_RISK_MEASURE => "Entropic Risk Measure" | FOURTH_CENTRAL_MOMENT => "Fourth Central Moment"
  | FOURTH_LOWER_PARTIAL_MOMENT => "Fourth Lower Partial Moment" | SKEW => "Skew" | KURTOSIS => "Kurtosis"
  | SHARPE_RATIO => "Sharpe Ratio" | ANNUALIZED_SHARPE_RATIO => "Annualized Sharpe Ratio" | SORTINO_RATIO => "Sortino Ratio"
  | ANNUALIZED_SORTINO_RATIO => "Annualized Sortino Ratio" | MEAN_ABSOLUTE_DEVIATION_RATIO => "Mean Absolute Deviation Ratio"
  | FIRST_LOWER_PARTIAL_MOMENT_RATIO => "First Lower Partial Moment Ratio" | VALUE_AT_RISK_RATIO => "Value at Risk Ratio"
  | CVAR_RATIO => "CVaR Ratio" | ENTROPIC_RISK_MEASURE_RATIO => "Entropic Risk Measure Ratio" | EVAR_RATIO => "EVaR Ratio"
  | WORST_REALIZATION_RATIO => "Worst Realization Ratio" | DRAWDOWN_AT_RISK_RATIO => "Drawdown at Risk Ratio" | CDAR_RATIO => "CDaR Ratio"
  | CALMAR_RATIO => "Calmar Ratio" | AVERAGE_DRAWDOWN_RATIO => "Average Drawdown Ratio" | EDAR_RATIO => "EDaR Ratio"
  | ULCER_INDEX_RATIO => "Ulcer Index Ratio" | GINI_MEAN_DIFFERENCE_RATIO => "Gini Mean Difference Ratio"
  end%string.
(** the confidence level of the measure, or of the risk of the ratio *)
Definition level_of (a : attrs) (m : measure) : option R :=
  match m with
  | VALUE_AT_RISK | VALUE_AT_RISK_RATIO => Some (value_at_risk_beta a)
  | CVAR | CVAR_RATIO => Some (cvar_beta a)
  | ENTROPIC_RISK_MEASURE | ENTROPIC_RISK_MEASURE_RATIO => Some (entropic_risk_measure_beta a)
  | EVAR | EVAR_RATIO => Some (evar_beta a)
  | DRAWDOWN_AT_RISK | DRAWDOWN_AT_RISK_RATIO => Some (drawdown_at_risk_beta a)
  | CDAR | CDAR_RATIO => Some (cdar_beta a)
  | EDAR | EDAR_RATIO => Some (edar_beta a)
  | _ => None
  end.
(** row names: the name, with the confidence level rounded to a percentage *)
Definition row_name (a : attrs) (m : measure) (k : string) : Prop :=
  match level_of a m with
  | None => k = name_of m
  | Some b => exists t v, k = (name_of m ++ " at " ++ t)%string /\ read t = Some (v, 0%nat, true) /\ Rabs (v - b) <= 1 / 200
  end.
(** ratios, the entropic risk measure and the ulcer index are plain numbers, everything else a percentage *)
Definition percentage (m : measure) : bool :=
  match denominator m with Some _ => false | None => match m with ENTROPIC_RISK_MEASURE | ULCER_INDEX => false | _ => true end end.

Lemma label_name m : label m = name_of m.
Proof. destruct m; vm_compute; reflexivity. Qed.
Lemma percent_percentage m : percent m = percentage m.
Proof. destruct m; reflexivity. Qed.
Lemma key_eq p m :
  key p m = match level_of (at_ p) m with None => name_of m | Some b => (name_of m ++ " at " ++ fixed_format b 0 true)%string end.
Proof.
  unfold key. rewrite label_name.
  destruct m; cbn -[getattr_arg linked_risk_measure name_of fixed_format append];
  lazymatch goal with
  | |- context [linked_risk_measure ?m] => let r := eval vm_compute in (linked_risk_measure m) in change (linked_risk_measure m) with r; cbn -[getattr_arg name_of fixed_format append]
  | _ => idtac
  end;
  lazymatch goal with
  | |- context [getattr_arg p ?s] => let s' := eval vm_compute in s in change s with s'; unfold getattr_arg; cbn -[fixed_format]; reflexivity
  | _ => reflexivity
  end.
Qed.
(** comparison of two strings with unknown ends: false when they must differ *)
Fixpoint may_equal (a : string) (open_a : bool) (b : string) (open_b : bool) : bool :=
  match a, b with
  | EmptyString, EmptyString => true
  | EmptyString, String _ _ => open_a
  | String _ _, EmptyString => open_b
  | String x a, String y b => Ascii.eqb x y && may_equal a open_a b open_b
  end.
Lemma may_equal_sound a open_a : forall b open_b s t, (open_a = false -> s = ""%string) -> (open_b = false -> t = ""%string) ->
  (a ++ s = b ++ t)%string -> may_equal a open_a b open_b = true.
Proof.
  induction a as [|x a IH]; intros [|y b] open_b s t Hs Ht E; cbn in *; auto.
  - destruct open_a; auto. rewrite Hs in E by auto. discriminate.
  - destruct open_b; auto. rewrite Ht in E by auto. discriminate.
  - inversion E as [[E1 E2]]. rewrite Ascii.eqb_refl. eapply IH; eauto.
Qed.
Definition opened (m : measure) : string * bool :=
  match level_of attrs0 m with None => (name_of m, false) | Some _ => ((name_of m ++ " at ")%string, true) end.
Lemma key_opened p m : exists s, key p m = (fst (opened m) ++ s)%string /\ (snd (opened m) = false -> s = ""%string).
Proof.
  rewrite key_eq. unfold opened.
  destruct (level_of (at_ p) m) as [b|] eqn:E, (level_of attrs0 m) as [b'|] eqn:E';
  try (exfalso; destruct m; discriminate E || discriminate E').
  - exists (fixed_format b 0 true). cbn [fst snd]. rewrite append_assoc. split; [reflexivity|discriminate].
  - exists ""%string. cbn [fst snd]. now rewrite append_nil.
Qed.
Definition distinct_names : bool :=
  forallb (fun a => forallb (fun b => if measure_eq_dec a b then true
    else negb (may_equal (fst (opened a)) (snd (opened a)) (fst (opened b)) (snd (opened b)))) measures) measures.
Definition other_names : bool :=
  forallb (fun a => negb (may_equal (fst (opened a)) (snd (opened a)) "Effective Number of Assets" false) &&
                    negb (may_equal (fst (opened a)) (snd (opened a)) "Assets Number" false)) measures.
Lemma key_inj p q a b : key p a = key q b -> a = b.
Proof.
  intros H. destruct (measure_eq_dec a b) as [E|N]; [exact E|]. exfalso.
  destruct (key_opened p a) as (s & Ks & Hs). destruct (key_opened q b) as (t & Kt & Ht). rewrite Ks, Kt in H.
  apply (may_equal_sound _ (snd (opened a)) _ (snd (opened b)) _ _ Hs Ht) in H.
  assert (D : distinct_names = true) by (vm_compute; reflexivity). unfold distinct_names in D.
  rewrite forallb_forall in D. specialize (D a (measures_complete a)). rewrite forallb_forall in D. specialize (D b (measures_complete b)).
  destruct (measure_eq_dec a b); [contradiction|]. rewrite H in D. discriminate D.
Qed.
Lemma key_other p m : key p m <> "Effective Number of Assets"%string /\ key p m <> "Assets Number"%string.
Proof.
  destruct (key_opened p m) as (s & Ks & Hs). rewrite Ks.
  assert (D : other_names = true) by (vm_compute; reflexivity). unfold other_names in D. rewrite forallb_forall in D.
  specialize (D m (measures_complete m)). apply andb_prop in D as [D1 D2].
  split; intros H; [set (o := "Effective Number of Assets"%string) in *|set (o := "Assets Number"%string) in *];
  rewrite <- (append_nil o) in H; apply (may_equal_sound _ (snd (opened m)) _ false _ _ Hs (fun _ => eq_refl)) in H;
  [rewrite H in D1; discriminate D1|rewrite H in D2; discriminate D2].
Qed.
Lemma key_row p m : row_name (at_ p) m (key p m).
Proof.
  unfold row_name. rewrite key_eq. destruct (level_of (at_ p) m) as [b|]; [|reflexivity].
  exists (fixed_format b 0 true). eexists. split; [reflexivity|]. unfold fixed_format.
  rewrite (read_fixed _ _ "%" true) by auto. split; [reflexivity|]. cbn [pow]. set (y := b * 100).
  pose proof (nearest_close (Rabs y * 1)) as C. set (u := IZR (nearest (Rabs y * 1))) in *.
  replace b with (y / 100) by (unfold y; field).
  destruct (Rlt_dec y 0) as [L|L]; [rewrite (Rabs_left y) in C by exact L|rewrite (Rabs_right y) in C by lra];
  apply Rabs_le; revert C; unfold Rabs; destruct (Rcase_abs _); intros C; lra.
Qed.

(** the measure as a float: a number, an infinity when the risk of a ratio is zero and the excess return is not, or NaN *)
Definition mean_of (m : measure) : measure := match m with ANNUALIZED_SHARPE_RATIO | ANNUALIZED_SORTINO_RATIO => ANNUALIZED_MEAN | _ => MEAN end.
Section Values.
Variable partition : list R -> nat -> list R.
Variable sort : list R -> list R.
Variable solver : (R -> R) -> R -> R.
Definition infinite (a : attrs) (m : measure) (negative : bool) : Prop :=
  exists k mu, denominator m = Some k /\ spec_function partition sort solver a (mean_of m) = Some mu /\
    spec_function partition sort solver a k = Some 0 /\ (if negative then mu < risk_free_rate a else risk_free_rate a < mu).
Definition float_of (a : attrs) (m : measure) (x : num) : Prop :=
  match x with
  | Finite v => spec_measure partition sort solver a m = Some v
  | Infinite negative => infinite a m negative
  | NotANumber => spec_measure partition sort solver a m = None /\ forall negative, ~ infinite a m negative
  end.
(** programs: the objects after the operations, and the plain objects of the specification of C16 *)
Definition objects_after (ops : list op) : list portfolio :=
  objects (fold_left (fun h o => fst (step partition sort solver h o)) ops empty_heap).
Definition plain_after (ops : list op) : list plain := fold_left (fun st o => fst (ref_step partition sort solver st o)) ops [].

Definition float (a : attrs) (m : measure) : num :=
  match spec_measure partition sort solver a m with
  | Some v => Finite v
  | None =>
      match denominator m with
      | None => NotANumber
      | Some k => match spec_function partition sort solver a (mean_of m), spec_function partition sort solver a k with
                  | Some mu, Some _ => let e := mu - risk_free_rate a in
                                       if Rlt_dec 0 e then Infinite false else if Rlt_dec e 0 then Infinite true else NotANumber
                  | _, _ => NotANumber
                  end
      end
  end.
Lemma spec_ratio a m k : denominator m = Some k ->
  spec_measure partition sort solver a m =
  ratio (option_map (fun x => x - risk_free_rate a) (spec_function partition sort solver a (mean_of m))) (spec_function partition sort solver a k).
Proof. intros H. unfold spec_measure. rewrite H. destruct m; try discriminate H; reflexivity. Qed.
Lemma float_sound a m : float_of a m (float a m).
Proof.
  unfold float. destruct (spec_measure _ _ _ a m) as [v|] eqn:E; [exact E|].
  destruct (denominator m) as [k|] eqn:D.
  - pose proof (spec_ratio a m k D) as Q. rewrite E in Q.
    destruct (spec_function _ _ _ a (mean_of m)) as [mu|] eqn:M; cbn [option_map ratio] in Q.
    + destruct (spec_function _ _ _ a k) as [rk|] eqn:K; cbn [ratio] in Q.
      * destruct (Req_EM_T rk 0) as [->|N]; [|discriminate Q].
        destruct (Rlt_dec 0 _) as [A|A]; [|destruct (Rlt_dec _ 0) as [B|B]]; cbn [float_of].
        -- exists k, mu. repeat split; auto. lra.
        -- exists k, mu. repeat split; auto. lra.
        -- split; [exact E|]. intros neg (k' & mu' & D' & M' & K' & S'). rewrite M in M'. inversion M'; subst mu'. destruct neg; lra.
      * split; [exact E|]. intros neg (k' & mu' & D' & M' & K' & S'). congruence.
    + split; [exact E|]. intros neg (k' & mu' & D' & M' & K' & S'). congruence.
  - split; [exact E|]. intros neg (k' & mu' & D' & M' & K' & S'). congruence.
Qed.
Lemma float_infinite a m neg : infinite a m neg -> exists neg', float a m = Infinite neg'.
Proof.
  intros I. pose proof (float_sound a m) as F. destruct (float a m) as [v|neg'|] eqn:E; [|eauto|].
  - exfalso. destruct I as (k & mu & D & M & K & S). cbn in F. rewrite (spec_ratio a m k D), M, K in F. cbn in F.
    destruct (Req_EM_T 0 0); [discriminate F|auto].
  - exfalso. destruct F as [_ F]. now apply (F neg).
Qed.
Lemma as_float_eq p m : inv partition sort solver p -> as_float partition sort solver p m (spec_measure partition sort solver (at_ p) m) = float (at_ p) m.
Proof.
  intros I. unfold as_float, float. destruct (spec_measure _ _ _ (at_ p) m) as [v|]; [reflexivity|].
  destruct (class_of m) eqn:C.
  4: { rewrite (denominator_linked m C).
       destruct (denominator m) as [k|] eqn:D; [|reflexivity].
       assert (MM : (if is_annualized m then ANNUALIZED_MEAN else MEAN) = mean_of m) by (destruct m; try discriminate C; reflexivity).
       rewrite MM.
       assert (CM : class_of (mean_of m) <> Ratio) by (destruct m; discriminate).
       assert (CK : class_of k <> Ratio) by (destruct (denominator_risk m k D) as [H|H]; rewrite H; discriminate).
       destruct (read_function_spec partition sort solver p (mean_of m) I CM) as (p1 & E1 & _). rewrite E1.
       destruct (read_function_spec partition sort solver p k I CK) as (p2 & E2 & _). rewrite E2. reflexivity. }
  all: assert (D : denominator m = None) by (destruct (denominator m) eqn:D; [|reflexivity]; exfalso;
         assert (class_of m = Ratio) by (apply denominator_class; congruence); congruence); rewrite D; reflexivity.
Qed.
Lemma put_new d k v : ~ In k (map fst d) -> put d k v = d ++ [(k, v)].
Proof.
  induction d as [|[k' v'] d IH]; intros H; [reflexivity|]. cbn [put app]. cbn [map fst In] in H.
  destruct (String.eqb_spec k' k) as [E|E]; [exfalso; apply H; auto|]. f_equal. apply IH. tauto.
Qed.
Lemma key_same p p' m : at_ p' = at_ p -> key p' m = key p m.
Proof. intros E. now rewrite !key_eq, E. Qed.
(** the loop over the measures *)
Lemma loop_numbers ms : forall p d, inv partition sort solver p -> NoDup ms -> (forall m, In m ms -> ~ In (key p m) (map fst d)) ->
  exists p', loop partition sort solver false p ms d = (p', Some (d ++ map (fun m => (key p m, Number (float (at_ p) m))) ms))
    /\ inv partition sort solver p' /\ at_ p' = at_ p.
Proof.
  induction ms as [|m ms IH]; intros p d I N H; cbn [loop map].
  - exists p. rewrite app_nil_r. auto.
  - destruct (read_measure_spec partition sort solver p m I) as (p1 & E1 & I1 & S1). rewrite E1. pose proof S1 as (A1 & _).
    replace (spec_measure partition sort solver (at_ p) m) with (spec_measure partition sort solver (at_ p1) m) by now rewrite A1.
    rewrite as_float_eq by exact I1. rewrite (key_same p p1 m A1), put_new by (apply H; now left).
    inversion N as [|? ? Nm Nms]; subst.
    destruct (IH p1 (d ++ [(key p m, Number (float (at_ p1) m))]) I1 Nms) as (p2 & E2 & I2 & A2).
    + intros m' Hm'. rewrite (key_same p p1 m' A1), map_app, in_app_iff. cbn [map fst In]. intros [Q|[Q|[]]].
      * apply (H m'); [now right|exact Q].
      * apply key_inj in Q. subst m'. contradiction.
    + exists p2. rewrite E2, <- app_assoc. cbn [app]. rewrite A1. split; [|split; [exact I2|congruence]].
      do 3 f_equal. f_equal. apply map_ext. intros m'. now rewrite (key_same p p1 m' A1).
Qed.
Lemma loop_texts ms : forall p d, inv partition sort solver p -> NoDup ms -> (forall m, In m ms -> ~ In (key p m) (map fst d)) ->
  exists p', inv partition sort solver p' /\ at_ p' = at_ p /\
    ((exists m neg, In m ms /\ float (at_ p) m = Infinite neg) -> loop partition sort solver true p ms d = (p', None)) /\
    (forall t : measure -> string, (forall m, In m ms -> format_measure (float (at_ p) m) (percent m) = Some (t m)) ->
       loop partition sort solver true p ms d = (p', Some (d ++ map (fun m => (key p m, Text (t m))) ms))).
Proof.
  induction ms as [|m ms IH]; intros p d I N H; cbn [loop map].
  - exists p. split; [exact I|]. split; [reflexivity|]. split; [intros (m & neg & [] & _)|]. intros t _. now rewrite app_nil_r.
  - destruct (read_measure_spec partition sort solver p m I) as (p1 & E1 & I1 & S1). rewrite E1. pose proof S1 as (A1 & _).
    replace (spec_measure partition sort solver (at_ p) m) with (spec_measure partition sort solver (at_ p1) m) by now rewrite A1.
    rewrite as_float_eq by exact I1. rewrite A1. rewrite (key_same p p1 m A1).
    inversion N as [|? ? Nm Nms]; subst.
    destruct (format_measure (float (at_ p) m) (percent m)) as [s|] eqn:F.
    + rewrite put_new by (apply H; now left).
      destruct (IH p1 (d ++ [(key p m, Text s)]) I1 Nms) as (p2 & I2 & A2 & Bad & Good).
      { intros m' Hm'. rewrite (key_same p p1 m' A1), map_app, in_app_iff. cbn [map fst In]. intros [Q|[Q|[]]].
        * apply (H m'); [now right|exact Q].
        * apply key_inj in Q. subst m'. contradiction. }
      exists p2. split; [exact I2|]. split; [congruence|]. rewrite A1 in Bad, Good. split.
      * intros (m' & neg & [<-|Hm'] & E); [rewrite E in F; discriminate F|]. apply Bad. eauto.
      * intros t Ht. rewrite (Good t) by (intros; apply Ht; now right). assert (s = t m) by (rewrite (Ht m (or_introl eq_refl)) in F; congruence). subst s.
        rewrite <- app_assoc. cbn [app]. do 4 f_equal. apply map_ext. intros m'. now rewrite (key_same p p1 m' A1).
    + exists p1. split; [exact I1|]. split; [exact A1|]. split; [auto|]. intros t Ht. rewrite (Ht m (or_introl eq_refl)) in F. discriminate F.
Qed.
Lemma after_rel ops : (forall o, In o ops -> supported o) -> forall h st, rel partition sort solver h st ->
  rel partition sort solver (fold_left (fun h o => fst (step partition sort solver h o)) ops h) (fold_left (fun st o => fst (ref_step partition sort solver st o)) ops st).
Proof.
  induction ops as [|o ops IH]; intros Hs h st H; [exact H|]. cbn [fold_left]. apply IH; [intros; apply Hs; now right|].
  destruct (sim partition sort solver h st o H (Hs o (or_introl eq_refl))) as [H1 _]. exact H1.
Qed.
Lemma after_inv ops i p x : (forall o, In o ops -> supported o) -> nth_error (objects_after ops) i = Some p -> nth_error (plain_after ops) i = Some x ->
  inv partition sort solver p /\ at_ p = fst x.
Proof.
  intros Hs Hp Hx. assert (H : rel partition sort solver empty_heap []) by constructor.
  pose proof (rel_nth _ _ _ _ _ i (after_rel ops Hs _ _ H)) as Q. unfold objects_after in Hp. unfold plain_after in Hx. rewrite Hp, Hx in Q.
  destruct Q as (A & _ & _ & (D & _)). auto.
Qed.
Lemma measures_nodup : NoDup measures.
Proof. apply (NoDup_map_inv value). apply C17_names_consistent. Qed.
End Values.

(** C90: the summary of a portfolio, after any program that reads and assigns its attributes and those of its copies, has one row
    per measure, in the order of the enumerations and under distinct names, with the value of the measure for the current
    attributes; the printed table has the printed values when no ratio is infinite and raises an exception otherwise; taking a
    summary does not change any measure. *)
Theorem C90_rows :
  forall partition sort solver repr ops i p x weights,
    (forall o, In o ops -> supported o) ->
    nth_error (objects_after partition sort solver ops) i = Some p ->
    nth_error (plain_after partition sort solver ops) i = Some x ->
    exists (k : measure -> string) (f : measure -> num),
      (forall m, row_name (fst x) m (k m)) /\ (forall m m', k m = k m' -> m = m') /\
      (forall m, k m <> "Effective Number of Assets"%string /\ k m <> "Assets Number"%string) /\
      (forall m, float_of partition sort solver (fst x) m (f m)) /\
      snd (summary partition sort solver repr p weights false) =
        Some (map (fun m => (k m, Number (f m))) measures ++
              [("Effective Number of Assets", Number (Finite (effective_number_assets weights))); ("Assets Number", Number (Finite (INR (length weights))))]%string) /\
      ((forall m negative, ~ infinite partition sort solver (fst x) m negative) ->
         exists t : measure -> string, (forall m, format_measure (f m) (percentage m) = Some (t m)) /\
         snd (summary partition sort solver repr p weights true) =
           Some (map (fun m => (k m, Text (t m))) measures ++
                 [("Effective Number of Assets", Text (repr (effective_number_assets weights))); ("Assets Number", Text (whole (Z.of_nat (length weights))))]%string)) /\
      ((exists m negative, infinite partition sort solver (fst x) m negative) -> snd (summary partition sort solver repr p weights true) = None) /\
      (forall formatted m, snd (read_measure partition sort solver (fst (summary partition sort solver repr p weights formatted)) m)
                           = Some (spec_measure partition sort solver (fst x) m)).
Proof.
  intros P S V repr ops i p x w Hs Hp Hx. destruct (after_inv P S V ops i p x Hs Hp Hx) as [I A].
  exists (key p), (float P S V (fst x)). rewrite <- A.
  split; [apply key_row|]. split; [intros m m'; apply key_inj|]. split; [apply key_other|]. split; [apply float_sound|].
  assert (Fresh : forall m, In m measures -> ~ In (key p m) (map fst (@nil (string * cell)))) by (intros m _ []).
  destruct (loop_numbers P S V measures p [] I measures_nodup Fresh) as (p1 & E1 & I1 & A1).
  destruct (loop_texts P S V measures p [] I measures_nodup Fresh) as (p2 & I2 & A2 & Bad & Good).
  assert (New : forall (g : measure -> cell) e1 e2,
    put (put (map (fun m => (key p m, g m)) measures) "Effective Number of Assets" e1) "Assets Number" e2 =
    map (fun m => (key p m, g m)) measures ++ [("Effective Number of Assets", e1); ("Assets Number", e2)]%string).
  { intros g e1 e2. rewrite put_new, put_new.
    - now rewrite <- app_assoc.
    - rewrite map_map. cbn [fst]. intros Q. apply in_map_iff in Q as (m & E & _). destruct (key_other p m) as [K1 K2]; contradiction.
    - rewrite put_new.
      + rewrite map_app, map_map, in_app_iff. cbn [fst map In]. intros [Q|[Q|[]]]; [|discriminate Q].
        apply in_map_iff in Q as (m & E & _). destruct (key_other p m) as [K1 K2]; contradiction.
      + rewrite map_map. cbn [fst]. intros Q. apply in_map_iff in Q as (m & E & _). destruct (key_other p m) as [K1 K2]; contradiction. }
  split; [|split; [|split]].
  - unfold summary, base_summary. rewrite E1. cbn [app snd]. now rewrite New.
  - intros Hf.
    assert (T : forall m, exists s, format_measure (float P S V (at_ p) m) (percentage m) = Some s).
    { intros m. pose proof (float_sound P S V (at_ p) m) as F. destruct (float P S V (at_ p) m) as [v|neg|] eqn:E.
      - destruct (read_format v (percentage m)) as (s & Fs & _). eauto.
      - exfalso. now apply (Hf m neg).
      - now exists "nan"%string. }
    set (t := fun m => match format_measure (float P S V (at_ p) m) (percentage m) with Some s => s | None => ""%string end).
    assert (Ht : forall m, format_measure (float P S V (at_ p) m) (percentage m) = Some (t m)).
    { intros m. unfold t. destruct (T m) as [s Es]. now rewrite Es. }
    exists t. split; [exact Ht|]. unfold summary, base_summary.
    rewrite (Good t) by (intros m _; rewrite percent_percentage; apply Ht). cbn [app snd]. now rewrite New.
  - intros (m & neg & Hi). destruct (float_infinite P S V (at_ p) m neg Hi) as [neg' E].
    unfold summary, base_summary. rewrite Bad; [reflexivity|]. exists m, neg'. split; [apply measures_complete|exact E].
  - assert (Q : forall p' m, inv P S V p' -> at_ p' = at_ p -> snd (read_measure P S V p' m) = Some (spec_measure P S V (at_ p) m)).
    { intros p' m I' A'. destruct (read_measure_spec P S V p' m I') as (q & E & _). rewrite E. cbn [snd]. now rewrite A'. }
    intros formatted m. unfold summary, base_summary. destruct formatted; [|rewrite E1; cbn [fst]; auto].
    pose proof (fun m => float_sound P S V (at_ p) m) as F.
    assert (Dec : (exists m neg, In m measures /\ float P S V (at_ p) m = Infinite neg) \/ (forall m, In m measures -> forall neg, float P S V (at_ p) m <> Infinite neg)).
    { generalize measures. intros l. induction l as [|a l IH]; [right; intros ? []|].
      destruct (float P S V (at_ p) a) as [v|neg|] eqn:E; [|left; exists a, neg; split; [now left|exact E]|];
      (destruct IH as [(m' & neg & Hm & E')|IH]; [left; exists m', neg; split; [now right|exact E']|right; intros m' [<-|Hm] neg; [congruence|now apply IH]]). }
    destruct Dec as [Dec|Dec]; [rewrite (Bad Dec); cbn [fst]; auto|].
    assert (Ht : exists t : measure -> string, forall m, In m measures -> format_measure (float P S V (at_ p) m) (percent m) = Some (t m)).
    { exists (fun m => match format_measure (float P S V (at_ p) m) (percent m) with Some s => s | None => ""%string end). intros m' Hm.
      destruct (float P S V (at_ p) m') as [v|neg|] eqn:E.
      - destruct (read_format v (percent m')) as (s & Fs & _). now rewrite Fs.
      - exfalso. now apply (Dec m' Hm neg).
      - reflexivity. }
    destruct Ht as [t Ht]. rewrite (Good t Ht). cbn [fst]. auto.
Qed.
Print Assumptions C90_rows.

(** without a loss every drawdown is zero *)
Lemma no_drawdown_sum l : forall acc, (forall x, In x l -> 0 <= x) ->
  map (fun p => fst p - snd p) (combine (MeasuresModel.scan Rplus acc l) (MeasuresModel.scan Rmax acc (MeasuresModel.scan Rplus acc l))) = repeat 0 (length l).
Proof.
  induction l as [|x l IH]; intros acc H; [reflexivity|]. cbn [MeasuresModel.scan combine map length repeat fst snd].
  assert (0 <= x) by (apply H; now left). rewrite Rmax_right by lra. f_equal; [lra|]. apply IH. intros; apply H; now right.
Qed.
Lemma no_drawdown_product l : forall acc, 0 < acc -> (forall x, In x l -> 0 <= x) ->
  let c := map (fun x => 1000 * x) (MeasuresModel.scan Rmult acc (map (fun x => 1 + x) l)) in
  map (fun p => fst p / snd p - 1) (combine c (MeasuresModel.scan Rmax (1000 * acc) c)) = repeat 0 (length l).
Proof.
  induction l as [|x l IH]; intros acc A H c; [reflexivity|]. unfold c. cbn [MeasuresModel.scan combine map length repeat fst snd].
  assert (0 <= x) by (apply H; now left). assert (acc <= acc * (1 + x)) by nra. rewrite Rmax_right by lra. f_equal; [field; lra|].
  apply IH; [lra|]. intros; apply H; now right.
Qed.
Lemma no_drawdown r comp : (forall x, In x r -> 0 <= x) -> get_drawdowns r comp = repeat 0 (length r).
Proof.
  intros H. destruct r as [|x r]; [destruct comp; reflexivity|]. assert (0 <= x) by (apply H; now left).
  assert (Hr : forall y, In y r -> 0 <= y) by (intros; apply H; now right).
  unfold get_drawdowns, get_cumulative_returns. destruct comp; cbn [map accumulate combine fst snd length repeat].
  - f_equal; [field; lra|]. apply no_drawdown_product; [lra|exact Hr].
  - f_equal; [lra|]. apply no_drawdown_sum, Hr.
Qed.
Lemma ulcer_zero n : ulcer_index (repeat 0 n) = 0.
Proof.
  unfold ulcer_index. replace (sum_over (repeat 0 n) (fun x => x ^ 2)) with 0.
  - unfold Rdiv. rewrite Rmult_0_l. apply sqrt_0.
  - unfold sum_over, rsum. induction n as [|n IH]; cbn in *; [reflexivity|]. rewrite <- IH. ring.
Qed.
(** a portfolio without a single loss whose mean is not the risk-free rate cannot be summarised: its ratio to the ulcer index is
    infinite and optimal_rounding_decimals fails on it *)
Theorem C90_winning_refuted :
  forall partition sort solver repr a weights,
    returns a <> [] -> (forall x, In x (returns a) -> 0 <= x) -> mean (returns a) <> risk_free_rate a ->
    snd (summary partition sort solver repr (new_portfolio a 0) weights true) = None.
Proof.
  intros P S V repr a w Hne Hpos Hm.
  destruct (C90_rows P S V repr [New a []] 0 (new_portfolio a 0) (a, []) w) as (k & f & _ & _ & _ & _ & _ & _ & Bad & _).
  - intros o [<-|[]]. exact I.
  - reflexivity.
  - reflexivity.
  - apply Bad. exists ULCER_INDEX_RATIO.
    assert (L : need 1 (returns a) (mean (returns a)) = Some (mean (returns a))) by (unfold need; destruct (returns a); [contradiction|reflexivity]).
    assert (U : spec_function P S V a ULCER_INDEX = Some 0).
    { cbn [spec_function]. rewrite (no_drawdown _ _ Hpos), ulcer_zero. unfold need. rewrite repeat_length. destruct (returns a); [contradiction|reflexivity]. }
    destruct (Rlt_dec (mean (returns a)) (risk_free_rate a)) as [Lt|Lt]; [exists true|exists false];
    exists ULCER_INDEX, (mean (returns a)); (split; [reflexivity|]); (split; [exact L|]); (split; [exact U|]); cbn [fst]; lra.
Qed.
Print Assumptions C90_winning_refuted.

Lemma int_part_unique x n : IZR n <= x < IZR n + 1 -> Int_part x = n.
Proof.
  intros [A B]. pose proof (int_part_bounds x) as [C D].
  assert (Int_part x < n + 1)%Z by (apply lt_IZR; rewrite plus_IZR; lra). assert (n < Int_part x + 1)%Z by (apply lt_IZR; rewrite plus_IZR; lra). lia.
Qed.
(** the level in the name of a row is rounded to a percentage: at the usual level 0.975 the row reads 98%, as it does at 0.98 *)
Theorem C90_level_refuted :
  forall p, cvar_beta (at_ p) = 975 / 1000 -> key p CVAR = "CVaR at 98%"%string.
Proof.
  intros p H. rewrite key_eq. cbn [level_of]. rewrite H. unfold fixed_format, fixed_point.
  replace (975 / 1000 * 100) with (975 / 10) by lra. rewrite Rabs_right by lra. cbn [pow].
  assert (N : nearest (975 / 10 * 1) = 98%Z).
  { unfold nearest. rewrite (int_part_unique _ 97) by lra. destruct (Rlt_dec _ _); [lra|]. destruct (Rlt_dec _ _); reflexivity. }
  rewrite N. destruct (Rlt_dec _ 0); [lra|]. vm_compute. reflexivity.
Qed.
Print Assumptions C90_level_refuted.

(** two printed measures, a row name after a program, the hypotheses of C90_winning_refuted, and a portfolio with a gain and a loss
    of which no ratio is infinite *)
Definition balanced : attrs := store (store_factor attrs0 252) (Set_returns [-1; 1]).
Example C90_applies :
  format_measure (Finite (-(12345 / 1000000))) true = Some "-1.23%"%string /\
  format_measure (Finite (3 / 10000)) false = Some "0.00030"%string /\
  (exists p x, nth_error (objects_after (fun l _ => l) (fun l => l) (fun _ y => y) [New attrs0 [MEAN]; Copy 0; Assign 1 (Set_cvar_beta (975 / 1000))]) 1 = Some p /\
     nth_error (plain_after (fun l _ => l) (fun l => l) (fun _ y => y) [New attrs0 [MEAN]; Copy 0; Assign 1 (Set_cvar_beta (975 / 1000))]) 1 = Some x /\
     key p CVAR = "CVaR at 98%"%string) /\
  (returns attrs0 <> [] /\ (forall x, In x (returns attrs0) -> 0 <= x) /\ mean (returns attrs0) <> risk_free_rate attrs0) /\
  (forall partition sort solver m negative, ~ infinite partition sort solver balanced m negative).
Proof.
  split; [|split; [|split; [|split]]].
  - rewrite format_eq. cbn [printed].
    assert (D : decimals_of (- (12345 / 1000000) * 100) = 2%nat).
    { rewrite <- decimals_abs, Rabs_left by lra. destruct (decimals_cases (- (- (12345 / 1000000) * 100))) as [[D I]|[[D I]|[[D I]|[[D I]|[D I]]]]]; lra || exact D. }
    rewrite D. unfold fixed_format, fixed_point. rewrite Rabs_left by lra. destruct (Rlt_dec _ 0); [|lra].
    assert (N : nearest (- (- (12345 / 1000000) * 100) * 10 ^ 2) = 123%Z).
    { unfold nearest. rewrite (int_part_unique _ 123) by lra. destruct (Rlt_dec _ _); [reflexivity|lra]. }
    rewrite N. vm_compute. reflexivity.
  - rewrite format_eq. cbn [printed].
    assert (D : decimals_of (3 / 10000) = 5%nat).
    { destruct (decimals_cases (3 / 10000)) as [[D I]|[[D I]|[[D I]|[[D I]|[D I]]]]]; lra || exact D. }
    rewrite D. unfold fixed_format, fixed_point. rewrite Rabs_right by lra. destruct (Rlt_dec _ 0); [lra|].
    replace (3 / 10000 * 10 ^ 5) with 30 by lra. rewrite nearest_IZR. vm_compute. reflexivity.
  - eexists. eexists. split; [reflexivity|]. split; [reflexivity|]. apply C90_level_refuted. reflexivity.
  - cbn. split; [discriminate|]. split; [intros x [<-|[<-|[]]]; lra|]. unfold mean, rsum. cbn. lra.
  - intros P S V m neg (k & mu & D & M & _ & Sg).
    assert (mu = 0).
    { destruct m; try discriminate D; cbn [mean_of spec_function] in M; unfold need in M; cbn -[mean] in M; inversion M; unfold mean, rsum, len; cbn; lra. }
    subst mu. destruct neg; cbn in Sg; lra.
Qed.
