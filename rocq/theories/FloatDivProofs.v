(** Correctness of integer division through binary64. *)
From Coq Require Import ZArith Bool Reals Lia Lra.
From Flocq Require Import Core BinarySingleNaN Relative.
From Verif Require Import FloatDivModel.
Open Scope Z_scope.

Notation fexp64 := (SpecFloat.fexp 53 1024).
Notation RN := (round radix2 fexp64 ZnearestE).

Lemma fexp_FLT : fexp64 = FLT_exp (-1074) 53.
Proof. reflexivity. Qed.

Lemma int_format z : Z.abs z <= 2 ^ 53 -> generic_format radix2 fexp64 (IZR z).
Proof.
  intros H. rewrite fexp_FLT. destruct (Z.eq_dec (Z.abs z) (2 ^ 53)) as [E|N].
  - apply generic_format_abs_inv. rewrite <- abs_IZR, E. change (IZR (2 ^ 53)) with (IZR (Zpower radix2 53)).
    rewrite IZR_Zpower by lia. apply generic_format_bpow. unfold FLT_exp. lia.
  - apply generic_format_FLT. apply (FLT_spec radix2 (-1074) 53 (IZR z) (Float radix2 z 0)).
    + unfold F2R. simpl. ring.
    + simpl. lia.
    + simpl. lia.
Qed.

Lemma IZR_pow n : 0 <= n -> IZR (2 ^ n) = bpow radix2 n.
Proof. intros. change (2 ^ n) with (Zpower radix2 n). apply IZR_Zpower; auto. Qed.

Lemma bpow_big z : Z.abs z <= 2 ^ 53 -> (Rabs (IZR z) < bpow radix2 1024)%R.
Proof.
  intros H. rewrite <- abs_IZR. apply Rle_lt_trans with (IZR (2 ^ 53)); [now apply IZR_le|].
  rewrite IZR_pow by lia. apply bpow_lt. lia.
Qed.

Lemma of_int_exact z : Z.abs z <= 2 ^ 53 -> B2R (of_int z) = IZR z /\ is_finite (of_int z) = true.
Proof.
  intros H. pose proof (binary_normalize_correct 53 1024 _ _ mode_NE z 0 false) as C. cbv zeta in C.
  replace (F2R (Float radix2 z 0)) with (IZR z) in C by (unfold F2R; simpl; ring).
  change (round_mode mode_NE) with ZnearestE in C. rewrite round_generic in C; [|apply valid_rnd_N|now apply int_format].
  rewrite Rlt_bool_true in C by now apply bpow_big. destruct C as (C1 & C2 & _). split; auto.
Qed.

Lemma floor_ge m e : 0 <= e -> Zfloor (F2R (Float radix2 m e)) = m * 2 ^ e.
Proof. intros H. unfold F2R. simpl. rewrite <- IZR_pow, <- mult_IZR by auto. apply Zfloor_IZR. Qed.
Lemma floor_lt m e : e < 0 -> Zfloor (F2R (Float radix2 m e)) = m / 2 ^ (- e).
Proof.
  intros H. unfold F2R. simpl. replace e with (- (- e)) at 1 by lia. rewrite bpow_opp, <- IZR_pow by lia.
  apply Zfloor_div. pose proof (Z.pow_pos_nonneg 2 (-e)). lia.
Qed.
Lemma signed_cond (s : bool) m : (if s then Zneg m else Zpos m) = cond_Zopp s (Zpos m).
Proof. destruct s; reflexivity. Qed.

Lemma floor_int_spec (f : b64) : is_finite f = true -> floor_int f = int64_range (Zfloor (B2R f)).
Proof.
  destruct f as [s|s| |s m e B]; try discriminate; intros _; cbn [floor_int].
  - simpl. rewrite Zfloor_IZR. reflexivity.
  - cbn [B2R]. rewrite signed_cond. destruct (Z.leb_spec 0 e); [rewrite floor_ge|rewrite floor_lt]; auto.
Qed.
Lemma ceil_int_spec (f : b64) : is_finite f = true -> ceil_int f = int64_range (Zceil (B2R f)).
Proof.
  destruct f as [s|s| |s m e B]; try discriminate; intros _; cbn [ceil_int].
  - simpl. rewrite Zceil_IZR. reflexivity.
  - cbn [B2R]. rewrite signed_cond. unfold Zceil. rewrite <- F2R_Zopp.
    destruct (Z.leb_spec 0 e); [rewrite floor_ge by auto|rewrite floor_lt by auto]; auto. f_equal. ring.
Qed.

Section Div.
Variables a b : Z.
Hypothesis Ha : Z.abs a < 2 ^ 53.
Hypothesis Hb : Z.abs b <= 2 ^ 53.
Hypothesis Hb0 : b <> 0.
Let x := (IZR a / IZR b)%R.

Lemma b_nz : IZR b <> 0%R. Proof. now apply not_0_IZR. Qed.

Lemma x_bounds : (IZR (a / b) <= x < IZR (a / b + 1))%R.
Proof.
  rewrite plus_IZR. unfold x. rewrite <- Zfloor_div by auto.
  pose proof (Zfloor_lb (IZR a / IZR b)). pose proof (Zfloor_ub (IZR a / IZR b)). simpl. lra.
Qed.

Lemma q_bounds : Z.abs (a / b) <= 2 ^ 53 /\ Z.abs (a / b + 1) <= 2 ^ 53.
Proof.
  destruct (Z_lt_le_dec 0 b).
  - pose proof (Z.mul_div_le a b l). pose proof (Z.mul_succ_div_gt a b l). nia.
  - pose proof (Z.mul_div_ge a b ltac:(lia)). pose proof (Z.mul_succ_div_lt a b ltac:(lia)). nia.
Qed.

Lemma round_bounds : (IZR (a / b) <= RN x <= IZR (a / b + 1))%R.
Proof.
  pose proof x_bounds as [L U]. pose proof q_bounds as [Q1 Q2]. split.
  - rewrite <- (round_generic radix2 fexp64 ZnearestE (IZR (a / b))) by now apply int_format.
    apply round_le; auto. apply FLT_exp_valid. reflexivity. apply valid_rnd_N.
  - rewrite <- (round_generic radix2 fexp64 ZnearestE (IZR (a / b + 1))) by now apply int_format.
    apply round_le; auto; [apply FLT_exp_valid; reflexivity|apply valid_rnd_N|lra].
Qed.

(** the rounded quotient is an integer only if the exact one is *)
Lemma round_not_int k : a <> k * b -> RN x <> IZR k.
Proof.
  intros NE E. assert (A0 : a <> 0 \/ a = 0) by lia. destruct A0 as [A0|A0].
  2:{ unfold x in E. rewrite A0 in E. replace (0 / IZR b)%R with 0%R in E by (field; apply b_nz). rewrite round_0 in E by apply valid_rnd_N.
      apply (eq_IZR 0) in E. subst k. lia. }
  assert (BP : (0 < Rabs (IZR b))%R) by (apply Rabs_pos_lt, b_nz).
  assert (N1 : (bpow radix2 (-1074 + 53 - 1) <= Rabs x)%R).
  { unfold x. unfold Rdiv. rewrite Rabs_mult, Rabs_inv. 
    apply Rle_trans with (/ IZR (2 ^ 53))%R.
    - rewrite IZR_pow by lia. rewrite <- bpow_opp. apply bpow_le. lia.
    - rewrite <- (Rmult_1_l (/ IZR (2 ^ 53))). apply Rmult_le_compat; try lra.
      + rewrite <- abs_IZR. apply IZR_le. lia.
      + apply Rinv_le; auto. rewrite <- abs_IZR. now apply IZR_le. }
  pose proof (relative_error_N_FLT radix2 (-1074) 53 ltac:(reflexivity) (fun z => negb (Z.even z)) x N1) as RE.
  change (FLT_exp (-1074) 53) with fexp64 in RE. change (Znearest (fun z => negb (Z.even z))) with ZnearestE in RE.
  rewrite E in RE.
  assert (R1 : (Rabs (IZR k - x) * Rabs (IZR b) = IZR (Z.abs (k * b - a)))%R).
  { rewrite <- Rabs_mult, abs_IZR, minus_IZR, mult_IZR. f_equal. unfold x. field. apply b_nz. }
  assert (R2 : (Rabs x * Rabs (IZR b) = IZR (Z.abs a))%R).
  { rewrite <- Rabs_mult, abs_IZR. f_equal. unfold x. field. apply b_nz. }
  assert (R3 : (IZR (Z.abs (k * b - a)) <= / 2 * bpow radix2 (-53 + 1) * IZR (Z.abs a))%R).
  { rewrite <- R1, <- R2, <- Rmult_assoc. apply Rmult_le_compat_r; [lra|]. auto. }
  assert (R4 : (1 <= IZR (Z.abs (k * b - a)))%R) by (apply IZR_le; lia).
  assert (R5 : (IZR (Z.abs a) < IZR (2 ^ 53))%R) by (apply IZR_lt; lia).
  assert (R6 : (/ 2 * bpow radix2 (-53 + 1) * IZR (2 ^ 53) = 1)%R).
  { rewrite IZR_pow by lia. change (/ 2)%R with (bpow radix2 (-1)). rewrite <- !bpow_plus. reflexivity. }
  assert (R7 : (0 < / 2 * bpow radix2 (-53 + 1))%R) by (pose proof (bpow_gt_0 radix2 (-53 + 1)); lra).
  pose proof (Rmult_lt_compat_l _ _ _ R7 R5). lra.
Qed.

Lemma exact_case : a = (a / b) * b -> RN x = IZR (a / b).
Proof.
  intros E. replace x with (IZR (a / b)).
  - apply round_generic; [apply valid_rnd_N|]. apply int_format. apply q_bounds.
  - unfold x. rewrite E at 2. rewrite mult_IZR. field. apply b_nz.
Qed.

Lemma floor_round : Zfloor (RN x) = a / b.
Proof.
  destruct (Z.eq_dec a ((a / b) * b)) as [E|N].
  - rewrite exact_case by auto. apply Zfloor_IZR.
  - apply Zfloor_imp. pose proof round_bounds as [L U]. split; auto.
    assert (RN x <> IZR (a / b + 1)). { apply round_not_int. pose proof (Z.mod_eq a b Hb0).
      destruct (Z_lt_le_dec 0 b); [pose proof (Z.mod_pos_bound a b)|pose proof (Z.mod_neg_bound a b)]; nia. }
    lra.
Qed.
Lemma ceil_round : Zceil (RN x) = - ((- a) / b).
Proof.
  destruct (Z.eq_dec a ((a / b) * b)) as [E|N].
  - rewrite exact_case by auto. rewrite Zceil_IZR.
    rewrite Z.div_opp_l_z; auto; [ring|]. rewrite Z.mod_eq by auto. lia.
  - rewrite Z.div_opp_l_nz; auto; [|rewrite Z.mod_eq by auto; lia].
    replace (- (- (a / b) - 1)) with (a / b + 1) by ring.
    apply Zceil_imp. pose proof round_bounds as [L U]. rewrite Z.add_simpl_r.
    assert (RN x <> IZR (a / b)) by (apply round_not_int; auto). lra.
Qed.

Lemma div_exact : B2R (Bdiv mode_NE (of_int a) (of_int b)) = RN x /\ is_finite (Bdiv mode_NE (of_int a) (of_int b)) = true.
Proof.
  destruct (of_int_exact a) as [A1 A2]; [lia|]. destruct (of_int_exact b) as [B1 B2]; auto.
  pose proof (Bdiv_correct 53 1024 _ _ mode_NE (of_int a) (of_int b)) as C. rewrite A1, B1 in C. specialize (C b_nz).
  change (round_mode mode_NE) with ZnearestE in C. fold x in C.
  rewrite Rlt_bool_true in C.
  - destruct C as (C1 & C2 & _). split; auto. now rewrite C2.
  - pose proof round_bounds as [L U]. pose proof q_bounds as [Q1 Q2].
    apply bpow_big in Q1, Q2. apply Rabs_def2 in Q1, Q2. apply Rabs_def1; lra.
Qed.

Lemma range_ok z : Z.abs z <= 2 ^ 53 -> int64_range z = Some z.
Proof.
  intros H. unfold int64_range. destruct (Z.leb_spec (- 2 ^ 63) z); [|lia]. destruct (Z.ltb_spec z (2 ^ 63)); [reflexivity|lia].
Qed.

Theorem lit_floorDiv_correct : lit_floorDiv a b = Some (a / b).
Proof.
  unfold lit_floorDiv. destruct div_exact as [E F]. rewrite floor_int_spec by auto. rewrite E, floor_round.
  apply range_ok. apply q_bounds.
Qed.
Theorem lit_ceilDiv_correct : lit_ceilDiv a b = Some (- ((- a) / b)).
Proof.
  unfold lit_ceilDiv. destruct div_exact as [E F]. rewrite ceil_int_spec by auto. rewrite E, ceil_round.
  apply range_ok. pose proof q_bounds.
  destruct (Z.eq_dec (a mod b) 0) as [Z|N]; [rewrite Z.div_opp_l_z|rewrite Z.div_opp_l_nz]; auto; lia.
Qed.
End Div.
