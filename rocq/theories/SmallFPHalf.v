(** Proofs about the half-precision conversions. *)
From Coq Require Import ZArith Bool Reals Lia Lra.
From Flocq Require Import Core BinarySingleNaN Binary Bits.
From Verif Require Import SmallFPModel SmallFPSpec SmallFPBase SmallFPProofs.
Open Scope Z_scope.

(** ** Bit operations on words *)
Lemma land_pow_small k N : 0 <= k -> 0 <= N < 2 ^ k -> Z.land (2 ^ k) N = 0.
Proof.
  intros Hk HN. apply Z.bits_inj'. intros n Hn. rewrite Z.land_spec, Z.bits_0, Z.pow2_bits_eqb by lia.
  destruct (Z.eqb_spec k n) as [<-|]; [|reflexivity]. cbn [andb].
  destruct (Z.eq_dec N 0) as [->|]; [apply Z.bits_0|]. apply Z.bits_above_log2; [lia|]. apply Z.log2_lt_pow2; lia.
Qed.
Lemma sign_bits k (s : bool) N : 0 <= k -> 0 <= N < 2 ^ k ->
  Z.land ((if s then 2 ^ k else 0) + N) (2 ^ k) = (if s then 2 ^ k else 0) /\
  Z.lxor ((if s then 2 ^ k else 0) + N) (if s then 2 ^ k else 0) = N /\
  Z.lor N (if s then 2 ^ k else 0) = (if s then 2 ^ k else 0) + N.
Proof.
  intros Hk HN. pose proof (land_pow_small k N Hk HN) as L. destruct s.
  - rewrite Z.add_nocarry_lxor by auto.
    assert (E : Z.lxor (2 ^ k) N = Z.lor (2 ^ k) N).
    { apply Z.lxor_lor. auto. }
    split; [|split].
    + rewrite E, Z.land_lor_distr_l, Z.land_diag, (Z.land_comm N), L, Z.lor_0_r. reflexivity.
    + rewrite (Z.lxor_comm (2 ^ k)), Z.lxor_assoc, Z.lxor_nilpotent, Z.lxor_0_r. reflexivity.
    + rewrite Z.lor_comm. symmetry. exact E.
  - rewrite !Z.add_0_l, Z.lxor_0_r, Z.lor_0_r. rewrite Z.land_comm. auto.
Qed.
Lemma lor_fields k a c M : 0 <= k -> 0 <= M < 2 ^ k -> Z.lor (a * 2 ^ k + M) (c * 2 ^ k) = Z.lor a c * 2 ^ k + M.
Proof.
  intros Hk HM.
  assert (A : forall x, x * 2 ^ k + M = Z.lor (Z.shiftl x k) M).
  { intros x. rewrite <- Z.shiftl_mul_pow2 by lia.
    assert (L : Z.land (Z.shiftl x k) M = 0).
    { apply Z.bits_inj'. intros n Hn. rewrite Z.land_spec, Z.bits_0. destruct (Z.lt_ge_cases n k).
      - rewrite Z.shiftl_spec_low by lia. reflexivity.
      - destruct (Z.eq_dec M 0) as [->|]; [rewrite Z.bits_0; apply andb_false_r|].
        rewrite (Z.bits_above_log2 M n); [apply andb_false_r|lia|]. apply Z.lt_le_trans with k; [apply Z.log2_lt_pow2; lia|lia]. }
    rewrite Z.add_nocarry_lxor by auto. apply Z.lxor_lor. auto. }
  rewrite !A. rewrite <- (Z.shiftl_mul_pow2 c) by lia. rewrite <- Z.lor_assoc, (Z.lor_comm M), Z.lor_assoc, <- Z.shiftl_lor. reflexivity.
Qed.

(** ** Multiplication by a power of two *)
Definition pow_word (E : Z) : Z := w32 false (E * 2 ^ 23).
Lemma pow_word_val E : 1 <= E <= 254 -> is_finite 24 128 (b32_of_bits (pow_word E)) = true /\
  Bsign 24 128 (b32_of_bits (pow_word E)) = false /\ B2R 24 128 (b32_of_bits (pow_word E)) = bpow radix2 (E - 127).
Proof.
  intros H. destruct (b32_finite false (E * 2 ^ 23) ltac:(change (2 ^ 23) with 8388608; lia)) as (F1 & _ & F3 & F4).
  unfold pow_word. split; [auto|split; [auto|]]. rewrite F4. unfold signed.
  replace (E * 2 ^ 23) with (E * 2 ^ 23 + 0) by lia. rewrite mag_val_split by lia. rewrite Z.add_0_l, (IZR_Zpower radix2) by lia.
  rewrite <- bpow_plus. f_equal. lia.
Qed.
Lemma fmul_pow f E s r N : 1 <= E <= 254 -> is_finite 24 128 f = true -> Bsign 24 128 f = s -> B2R 24 128 f = signed s r ->
  round radix2 (FLT_exp (-149) 24) ZnearestE (r * bpow radix2 (E - 127)) = mag_val 23 (-149) N -> 0 <= N < 2139095040 ->
  let p := fmul f (b32_of_bits (pow_word E)) in
  is_finite 24 128 p = true /\ Bsign 24 128 p = s /\ B2R 24 128 p = signed s (mag_val 23 (-149) N) /\ bits_of_b32 p = w32 s N.
Proof.
  intros HE Hf Hs Hv HR HN p. destruct (pow_word_val E HE) as (P1 & P2 & P3).
  unfold p, fmul, b32_mult.
  set (y := b32_of_bits (pow_word E)) in *.
  pose proof (Bmult_correct 24 128 eq_refl eq_refl binop_nan_pl32 mode_NE f y) as C.
  change (SpecFloat.fexp 24 128) with (FLT_exp (-149) 24) in C. cbn [round_mode] in C.
  assert (R : round radix2 (FLT_exp (-149) 24) ZnearestE (B2R 24 128 f * B2R 24 128 y) = signed s (mag_val 23 (-149) N)).
  { rewrite Hv, P3. rewrite <- HR. rewrite <- round_signed by (apply FLT_exp_valid; reflexivity). f_equal. destruct s; unfold signed; ring. }
  rewrite R in C. rewrite Rabs_signed in C by (apply mag_val_pos; lia).
  rewrite Rlt_bool_true in C. 2:{ exact (mag_val_lt 23 (-149) N 255 ltac:(lia) ltac:(lia) ltac:(change (2 ^ 23) with 8388608; lia)). }
  rewrite Hf, P1, Hs, P2 in C. destruct C as (C1 & C2 & C3). cbn [andb] in C2. rewrite xorb_false_r in C3.
  change (Bmult 24 128 eq_refl eq_refl binop_nan_pl32 mode_NE f y) with (b32_mult mode_NE f y) in *.
  assert (NN : is_nan 24 128 (b32_mult mode_NE f y) = false) by (destruct (b32_mult mode_NE f y); [reflexivity|reflexivity|discriminate C2|reflexivity]).
  specialize (C3 NN). split; [exact C2|split; [exact C3|split; [exact C1|]]]. apply b32_encode; auto.
Qed.
Lemma mag_val_format N : 0 <= N < 2139095040 -> generic_format radix2 (FLT_exp (-149) 24) (mag_val 23 (-149) N).
Proof.
  intros H. destruct (b32_finite false N H) as (_ & _ & _ & F4). unfold signed in F4. rewrite <- F4. apply (generic_format_B2R 24 128).
Qed.
Lemma round_exact N : 0 <= N < 2139095040 -> round radix2 (FLT_exp (-149) 24) ZnearestE (mag_val 23 (-149) N) = mag_val 23 (-149) N.
Proof. intros H. apply round_generic; [apply valid_rnd_N|]. apply mag_val_format; auto. Qed.

(** ** half -> float *)
Notation w16 := (word 10 5).
Lemma w16_eq s N : w16 s N = (if s then 2 ^ 15 else 0) + N.
Proof. reflexivity. Qed.
Lemma w32_eq s N : w32 s N = (if s then 2 ^ 31 else 0) + N.
Proof. reflexivity. Qed.
(** The exact product: the value of the half, for any exponent field. *)
Lemma half_scale N : 0 <= N < 32768 ->
  exists N', mag_val 23 (-149) N' = mag_val 10 (-24) N /\ 0 <= N' < 144 * 2 ^ 23 /\
    (N * 2 ^ 13 + 112 * 2 ^ 23 = N' \/ N < 1024).
Proof.
  intros HN. assert (EW : mag_val 10 (-24) N = mag_val 23 (-37) (N * 2 ^ 13)) by (symmetry; exact (mag_val_widen 10 (-37) 13 N ltac:(lia) ltac:(lia) ltac:(lia))).
  destruct (Z.lt_ge_cases N 1024) as [L|L].
  - (* subnormal: N * 2^-24, normalised *)
    destruct (Z.eq_dec N 0) as [->|N0].
    { exists 0. rewrite !mag_val_0 by lia. split; [reflexivity|split; [split; [lia|reflexivity]|right; lia]]. }
    pose proof (Z.log2_spec N ltac:(lia)) as [B1 B2]. set (k := Z.log2 N) in *.
    assert (Hk : 0 <= k < 10) by (split; [apply Z.log2_nonneg|apply Z.log2_lt_pow2; lia]).
    assert (EN : N * 2 ^ (23 - k) = 2 ^ 23 + (N - 2 ^ k) * 2 ^ (23 - k)).
    { replace (2 ^ 23) with (2 ^ k * 2 ^ (23 - k)) by (rewrite <- Z.pow_add_r by lia; f_equal; lia). ring. }
    assert (BN : 0 <= (N - 2 ^ k) * 2 ^ (23 - k) < 2 ^ 23).
    { replace (2 ^ 23) with (2 ^ k * 2 ^ (23 - k)) by (rewrite <- Z.pow_add_r by lia; f_equal; lia).
      pose proof (pow2_pos (23 - k) ltac:(lia)). rewrite Z.pow_succ_r in B2 by lia. nia. }
    exists ((103 + k) * 2 ^ 23 + (N - 2 ^ k) * 2 ^ (23 - k)). split; [|split; [|right; auto]].
    + rewrite mag_val_split by lia. rewrite mag_val_small by (change (2 ^ 10) with 1024; lia).
      replace ((N - 2 ^ k) * 2 ^ (23 - k) + 2 ^ 23) with (N * 2 ^ (23 - k)) by lia. rewrite mult_IZR, (IZR_Zpower radix2) by lia.
      rewrite Rmult_assoc, <- bpow_plus. f_equal. f_equal. lia.
    + change (2 ^ 23) with 8388608 in *. lia.
  - exists (N * 2 ^ 13 + 112 * 2 ^ 23). split; [|split; [|left; reflexivity]].
    + rewrite EW. rewrite mag_val_shift by (change (2 ^ 23) with (1024 * 2 ^ 13); lia). reflexivity.
    + change (2 ^ 23) with 8388608. change (2 ^ 13) with 8192. lia.
Qed.
Lemma f16_to_f32_words s N : 0 <= N < 32768 -> exists N', f16_to_f32 (w16 s N) = (if N <? 31744 then w32 s N' else w32 s (N * 2 ^ 13 + 224 * 2 ^ 23)) /\
  0 <= N' < 144 * 2 ^ 23 /\ mag_val 23 (-149) N' = mag_val 10 (-24) N.
Proof.
  intros HN. destruct (half_scale N HN) as (N' & V & B & C). exists N'. split; [|auto].
  unfold f16_to_f32. cbv zeta.
  change (Z.shiftl (2 * f32_exp_bias - f16_exp_bias) f32_sig_bits) with (pow_word 239).
  change f16_sign with (2 ^ 15). destruct (sign_bits 15 s N ltac:(lia) HN) as (S1 & S2 & _).
  rewrite w16_eq, S1, S2. change f16_inf with 31744. change sig_diff with 13. change bit_diff with 16.
  assert (EB : Z.lor (u32 (Z.shiftl (if s then 2 ^ 15 else 0) 16)) (u32 (Z.shiftl N 13)) = w32 s (N * 2 ^ 13)).
  { unfold u32. rewrite !Z.shiftl_mul_pow2 by lia. rewrite (Z.mod_small (N * 2 ^ 13)) by (change (2 ^ 13) with 8192; change (2 ^ 32) with 4294967296; lia).
    rewrite Z.lor_comm. replace ((if s then 2 ^ 15 else 0) * 2 ^ 16 mod 2 ^ 32) with (if s then 2 ^ 31 else 0) by (destruct s; reflexivity).
    rewrite w32_eq. apply sign_bits; [lia|]. change (2 ^ 13) with 8192. change (2 ^ 31) with 2147483648. lia. }
  rewrite EB. 
  destruct (b32_finite s (N * 2 ^ 13) ltac:(change (2 ^ 13) with 8192; lia)) as (F1 & _ & F3 & F4).
  assert (EM : (mag_val 23 (-149) (N * 2 ^ 13) * bpow radix2 (239 - 127) = mag_val 23 (-149) N')%R).
  { rewrite mag_val_mul, V. exact (mag_val_widen 10 (-37) 13 N ltac:(lia) ltac:(lia) ltac:(lia)). }
  assert (BN : 0 <= N' < 2139095040) by (change (2 ^ 23) with 8388608 in B; lia).
  destruct (fmul_pow (b32_of_bits (w32 s (N * 2 ^ 13))) 239 s _ N' ltac:(lia) F1 F3 F4) as (_ & _ & _ & M4); auto.
  { rewrite EM. apply round_exact; auto. }
  rewrite M4. destruct (Z.ltb_spec N 31744) as [L|L]; [apply Z.lor_0_r|].
  destruct C as [C|C]; [|lia]. rewrite <- C, !w32_eq. change f32_inf with (255 * 2 ^ 23).
  replace ((if s then 2 ^ 31 else 0) + (N * 2 ^ 13 + 112 * 2 ^ 23)) with (((if s then 256 else 0) + 143) * 2 ^ 23 + (N - 31744) * 2 ^ 13) by (change (2 ^ 23) with 8388608; change (2 ^ 13) with 8192; change (2 ^ 31) with 2147483648; destruct s; lia).
  rewrite lor_fields by (try lia; change (2 ^ 23) with 8388608; change (2 ^ 13) with 8192; lia).
  replace (Z.lor ((if s then 256 else 0) + 143) 255) with ((if s then 256 else 0) + 255) by (destruct s; reflexivity).
  change (2 ^ 23) with 8388608; change (2 ^ 13) with 8192; change (2 ^ 31) with 2147483648; destruct s; lia.
Qed.
Lemma half_finite s N : 0 <= N < 31744 -> is_finite 11 16 (half_of_bits (w16 s N)) = true /\ is_nan 11 16 (half_of_bits (w16 s N)) = false /\
  Bsign 11 16 (half_of_bits (w16 s N)) = s /\ B2R 11 16 (half_of_bits (w16 s N)) = signed s (mag_val 10 (-24) N).
Proof. intros H. exact (decode_finite 10 5 eq_refl eq_refl eq_refl s N H). Qed.
Lemma half_inf s : half_of_bits (w16 s 31744) = B754_infinity 11 16 s.
Proof. exact (decode_inf 10 5 eq_refl eq_refl eq_refl s). Qed.
Lemma half_nan s N : 31744 < N < 32768 -> is_nan 11 16 (half_of_bits (w16 s N)) = true /\ Bsign 11 16 (half_of_bits (w16 s N)) = s.
Proof. intros H. exact (decode_nan 10 5 eq_refl eq_refl eq_refl s N H). Qed.
Theorem f16_to_f32_ok h : 0 <= h < 2 ^ 16 -> 0 <= f16_to_f32 h < 2 ^ 32 /\ same_number (half_of_bits h) (b32_of_bits (f16_to_f32 h)).
Proof.
  intros Hh. destruct (word_cases 10 5 eq_refl eq_refl h Hh) as (s & N & -> & HN). change (2 ^ (10 + 5)) with 32768 in HN.
  destruct (f16_to_f32_words s N HN) as (N' & E & B & V). change (144 * 2 ^ 23) with 1207959552 in B.
  change (N * 2 ^ 13 + 224 * 2 ^ 23) with (N * 8192 + 1879048192) in E. rewrite E. 
  split. { destruct (N <? 31744); rewrite w32_eq; change (2 ^ 31) with 2147483648; change (2 ^ 32) with 4294967296; destruct s; lia. }
  destruct (Z.ltb_spec N 31744) as [L|L].
  - destruct (half_finite s N ltac:(lia)) as (D1 & _ & D3 & D4). destruct (b32_finite s N' ltac:(lia)) as (F1 & _ & F3 & F4).
    split; [congruence|]. rewrite V, <- D4 in F4. destruct (half_of_bits (w16 s N)); try discriminate; auto.
  - destruct (Z.eq_dec N 31744) as [->|Hne].
    + rewrite half_inf. change (31744 * 8192 + 1879048192) with 2139095040. rewrite b32_inf. split; reflexivity.
    + destruct (half_nan s N ltac:(lia)) as [D1 D2]. destruct (b32_nan s (N * 8192 + 1879048192) ltac:(lia)) as [F1 F2].
      split; [congruence|]. destruct (half_of_bits (w16 s N)); try discriminate; auto.
Qed.

(** ** float -> half *)
Lemma sub_round N : 0 <= N < 113 * 2 ^ 23 -> exists k, 0 <= k <= 1024 /\
  nearest_even 11 16 (mag_val 23 (-149) N) = mag_val 10 (-24) k /\
  round radix2 (FLT_exp (-149) 24) ZnearestE (mag_val 23 (-149) N * bpow radix2 (2 - 127)) = mag_val 23 (-149) k.
Proof.
  intros HN. set (x := mag_val 23 (-149) N). assert (X0 : (0 <= x)%R) by (apply mag_val_pos; lia).
  assert (X1 : (x < bpow radix2 (-14))%R) by (exact (mag_val_lt 23 (-149) N 113 ltac:(lia) ltac:(lia) HN)).
  exists (ZnearestE (x * bpow radix2 24)).
  assert (K : 0 <= ZnearestE (x * bpow radix2 24) <= 1024).
  { split.
    - rewrite <- (Zrnd_IZR ZnearestE 0). apply (Zrnd_le ZnearestE). apply Rmult_le_pos; [auto|apply bpow_ge_0].
    - rewrite <- (Zrnd_IZR ZnearestE 1024). apply (Zrnd_le ZnearestE).
      apply Rle_trans with (bpow radix2 (-14) * bpow radix2 24)%R; [apply Rmult_le_compat_r; [apply bpow_ge_0|lra]|].
      rewrite <- bpow_plus. change (bpow radix2 (-14 + 24)) with 1024%R. lra. }
  split; [exact K|]. set (k := ZnearestE (x * bpow radix2 24)) in *. split.
  - replace k with (0 * 2 ^ 10 + k) by lia. rewrite mag_val_carry by (change (2 ^ 10) with 1024; lia). cbn [Z.eqb].
    unfold nearest_even. change (3 - 16 - 11) with (-24).
    destruct (Req_dec x 0) as [E0|N0].
    { rewrite E0, round_0 by apply valid_rnd_N. unfold k. rewrite E0, Rmult_0_l, (Zrnd_IZR ZnearestE 0). ring. }
    assert (C : cexp radix2 (FLT_exp (-24) 11) x = -24).
    { unfold cexp, FLT_exp. assert (mag radix2 x <= -14); [|lia]. apply mag_le_bpow; [auto|]. rewrite Rabs_pos_eq; auto. }
    unfold round, scaled_mantissa. rewrite C. reflexivity.
  - replace k with (0 * 2 ^ 23 + k) by lia. rewrite mag_val_carry by (change (2 ^ 23) with 8388608; lia). cbn [Z.eqb].
    destruct (Req_dec x 0) as [E0|N0].
    { rewrite E0, Rmult_0_l, round_0 by apply valid_rnd_N. unfold k. rewrite E0, Rmult_0_l, (Zrnd_IZR ZnearestE 0). ring. }
    assert (C : cexp radix2 (FLT_exp (-149) 24) (x * bpow radix2 (2 - 127)) = -149).
    { unfold cexp, FLT_exp. rewrite mag_mult_bpow by auto. assert (mag radix2 x <= -14); [|lia]. apply mag_le_bpow; [auto|]. rewrite Rabs_pos_eq; auto. }
    unfold round, scaled_mantissa. rewrite C. rewrite Rmult_assoc, <- bpow_plus. reflexivity.
Qed.
Definition half_word (N : Z) (k : Z) : Z :=
  if 2139095040 <? N then 32256 else Z.min 31744 k.
Lemma f32_to_f16_words s N : 0 <= N < 2147483648 -> exists h, 0 <= h /\ f32_to_f16 (w32 s N) = w16 s (half_word N h) /\
  (N = 2139095040 -> 31744 <= h) /\
  (N < 2139095040 -> nearest_even 11 16 (mag_val 23 (-149) N) = mag_val 10 (-24) h).
Proof.
  intros HN. unfold f32_to_f16. cbv zeta. change f32_sign with (2 ^ 31).
  destruct (sign_bits 31 s N ltac:(lia) HN) as (S1 & S2 & _). rewrite w32_eq, S1, S2.
  change (Z.shiftl (f16_exp_bias - sig_diff) f32_sig_bits) with (pow_word 2).
  change (Z.shiftl (f32_exp_bias + sig_diff) f32_sig_bits) with (pow_word 140).
  change (Z.shiftl f16_exp_bias f32_sig_bits) with (pow_word 15).
  change (Z.shiftl (f32_exp_bias - f16_exp_bias + 1) f32_sig_bits) with 947912704. change f32_inf with 2139095040. change f16_inf with 31744. change f16_qnan with 32256.
  change sig_diff with 13. change bit_diff with 16. change (Z.shiftl 1 (13 - 1) - 1) with 4095.
  set (nrm := bits_of_b32 (fmul (b32_of_bits N) (b32_of_bits (pow_word 15)))).
  set (sbn := bits_of_b32 (fmul (fmul (b32_of_bits N) (b32_of_bits (pow_word 2))) (b32_of_bits (pow_word 140)))).
  set (rnd := u32 (u32 (nrm + Z.land (Z.shiftr nrm 13) 1) + 4095)).
  set (k := Z.shiftr (if N <? 947912704 then sbn else rnd) 13).
  assert (HW : N = w32 false N) by (rewrite w32_eq; lia).
  exists (if 2139095040 <? N then 0 else k).
  assert (FIN : forall j, 0 <= j < 32768 -> u16 (Z.lor j (Z.shiftr (if s then 2 ^ 31 else 0) 16)) = w16 s j).
  { intros j Hj. rewrite Z.shiftr_div_pow2 by lia. replace ((if s then 2 ^ 31 else 0) / 2 ^ 16) with (if s then 2 ^ 15 else 0) by (destruct s; reflexivity).
    rewrite (proj2 (proj2 (sign_bits 15 s j ltac:(lia) Hj))). unfold u16. rewrite Z.mod_small; [reflexivity|]. change (2 ^ 15) with 32768. change (2 ^ 16) with 65536. destruct s; lia. }
  unfold half_word. destruct (Z.ltb_spec 2139095040 N) as [LN|LN].
  { rewrite FIN by lia. split; [lia|split; [reflexivity|split; lia]]. }
  assert (K : 0 <= k /\ (N = 2139095040 -> 31744 <= k) /\ (N < 2139095040 -> nearest_even 11 16 (mag_val 23 (-149) N) = mag_val 10 (-24) k)).
  { unfold k. destruct (Z.ltb_spec N 947912704) as [L|L].
    - destruct (sub_round N ltac:(change (2 ^ 23) with 8388608; lia)) as (j & J1 & J2 & J3).
      destruct (b32_finite false N ltac:(lia)) as (F1 & _ & F3 & F4). rewrite <- HW in F1, F3, F4.
      destruct (fmul_pow (b32_of_bits N) 2 false _ j ltac:(lia) F1 F3 F4 J3 ltac:(lia)) as (G1 & G2 & G3 & _).
      assert (E13 : (mag_val 23 (-149) j * bpow radix2 (140 - 127) = mag_val 23 (-149) (j * 2 ^ 13))%R).
      { replace j with (0 * 2 ^ 23 + j) at 1 by lia. replace (j * 2 ^ 13) with (0 * 2 ^ 23 + j * 2 ^ 13) by lia. rewrite !mag_val_carry by (change (2 ^ 23) with 8388608; change (2 ^ 13) with 8192; lia). cbn [Z.eqb].
        rewrite mult_IZR. change (IZR (2 ^ 13)) with (bpow radix2 13). change (140 - 127) with 13. ring. }
      assert (BJ : 0 <= j * 2 ^ 13 < 2139095040) by (change (2 ^ 13) with 8192; lia).
      destruct (fmul_pow _ 140 false _ (j * 2 ^ 13) ltac:(lia) G1 G2 G3) as (_ & _ & _ & H4); [rewrite E13; apply round_exact; auto|auto|].
      assert (ES : sbn = j * 2 ^ 13) by (unfold sbn; rewrite H4, w32_eq; lia). rewrite ES, Z.shiftr_div_pow2, Z.div_mul by lia.
      split; [lia|split; [lia|auto]].
    - assert (BR : forall n, 0 <= n < 2 ^ 31 -> nrm = n -> Z.shiftr rnd 13 = rne 13 n).
      { intros n Bn En. unfold rnd. rewrite En. change 1 with (Z.ones 1). rewrite Z.land_ones, Z.shiftr_div_pow2, Z.shiftr_div_pow2 by lia. change (2 ^ 1) with 2.
        pose proof (Z.mod_pos_bound (n / 2 ^ 13) 2 ltac:(lia)). unfold u32. change (2 ^ 32) with 4294967296. change (2 ^ 31) with 2147483648 in Bn.
        rewrite (Z.mod_small (n + _)), (Z.mod_small (n + _ + _)) by lia. reflexivity. }
      destruct (Z.eq_dec N 2139095040) as [->|Hne].
      + assert (EI : nrm = 2139095040).
        { unfold nrm. rewrite HW, b32_inf. destruct (pow_word_val 15 ltac:(lia)) as (P1 & P2 & P3). unfold fmul, b32_mult.
          destruct (b32_of_bits (pow_word 15)) as [z| | |z m e b] eqn:EP; try discriminate.
          cbn in P2. subst z. reflexivity. }
        rewrite (BR 2139095040) by (auto; lia). change (rne 13 2139095040) with 261120. split; [lia|split; lia].
      + destruct (b32_finite false N ltac:(lia)) as (F1 & _ & F3 & F4). rewrite <- HW in F1, F3, F4.
        set (n := N - 112 * 2 ^ 23). assert (EN : mag_val 23 (-149) N = mag_val 23 (-37) n).
        { replace N with (n + 112 * 2 ^ 23) by (unfold n; lia). apply (mag_val_shift 23 (-149) 112 n); [lia|lia|]. unfold n. change (2 ^ 23) with 8388608. lia. }
        assert (Bn : 0 <= n < 2139095040) by (unfold n; change (2 ^ 23) with 8388608; lia).
        assert (EV : (mag_val 23 (-149) N * bpow radix2 (15 - 127) = mag_val 23 (-149) n)%R) by (rewrite EN, mag_val_mul; reflexivity).
        destruct (fmul_pow (b32_of_bits N) 15 false _ n ltac:(lia) F1 F3 F4) as (_ & _ & _ & H4); [rewrite EV; apply round_exact; auto|auto|].
        rewrite (BR n) by (try (change (2 ^ 31) with 2147483648; lia); unfold nrm; rewrite H4, w32_eq; lia).
        split; [|split; [lia|]].
        * apply (rne_range 13 n (n / 2 ^ 13 + 1)); [lia|lia|]. pose proof (Z.div_mod n (2 ^ 13) ltac:(lia)). pose proof (Z.mod_pos_bound n (2 ^ 13) ltac:(lia)). lia.
        * intros _. rewrite EN. exact (round_mag_val 23 (-37) 13 n ltac:(lia) ltac:(lia) ltac:(lia)). }
  destruct K as (K0 & K1 & K2). split; [exact K0|]. split; [|split; [exact K1|exact K2]].
  rewrite <- FIN by lia. f_equal. f_equal. destruct (Z.ltb_spec 31744 k); lia.
Qed.
Theorem f32_to_f16_ok f : 0 <= f < 2 ^ 32 -> 0 <= f32_to_f16 f < 2 ^ 16 /\ converts_to (b32_of_bits f) (half_of_bits (f32_to_f16 f)).
Proof.
  intros Hf. destruct (w32_cases f Hf) as (s & N & -> & HN). destruct (f32_to_f16_words s N HN) as (h & H0 & E & H1 & H2). rewrite E.
  split. { rewrite w16_eq. change (2 ^ 15) with 32768. change (2 ^ 16) with 65536. unfold half_word. destruct (_ <? _); destruct s; lia. }
  unfold half_word. destruct (Z.ltb_spec 2139095040 N) as [L|L].
  - destruct (b32_nan s N ltac:(lia)) as [N1 N2]. apply (converts_nan 10 5 eq_refl eq_refl eq_refl); auto. split; reflexivity.
  - destruct (Z.eq_dec N 2139095040) as [->|Hne].
    + rewrite b32_inf, Z.min_l by auto. apply (converts_inf 10 5).
    + destruct (b32_finite s N ltac:(lia)) as (F1 & _ & F3 & F4).
      apply (converts_finite 10 5 eq_refl eq_refl eq_refl 24 128 _ s (mag_val 23 (-149) N)); auto. apply H2. lia.
Qed.
