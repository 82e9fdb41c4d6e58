(** C24 (bfloat16), C25 (half precision), C26 (double to half). *)
From Coq Require Import ZArith Bool Reals Lia Lra.
From Flocq Require Import Core BinarySingleNaN Binary Bits.
From Verif Require Import SmallFPModel SmallFPSpec SmallFPBase SmallFPProofs SmallFPHalf.
Open Scope Z_scope.

(** ** C24 *)
Theorem C24_f32_to_bf16 : forall f, 0 <= f < 2 ^ 32 ->
  0 <= f32_to_bf16 f < 2 ^ 16 /\ converts_to (b32_of_bits f) (bfloat16_of_bits (f32_to_bf16 f)).
Proof. exact f32_to_bf16_ok. Qed.
Theorem C24_bf16_to_f32 : forall h, 0 <= h < 2 ^ 16 ->
  0 <= bf16_to_f32 h < 2 ^ 32 /\ same_number (bfloat16_of_bits h) (b32_of_bits (bf16_to_f32 h)).
Proof. exact bf16_to_f32_ok. Qed.
(** Every bfloat16 survives, NaN payloads included. *)
Theorem C24_round_trip : forall h, 0 <= h < 2 ^ 16 -> f32_to_bf16 (bf16_to_f32 h) = h.
Proof.
  intros h Hh. destruct (word_cases 7 8 eq_refl eq_refl h Hh) as (s & N & -> & HN). change (2 ^ (7 + 8)) with 32768 in HN.
  assert (E : bf16_to_f32 (word 7 8 s N) = w32 s (N * 65536)).
  { unfold bf16_to_f32, u32. rewrite Z.shiftl_mul_pow2 by lia. rewrite word78. unfold word. change (2 ^ 16) with 65536. change (2 ^ 32) with 4294967296. change (2 ^ (23 + 8)) with 2147483648.
    destruct s; rewrite Z.mod_small; lia. }
  rewrite E, bf16_words by lia. cbv zeta.
  assert (R : rne 16 (N * 65536) = N).
  { rewrite rne_spec by lia. cbv zeta. change (2 ^ 16) with 65536. rewrite Z.mod_mul, Z.div_mul by lia. reflexivity. }
  rewrite R. destruct (u16_word s N HN) as [U1 U2]. rewrite U1, word78, U2, <- word78.
  destruct (Z.eqb_spec N 32640) as [->|]; [|destruct (Z.eqb_spec N 0) as [->|]].
  - replace (32640 * 65536) with 2139095040 by reflexivity. rewrite b32_inf. reflexivity.
  - rewrite (proj1 (proj2 (b32_finite s (0 * 65536) ltac:(lia)))). reflexivity.
  - reflexivity.
Qed.
(** Non-vacuity: ties to even both ways, overflow, subnormals, NaN. *)
Example C24_ex : f32_to_bf16 1065385984 = 16256 /\ f32_to_bf16 1065451520 = 16258 /\ f32_to_bf16 2139095039 = 32640 /\
  f32_to_bf16 4286578689 = 65472 /\ f32_to_bf16 1 = 0 /\ f32_to_bf16 98304 = 2 /\ f32_to_bf16 2147483647 = 32767.
Proof. repeat split; vm_compute; reflexivity. Qed.

(** ** C25 *)
Theorem C25_f32_to_f16 : forall f, 0 <= f < 2 ^ 32 ->
  0 <= f32_to_f16 f < 2 ^ 16 /\ converts_to (b32_of_bits f) (half_of_bits (f32_to_f16 f)).
Proof. exact f32_to_f16_ok. Qed.
Theorem C25_f16_to_f32 : forall h, 0 <= h < 2 ^ 16 ->
  0 <= f16_to_f32 h < 2 ^ 32 /\ same_number (half_of_bits h) (b32_of_bits (f16_to_f32 h)).
Proof. exact f16_to_f32_ok. Qed.
Lemma half_bits_inj u v : 0 <= u < 2 ^ 16 -> 0 <= v < 2 ^ 16 -> half_of_bits u = half_of_bits v -> u = v.
Proof. intros Hu Hv. exact (bits_inj 10 5 eq_refl eq_refl eq_refl u v Hu Hv). Qed.
Lemma back_and_forth (h h' : half) (f : binary32) : is_nan 11 16 h = false -> same_number h f -> converts_to f h' -> h' = h.
Proof.
  intros Hn [S1 S2] [C1 C2].
  assert (Fin : is_finite 11 16 h = true -> h' = h).
  { intros Hf.
    assert (S : is_finite 24 128 f = true /\ B2R 24 128 f = B2R 11 16 h) by (destruct h; try discriminate; exact S2). destruct S as [F1 F2].
    assert (R : nearest_even 11 16 (B2R 24 128 f) = B2R 11 16 h).
    { rewrite F2. unfold nearest_even. apply round_generic; [apply valid_rnd_N|]. apply (generic_format_B2R 11 16). }
    assert (C3 : if Rlt_bool (Rabs (nearest_even 11 16 (B2R 24 128 f))) (bpow radix2 16) then is_finite 11 16 h' = true /\ B2R 11 16 h' = nearest_even 11 16 (B2R 24 128 f) else h' = B754_infinity 11 16 (Bsign 24 128 f)) by (destruct f; try discriminate F1; exact C2).
    rewrite R in C3. rewrite Rlt_bool_true in C3 by apply abs_B2R_lt_emax. destruct C3 as [G1 G2].
    apply B2R_Bsign_inj; auto. rewrite C1. exact S1. }
  destruct h as [s|s|s pl b|s m e b]; try discriminate.
  - apply Fin. reflexivity.
  - subst f. exact C2.
  - apply Fin. reflexivity.
Qed.
Theorem C25_round_trip : forall h, 0 <= h < 2 ^ 16 -> is_nan 11 16 (half_of_bits h) = false -> f32_to_f16 (f16_to_f32 h) = h.
Proof.
  intros h Hh Hn. destruct (f16_to_f32_ok h Hh) as [R1 S]. destruct (f32_to_f16_ok _ R1) as [R2 C].
  apply half_bits_inj; auto. exact (back_and_forth _ _ _ Hn S C).
Qed.
Example C25_ex : f32_to_f16 1199566848 = 31744 /\ f32_to_f16 1199566847 = 31743 /\ f32_to_f16 855638016 = 0 /\ f32_to_f16 855638017 = 1 /\
  f32_to_f16 947912703 = 1024 /\ f32_to_f16 1065357312 = 15360 /\ f32_to_f16 1065365504 = 15362 /\ f32_to_f16 4286578689 = 65024 /\
  f16_to_f32 1 = 864026624 /\ f16_to_f32 33791 = 3095379968.
Proof. repeat split; vm_compute; reflexivity. Qed.

(** ** C26 *)
Lemma bits64_range f : 0 <= bits_of_b32 f < 2 ^ 32.
Proof. exact (bits_of_binary_float_range 23 8 eq_refl eq_refl f). Qed.
Lemma double_to_float_ok d : converts_to d (double_to_float d).
Proof.
  destruct d as [s|s|s pl b|s m e b].
  - split; [reflexivity|]. cbn [B2R]. unfold nearest_even. cbv zeta. rewrite round_0 by apply valid_rnd_N. rewrite Rabs_R0, Rlt_bool_true by apply bpow_gt_0. split; reflexivity.
  - split; reflexivity.
  - split; reflexivity.
  - unfold double_to_float. set (z := if s then Z.neg m else Z.pos m).
    pose proof (binary_normalize_correct 24 128 eq_refl eq_refl mode_NE z e s) as C.
    set (y := binary_normalize 24 128 (eq_refl : Prec_gt_0 24) (eq_refl : Prec_lt_emax 24 128) mode_NE z e s) in *.
    change (binary_normalize 24 128 eq_refl eq_refl mode_NE z e s) with y in C. change (SpecFloat.fexp 24 128) with (FLT_exp (3 - 128 - 24) 24) in C. cbn [round_mode] in C.
    assert (EV : B2R 53 1024 (B754_finite 53 1024 s m e b) = F2R (Float radix2 z e)) by (unfold z; destruct s; reflexivity).
    assert (SG : match Rcompare (F2R (Float radix2 z e)) 0 with Eq => s | Lt => true | Gt => false end = s).
    { unfold z. destruct s; [rewrite Rcompare_Lt; [reflexivity|apply F2R_lt_0; reflexivity]|rewrite Rcompare_Gt; [reflexivity|apply F2R_gt_0; reflexivity]]. }
    assert (SL : Rlt_bool (F2R (Float radix2 z e)) 0 = s).
    { unfold z. destruct s; [apply Rlt_bool_true, F2R_lt_0; reflexivity|apply Rlt_bool_false, Rlt_le, F2R_gt_0; reflexivity]. }
    unfold converts_to, nearest_even. rewrite EV. cbv zeta. change (Bsign 53 1024 (B754_finite 53 1024 s m e b)) with s.
    destruct (Rlt_bool (Rabs _) _).
    + destruct C as (C1 & C2 & C3). rewrite SG in C3. split; [exact C3|split; [exact C2|exact C1]].
    + rewrite SL in C. assert (Ey : y = B754_infinity 24 128 s) by (apply B2FF_inj; rewrite C; reflexivity). rewrite Ey. split; reflexivity.
Qed.
(** The helper rounds twice: to float, then to half. *)
Theorem C26_rounds_twice : forall d, 0 <= d < 2 ^ 64 -> 0 <= truncdfhf2 d < 2 ^ 16 /\
  exists f : binary32, converts_to (b64_of_bits d) f /\ converts_to f (half_of_bits (truncdfhf2 d)).
Proof.
  intros d _. unfold truncdfhf2. set (f := double_to_float (b64_of_bits d)).
  destruct (f32_to_f16_ok _ (bits64_range f)) as [R C]. split; [exact R|]. exists f. split; [apply double_to_float_ok|].
  replace (b32_of_bits (bits_of_b32 f)) with f in C by (symmetry; exact (binary_float_of_bits_of_binary_float 23 8 eq_refl eq_refl eq_refl f)). exact C.
Qed.
(** It is a correct conversion of every double that is a float. *)
Definition is_float (d : binary64) : Prop := exists f : binary32, same_number d f.
Theorem C26_floats_exact : forall d, 0 <= d < 2 ^ 64 -> is_float (b64_of_bits d) -> is_nan 53 1024 (b64_of_bits d) = false ->
  converts_to (b64_of_bits d) (half_of_bits (truncdfhf2 d)).
Proof.
  intros d Hd (g & SG) Hn. destruct (C26_rounds_twice d Hd) as (_ & f & C1 & C2). set (D := b64_of_bits d) in *.
  assert (E : f = g).
  { destruct SG as [S1 S2], C1 as [T1 T2].
    assert (Fin : is_finite 53 1024 D = true -> f = g).
    { intros Hf. assert (S : is_finite 24 128 g = true /\ B2R 24 128 g = B2R 53 1024 D) by (destruct D; try discriminate; exact S2). destruct S as [G1 G2].
      assert (R : nearest_even 24 128 (B2R 53 1024 D) = B2R 24 128 g) by (rewrite <- G2; apply round_generic; [apply valid_rnd_N|apply (generic_format_B2R 24 128)]).
      assert (T3 : if Rlt_bool (Rabs (nearest_even 24 128 (B2R 53 1024 D))) (bpow radix2 128) then is_finite 24 128 f = true /\ B2R 24 128 f = nearest_even 24 128 (B2R 53 1024 D) else f = B754_infinity 24 128 (Bsign 53 1024 D)) by (destruct D; try discriminate Hf; exact T2).
      rewrite R in T3. rewrite Rlt_bool_true in T3 by apply abs_B2R_lt_emax. destruct T3 as [T4 T5]. apply B2R_Bsign_inj; auto; congruence. }
    destruct D; try discriminate; [apply Fin; reflexivity|congruence|apply Fin; reflexivity]. }
  subst g. destruct SG as [S1 S2], C2 as [U1 U2]. split; [congruence|].
  destruct D as [s|s| |s m e b] eqn:ED; try discriminate.
  - destruct S2 as [S2 S3]. destruct f; try discriminate; cbv zeta in U2 |- *; rewrite <- S3, <- S1; exact U2.
  - subst f. exact U2.
  - destruct S2 as [S2 S3]. destruct f; try discriminate; cbv zeta in U2 |- *; rewrite <- S3, <- S1; exact U2.
Qed.
(** In general it is only faithful: a finite result lies between the largest half below
    and the smallest half above the argument. *)
Theorem C26_faithful : forall d, 0 <= d < 2 ^ 64 -> is_finite 53 1024 (b64_of_bits d) = true -> is_finite 11 16 (half_of_bits (truncdfhf2 d)) = true ->
  let x := B2R 53 1024 (b64_of_bits d) in let y := B2R 11 16 (half_of_bits (truncdfhf2 d)) in
  (round radix2 (FLT_exp (-24) 11) Zfloor x <= y <= round radix2 (FLT_exp (-24) 11) Zceil x)%R.
Proof.
  intros d Hd Hf Hh x y. destruct (C26_rounds_twice d Hd) as (_ & f & [T1 T2] & [U1 U2]). set (D := b64_of_bits d) in *. set (H := half_of_bits (truncdfhf2 d)) in *.
  assert (T3 : if Rlt_bool (Rabs (nearest_even 24 128 x)) (bpow radix2 128) then is_finite 24 128 f = true /\ B2R 24 128 f = nearest_even 24 128 x else f = B754_infinity 24 128 (Bsign 53 1024 D)) by (unfold x; destruct D; try discriminate Hf; exact T2).
  destruct (Rlt_bool (Rabs (nearest_even 24 128 x)) (bpow radix2 128)).
  2:{ subst f. cbn in U2. rewrite U2 in Hh. discriminate. }
  destruct T3 as [F1 F2].
  assert (U3 : if Rlt_bool (Rabs (nearest_even 11 16 (B2R 24 128 f))) (bpow radix2 16) then is_finite 11 16 H = true /\ B2R 11 16 H = nearest_even 11 16 (B2R 24 128 f) else H = B754_infinity 11 16 (Bsign 24 128 f)) by (destruct f; try discriminate F1; exact U2).
  destruct (Rlt_bool (Rabs (nearest_even 11 16 (B2R 24 128 f))) (bpow radix2 16)).
  2:{ rewrite U3 in Hh. discriminate. }
  destruct U3 as [_ U4]. unfold y. rewrite U4, F2. unfold nearest_even. change (3 - 16 - 11) with (-24). change (3 - 128 - 24) with (-149).
  assert (V11 : Valid_exp (FLT_exp (-24) 11)) by (apply FLT_exp_valid; reflexivity).
  assert (V24 : Valid_exp (FLT_exp (-149) 24)) by (apply FLT_exp_valid; reflexivity).
  assert (INC : forall z, generic_format radix2 (FLT_exp (-24) 11) z -> generic_format radix2 (FLT_exp (-149) 24) z).
  { intros z. apply generic_inclusion_mag. intros _. unfold FLT_exp. lia. }
  split.
  - set (z := round radix2 (FLT_exp (-24) 11) Zfloor x).
    assert (G : generic_format radix2 (FLT_exp (-24) 11) z) by (apply generic_format_round; auto with typeclass_instances).
    rewrite <- (round_generic radix2 (FLT_exp (-24) 11) ZnearestE z G). apply round_le; auto with typeclass_instances.
    rewrite <- (round_generic radix2 (FLT_exp (-149) 24) ZnearestE z (INC z G)). apply round_le; auto with typeclass_instances.
    apply (round_DN_pt radix2 (FLT_exp (-24) 11) x).
  - set (z := round radix2 (FLT_exp (-24) 11) Zceil x).
    assert (G : generic_format radix2 (FLT_exp (-24) 11) z) by (apply generic_format_round; auto with typeclass_instances).
    rewrite <- (round_generic radix2 (FLT_exp (-24) 11) ZnearestE z G). apply round_le; auto with typeclass_instances.
    rewrite <- (round_generic radix2 (FLT_exp (-149) 24) ZnearestE z (INC z G)). apply round_le; auto with typeclass_instances.
    apply (round_UP_pt radix2 (FLT_exp (-24) 11) x).
Qed.
(** The double 1 + 2^-11 + 2^-40 is nearer to 1 + 2^-10 but becomes 1. *)
Theorem C26_nearest_refuted : exists d, 0 <= d < 2 ^ 64 /\ ~ converts_to (b64_of_bits d) (half_of_bits (truncdfhf2 d)).
Proof.
  exists (1023 * 2 ^ 52 + 2 ^ 41 + 2 ^ 12). split; [split; reflexivity || (vm_compute; discriminate)|].
  replace (truncdfhf2 (1023 * 2 ^ 52 + 2 ^ 41 + 2 ^ 12)) with (w16 false 15360) by (vm_compute; reflexivity).
  set (N := 15 * 2 ^ 52 + (2 ^ 41 + 2 ^ 12)).
  destruct (decode_finite 52 11 eq_refl eq_refl eq_refl false (1023 * 2 ^ 52 + 2 ^ 41 + 2 ^ 12) ltac:(split; reflexivity || (vm_compute; discriminate))) as (D1 & _ & _ & D4).
  change (word 52 11 false (1023 * 2 ^ 52 + 2 ^ 41 + 2 ^ 12)) with (1023 * 2 ^ 52 + 2 ^ 41 + 2 ^ 12) in D1, D4. fold b64_of_bits in D1, D4.
  set (D := b64_of_bits (1023 * 2 ^ 52 + 2 ^ 41 + 2 ^ 12)) in *.
  change (52 + 1) with 53 in D1, D4. change (2 ^ (11 - 1)) with 1024 in D1, D4.
  assert (EV : B2R 53 1024 D = mag_val 52 (-66) N).
  { rewrite D4. unfold signed. change (1023 * 2 ^ 52 + 2 ^ 41 + 2 ^ 12) with (N + 1008 * 2 ^ 52). apply (mag_val_shift 52 (-1074) 1008 N); [lia|lia|]. unfold N. change (2 ^ 52) with 4503599627370496. change (2 ^ 41) with 2199023255552. change (2 ^ 12) with 4096. lia. }
  assert (R : nearest_even 11 16 (B2R 53 1024 D) = mag_val 10 (-24) 15361).
  { rewrite EV. pose proof (round_mag_val 52 (-66) 42 N ltac:(lia) ltac:(lia) ltac:(vm_compute; discriminate)) as Q. replace (rne 42 N) with 15361 in Q by (vm_compute; reflexivity). exact Q. }
  destruct (half_finite false 15360 ltac:(lia)) as (_ & _ & _ & H4).
  assert (NE : mag_val 10 (-24) 15360 <> mag_val 10 (-24) 15361).
  { change 15360 with (15 * 2 ^ 10 + 0). change 15361 with (15 * 2 ^ 10 + 1). rewrite !mag_val_split by (change (2 ^ 10) with 1024; lia).
    change (-24 + 15 - 1) with (-10). pose proof (bpow_gt_0 radix2 (-10)). change (IZR (0 + 2 ^ 10)) with 1024%R. change (IZR (1 + 2 ^ 10)) with 1025%R. lra. }
  intros [_ C].
  assert (C3 : if Rlt_bool (Rabs (nearest_even 11 16 (B2R 53 1024 D))) (bpow radix2 16) then is_finite 11 16 (half_of_bits (w16 false 15360)) = true /\ B2R 11 16 (half_of_bits (w16 false 15360)) = nearest_even 11 16 (B2R 53 1024 D) else half_of_bits (w16 false 15360) = B754_infinity 11 16 (Bsign 53 1024 D)) by (destruct D; try discriminate D1; exact C).
  rewrite R in C3. destruct (Rlt_bool _ _).
  - destruct C3 as [_ C4]. rewrite H4 in C4. exact (NE C4).
  - destruct (half_finite false 15360 ltac:(lia)) as (Q & _). rewrite C3 in Q. discriminate.
Qed.
Example C26_ex : truncdfhf2 (1023 * 2 ^ 52 + 2 ^ 41 + 2 ^ 32) = 15361 /\ truncdfhf2 (1023 * 2 ^ 52) = 15360 /\ truncdfhf2 (2047 * 2 ^ 52) = 31744 /\ truncdfhf2 (2 ^ 63) = 32768.
Proof. repeat split; vm_compute; reflexivity. Qed.

Print Assumptions C24_f32_to_bf16.
Print Assumptions C24_bf16_to_f32.
Print Assumptions C24_round_trip.
Print Assumptions C25_f32_to_f16.
Print Assumptions C25_f16_to_f32.
Print Assumptions C25_round_trip.
Print Assumptions C26_rounds_twice.
Print Assumptions C26_floats_exact.
Print Assumptions C26_faithful.
Print Assumptions C26_nearest_refuted.
