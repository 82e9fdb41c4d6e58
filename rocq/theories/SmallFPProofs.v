(** Proofs about the 16-bit conversions. *)
From Coq Require Import ZArith Bool Reals Lia Lra.
From Flocq Require Import Core BinarySingleNaN Binary Bits.
From Verif Require Import SmallFPModel SmallFPSpec SmallFPBase.
Open Scope Z_scope.

(** ** Magnitudes *)
Lemma mag_val_pos mw em N : 0 <= mw -> 0 <= N -> (0 <= mag_val mw em N)%R.
Proof.
  intros Hm HN. pose proof (pow2_pos mw Hm). unfold mag_val. pose proof (Z.mod_pos_bound N (2 ^ mw) ltac:(lia)).
  destruct (_ =? 0); apply Rmult_le_pos; try apply bpow_ge_0; apply IZR_le; lia.
Qed.
Lemma mag_val_lt mw em N E : 0 <= mw -> 1 <= E -> 0 <= N < E * 2 ^ mw -> (mag_val mw em N < bpow radix2 (em + mw + E - 1))%R.
Proof.
  intros Hm HE HN. pose proof (pow2_pos mw Hm) as P. set (F := N / 2 ^ mw). 
  assert (HF : 0 <= F < E) by (split; [apply Z.div_pos; lia|apply Z.div_lt_upper_bound; lia]).
  pose proof (Z.mod_pos_bound N (2 ^ mw) ltac:(lia)) as B. pose proof (Z.div_mod N (2 ^ mw) ltac:(lia)) as D. fold F in D.
  unfold mag_val. fold F. destruct (Z.eqb_spec F 0) as [E0|E0].
  - apply Rlt_le_trans with (bpow radix2 (mw + em)); [|apply bpow_le; lia]. rewrite bpow_plus. apply Rmult_lt_compat_r; [apply bpow_gt_0|].
    rewrite <- (IZR_Zpower radix2) by lia. apply IZR_lt. change (N < 2 ^ mw). lia.
  - apply Rlt_le_trans with (bpow radix2 (mw + 1 + (em + F - 1))); [|apply bpow_le; lia]. rewrite bpow_plus. apply Rmult_lt_compat_r; [apply bpow_gt_0|].
    rewrite <- (IZR_Zpower radix2) by lia. apply IZR_lt. change (N mod 2 ^ mw + 2 ^ mw < 2 ^ (mw + 1)). rewrite Z.pow_add_r by lia. lia.
Qed.
Lemma mag_val_ge mw em N E : 0 <= mw -> 1 <= E -> E * 2 ^ mw <= N -> (bpow radix2 (em + mw + E - 1) <= mag_val mw em N)%R.
Proof.
  intros Hm HE HN. pose proof (pow2_pos mw Hm) as P. set (F := N / 2 ^ mw). 
  assert (HF : E <= F) by (apply Z.div_le_lower_bound; lia).
  pose proof (Z.mod_pos_bound N (2 ^ mw) ltac:(lia)) as B.
  unfold mag_val. fold F. destruct (Z.eqb_spec F 0) as [E0|E0]; [lia|].
  apply Rle_trans with (bpow radix2 (mw + (em + F - 1))); [apply bpow_le; lia|]. rewrite bpow_plus. apply Rmult_le_compat_r; [apply bpow_ge_0|].
  rewrite <- (IZR_Zpower radix2) by lia. apply IZR_le. change (2 ^ mw <= N mod 2 ^ mw + 2 ^ mw). lia.
Qed.
Lemma mag_val_shift mw em k N : 0 <= mw -> 0 <= k -> 2 ^ mw <= N -> mag_val mw em (N + k * 2 ^ mw) = mag_val mw (em + k) N.
Proof.
  intros Hm Hk HN. pose proof (pow2_pos mw Hm) as P. unfold mag_val. rewrite Z.div_add, Z.mod_add by lia.
  assert (1 <= N / 2 ^ mw) by (apply Z.div_le_lower_bound; lia).
  destruct (Z.eqb_spec (N / 2 ^ mw + k) 0); [lia|]. destruct (Z.eqb_spec (N / 2 ^ mw) 0); [lia|]. f_equal. f_equal. lia.
Qed.
Lemma mag_val_mul mw em k N : (mag_val mw em N * bpow radix2 k = mag_val mw (em + k) N)%R.
Proof. unfold mag_val. destruct (_ =? 0); rewrite Rmult_assoc, <- bpow_plus; f_equal; f_equal; lia. Qed.
(** A wider fraction. *)
Lemma mag_val_widen mw em d N : 0 <= mw -> 0 <= d -> 0 <= N -> mag_val (mw + d) em (N * 2 ^ d) = mag_val mw (em + d) N.
Proof.
  intros Hm Hd HN. pose proof (pow2_pos mw Hm) as P. pose proof (pow2_pos d Hd) as P2. unfold mag_val. rewrite Z.pow_add_r by lia.
  rewrite Z.div_mul_cancel_r, Zmult_mod_distr_r by lia. destruct (_ =? 0).
  - rewrite mult_IZR, (IZR_Zpower radix2) by lia. rewrite Rmult_assoc, <- bpow_plus. do 2 f_equal. lia.
  - rewrite <- Z.mul_add_distr_r, mult_IZR, (IZR_Zpower radix2) by lia. rewrite Rmult_assoc, <- bpow_plus. do 2 f_equal. lia.
Qed.
Lemma round_signed fexp (V : Valid_exp fexp) s x : round radix2 fexp ZnearestE (signed s x) = signed s (round radix2 fexp ZnearestE x).
Proof. destruct s; [apply round_NE_opp|reflexivity]. Qed.
Lemma Rabs_signed s x : (0 <= x)%R -> Rabs (signed s x) = x.
Proof. intros. destruct s; unfold signed; [rewrite Rabs_Ropp|]; apply Rabs_pos_eq; auto. Qed.

(** ** Conversion to a format given by its words *)
Section To.
Variables mw ew : Z.
Hypothesis Hmw : 0 < mw.
Hypothesis Hew : 0 < ew.
Hypothesis Hmax : mw + 1 < 2 ^ (ew - 1).
Let of_bits := binary_float_of_bits mw ew Hmw Hew Hmax.
Let emax := 2 ^ (ew - 1).
Let em := 3 - emax - (mw + 1).
Lemma emax_eq : 2 ^ ew = 2 * emax.
Proof. apply pow2_half. lia. Qed.
Lemma converts_finite p e (x : binary_float p e) s r h :
  is_finite p e x = true -> Bsign p e x = s -> B2R p e x = signed s r ->
  nearest_even (mw + 1) emax r = mag_val mw em h -> 0 <= h ->
  converts_to x (of_bits (word mw ew s (Z.min (inf_word mw ew) h))).
Proof.
  intros Hf Hs Hv Hr Hh.
  assert (Ip : 0 < inf_word mw ew) by (unfold inf_word; pose proof (pow2_pos mw ltac:(lia)); pose proof emax_eq; unfold emax in *; pose proof (pow2_pos (ew - 1) ltac:(lia)); nia).
  assert (R : round radix2 (FLT_exp (3 - emax - (mw + 1)) (mw + 1)) ZnearestE (signed s r) = signed s (mag_val mw em h)).
  { rewrite round_signed by (apply FLT_exp_valid; unfold Prec_gt_0; lia). unfold nearest_even in Hr. now rewrite Hr. }
  assert (P : (0 <= mag_val mw em h)%R) by (apply mag_val_pos; lia).
  unfold converts_to, nearest_even. rewrite Hv. fold emax. cbv zeta. rewrite R, Rabs_signed by auto.
  destruct (Z.lt_ge_cases h (inf_word mw ew)) as [L|L].
  - rewrite Z.min_r by lia. destruct (decode_finite mw ew Hmw Hew Hmax s h ltac:(lia)) as (D1 & _ & D3 & D4).
    rewrite Rlt_bool_true. 2:{ pose proof (mag_val_lt mw em h (2 ^ ew - 1) ltac:(lia) ltac:(pose proof emax_eq; lia) ltac:(split; [lia|exact L])) as B.
      replace emax with (em + mw + (2 ^ ew - 1) - 1); [exact B|]. unfold em. rewrite emax_eq. lia. }
    split; [rewrite Hs; exact D3|]. destruct x; try discriminate; (split; [exact D1|exact D4]).
  - rewrite Z.min_l by lia. pose proof (decode_inf mw ew Hmw Hew Hmax s) as D. fold of_bits in D. rewrite D.
    rewrite Rlt_bool_false. 2:{ pose proof (mag_val_ge mw em h (2 ^ ew - 1) ltac:(lia) ltac:(pose proof emax_eq; lia) L) as B.
      replace emax with (em + mw + (2 ^ ew - 1) - 1); [exact B|]. unfold em. rewrite emax_eq. lia. }
    split; [symmetry; exact Hs|]. rewrite Hs. destruct x; try discriminate; reflexivity.
Qed.
Lemma converts_inf p e s : converts_to (B754_infinity p e s) (of_bits (word mw ew s (inf_word mw ew))).
Proof. pose proof (decode_inf mw ew Hmw Hew Hmax s) as D. fold of_bits in D. rewrite D. split; reflexivity. Qed.
Lemma converts_nan p e (x : binary_float p e) s N : is_nan p e x = true -> Bsign p e x = s -> inf_word mw ew < N < 2 ^ (mw + ew) ->
  converts_to x (of_bits (word mw ew s N)).
Proof.
  intros Hx Hs HN. destruct (decode_nan mw ew Hmw Hew Hmax s N HN) as [D1 D2]. split; [rewrite Hs; exact D2|]. destruct x; try discriminate. exact D1.
Qed.
End To.

(** ** The words of binary32 *)
Notation w32 := (word 23 8).
Lemma b32_range : 2 ^ (23 + 8) = 2147483648. Proof. reflexivity. Qed.
Lemma b32_finite s N : 0 <= N < 2139095040 ->
  is_finite 24 128 (b32_of_bits (w32 s N)) = true /\ is_nan 24 128 (b32_of_bits (w32 s N)) = false /\
  Bsign 24 128 (b32_of_bits (w32 s N)) = s /\ B2R 24 128 (b32_of_bits (w32 s N)) = signed s (mag_val 23 (-149) N).
Proof. intros H. exact (decode_finite 23 8 eq_refl eq_refl eq_refl s N H). Qed.
Lemma b32_inf s : b32_of_bits (w32 s 2139095040) = B754_infinity 24 128 s.
Proof. exact (decode_inf 23 8 eq_refl eq_refl eq_refl s). Qed.
Lemma b32_nan s N : 2139095040 < N < 2147483648 -> is_nan 24 128 (b32_of_bits (w32 s N)) = true /\ Bsign 24 128 (b32_of_bits (w32 s N)) = s.
Proof. intros H. exact (decode_nan 23 8 eq_refl eq_refl eq_refl s N H). Qed.
Lemma b32_encode f s N : 0 <= N < 2139095040 -> is_finite 24 128 f = true -> Bsign 24 128 f = s ->
  B2R 24 128 f = signed s (mag_val 23 (-149) N) -> bits_of_b32 f = w32 s N.
Proof. intros H. exact (encode 23 8 eq_refl eq_refl eq_refl f s N H). Qed.
Lemma w32_cases f : 0 <= f < 2 ^ 32 -> exists s N, f = w32 s N /\ 0 <= N < 2147483648.
Proof. intros H. exact (word_cases 23 8 eq_refl eq_refl f H). Qed.
Lemma word_bits mw ew s N : 0 < mw -> 0 < ew -> 0 <= N < 2 ^ (mw + ew) -> word mw ew s N mod 2 ^ (mw + ew) = N /\ word mw ew s N / 2 ^ (mw + ew) = (if s then 1 else 0) /\ 0 <= word mw ew s N < 2 * 2 ^ (mw + ew).
Proof.
  intros H1 H2 HN. unfold word. destruct s.
  - replace (2 ^ (mw + ew) + N) with (N + 1 * 2 ^ (mw + ew)) by ring. rewrite Z.mod_add, Z.div_add, Z.mod_small, Z.div_small by lia. lia.
  - rewrite Z.add_0_l, Z.mod_small, Z.div_small by lia. lia.
Qed.

(** ** bfloat16 *)
Lemma bf16_round f : let q := f / 65536 in let r := f mod 65536 in
  (f + (32767 + (if Z.land f (Z.ones 17) =? 98304 then 65536 else 0))) / 65536 = rne 16 f.
Proof.
  intros q r. rewrite rne_spec by lia. cbv zeta. change (2 ^ 16) with 65536. change (2 ^ (16 - 1)) with 32768. fold q r.
  rewrite Z.land_ones by lia. change (2 ^ 17) with (65536 * 2). rewrite Z.rem_mul_r by lia. fold q r. rewrite Zmod_even.
  pose proof (Z.div_mod f 65536 ltac:(lia)) as D. fold q r in D. pose proof (Z.mod_pos_bound f 65536 ltac:(lia)) as B. fold r in B.
  destruct (Z.even q) eqn:E.
  - destruct (Z.eqb_spec (r + 65536 * 0) 98304); [lia|]. rewrite andb_true_r.
    destruct (Z.ltb_spec r 32768); [|destruct (Z.eqb_spec r 32768)]; symmetry.
    + apply (Z.div_unique _ _ _ (r + 32767)); lia.
    + apply (Z.div_unique _ _ _ (r + 32767)); lia.
    + apply (Z.div_unique _ _ _ (r + 32767 - 65536)); lia.
  - rewrite andb_false_r. destruct (Z.eqb_spec (r + 65536 * 1) 98304).
    + destruct (Z.ltb_spec r 32768); [lia|]. symmetry. apply (Z.div_unique _ _ _ (r + 32767)); lia.
    + destruct (Z.ltb_spec r 32768); symmetry.
      * apply (Z.div_unique _ _ _ (r + 32767)); lia.
      * apply (Z.div_unique _ _ _ (r + 32767 - 65536)); lia.
Qed.
Lemma rne_range d N M : 1 <= d -> 0 <= N -> N <= M * 2 ^ d -> 0 <= rne d N <= M.
Proof. intros. apply rne_bound; auto. Qed.
Lemma rne_ge d N M : 1 <= d -> M * 2 ^ d <= N -> M <= rne d N.
Proof.
  intros Hd H. rewrite rne_spec by auto. cbv zeta. assert (M <= N / 2 ^ d) by (apply Z.div_le_lower_bound; [apply pow2_pos|]; lia).
  destruct (_ <? _); [auto|]. destruct (_ && _); lia.
Qed.
Lemma bf16_words s N : 0 <= N < 2147483648 -> f32_to_bf16 (w32 s N) =
  let isnan := is_nan 24 128 (b32_of_bits (w32 s N)) in
  let h := u16 ((if s then 32768 else 0) + rne 16 N) in
  if (h mod 32768 =? 32640) && isnan then u16 (h + 64) else if (h mod 32768 =? 0) && isnan then u16 (h - 1) else h.
Proof.
  intros HN. unfold f32_to_bf16. cbv zeta. rewrite Z.shiftr_div_pow2, !Z.land_ones by lia.
  change (2 ^ 16) with 65536. change (2 ^ 15) with 32768.
  replace (u16 (u32 (w32 s N + (32767 + (if w32 s N mod 2 ^ 17 =? 98304 then 65536 else 0))) / 65536)) with (u16 ((if s then 32768 else 0) + rne 16 N)); [reflexivity|].
  unfold u16, u32. change (2 ^ 32) with (65536 * 2 ^ 16).
  set (X := w32 s N + _). assert (EX : X / 65536 = (if s then 32768 else 0) + rne 16 N).
  { unfold X. rewrite <- (Z.land_ones (w32 s N) 17) by lia. rewrite bf16_round. unfold word. destruct s; [|rewrite Z.add_0_l; reflexivity].
    change (2 ^ (23 + 8)) with (1 * 2 ^ 31). rewrite rne_add by lia. reflexivity. }
  rewrite <- EX. rewrite Z.rem_mul_r by lia. rewrite (Z.mul_comm 65536), Z.div_add by lia. rewrite (Z.div_small (X mod 65536)) by (apply Z.mod_pos_bound; lia).
  rewrite Z.add_0_l, Z.mod_mod by lia. reflexivity.
Qed.
Lemma u16_word (s : bool) h : 0 <= h < 32768 -> u16 ((if s then 32768 else 0) + h) = word 7 8 s h /\ ((if s then 32768 else 0) + h) mod 32768 = h.
Proof.
  intros H. unfold u16, word. change (2 ^ 16) with 65536. change (2 ^ (7 + 8)) with 32768. destruct s; (split; [apply Z.mod_small; lia|]).
  - symmetry. apply (Z.mod_unique _ _ 1); lia.
  - apply Z.mod_small; lia.
Qed.
Lemma word78 s h : word 7 8 s h = (if s then 32768 else 0) + h.
Proof. reflexivity. Qed.
Theorem f32_to_bf16_ok f : 0 <= f < 2 ^ 32 -> 0 <= f32_to_bf16 f < 2 ^ 16 /\ converts_to (b32_of_bits f) (bfloat16_of_bits (f32_to_bf16 f)).
Proof.
  intros Hf. destruct (w32_cases f Hf) as (s & N & -> & HN). rewrite bf16_words by auto. cbv zeta.
  assert (RW : forall h, 0 <= h < 32768 -> 0 <= word 7 8 s h < 2 ^ 16) by (intros h Hh; rewrite word78; change (2 ^ 16) with 65536; destruct s; lia).
  destruct (Z.le_gt_cases N 2139095040) as [L|L].
  - assert (EN : is_nan 24 128 (b32_of_bits (w32 s N)) = false).
    { destruct (Z.eq_dec N 2139095040) as [->|Hne]; [rewrite b32_inf; reflexivity|]. apply (b32_finite s N). lia. }
    rewrite EN, !andb_false_r. destruct (rne_range 16 N 32640 ltac:(lia) ltac:(lia) ltac:(lia)) as [R1 R2].
    rewrite (proj1 (u16_word s (rne 16 N) ltac:(lia))). split; [apply RW; lia|].
    destruct (Z.eq_dec N 2139095040) as [->|Hne].
    + rewrite b32_inf. replace (rne 16 2139095040) with 32640 by reflexivity. apply (converts_inf 7 8).
    + destruct (b32_finite s N ltac:(lia)) as (F1 & _ & F3 & F4).
      pose proof (converts_finite 7 8 eq_refl eq_refl eq_refl 24 128 (b32_of_bits (w32 s N)) s (mag_val 23 (-149) N) (rne 16 N) F1 F3 F4) as C.
      replace (Z.min (inf_word 7 8) (rne 16 N)) with (rne 16 N) in C by (change (inf_word 7 8) with 32640; lia). apply C; [|lia].
      exact (round_mag_val 23 (-149) 16 N ltac:(lia) ltac:(lia) ltac:(lia)).
  - destruct (b32_nan s N ltac:(lia)) as [N1 N2]. rewrite N1, !andb_true_r.
    pose proof (rne_ge 16 N 32640 ltac:(lia) ltac:(lia)) as R1. destruct (rne_range 16 N 32768 ltac:(lia) ltac:(lia) ltac:(lia)) as [_ R2].
    destruct (Z.eq_dec (rne 16 N) 32768) as [E|E].
    + rewrite E. destruct s.
      * change (u16 (32768 + 32768)) with 0. cbn [Z.eqb]. change (0 mod 32768 =? 32640) with false. change (0 mod 32768 =? 0) with true. cbn [andb].
        change (u16 (0 - 1)) with (word 7 8 true 32767). split; [apply RW; lia|]. apply (converts_nan 7 8 eq_refl eq_refl eq_refl); auto. split; reflexivity.
      * change (u16 (0 + 32768)) with 32768. change (32768 mod 32768 =? 32640) with false. change (32768 mod 32768 =? 0) with true. cbn [andb].
        change (u16 (32768 - 1)) with (word 7 8 false 32767). split; [apply RW; lia|]. apply (converts_nan 7 8 eq_refl eq_refl eq_refl); auto. split; reflexivity.
    + destruct (u16_word s (rne 16 N) ltac:(lia)) as [U1 U2]. rewrite U1. rewrite word78, U2.
      destruct (Z.eqb_spec (rne 16 N) 32640) as [E2|E2].
      * rewrite E2. replace (u16 ((if s then 32768 else 0) + 32640 + 64)) with (word 7 8 s 32704) by (destruct s; reflexivity).
        split; [apply RW; lia|]. apply (converts_nan 7 8 eq_refl eq_refl eq_refl); auto. split; reflexivity.
      * destruct (Z.eqb_spec (rne 16 N) 0); [lia|]. rewrite <- word78. split; [apply RW; lia|]. apply (converts_nan 7 8 eq_refl eq_refl eq_refl); auto. change (inf_word 7 8) with 32640. change (2 ^ (7 + 8)) with 32768. lia.
Qed.
Theorem bf16_to_f32_ok h : 0 <= h < 2 ^ 16 -> 0 <= bf16_to_f32 h < 2 ^ 32 /\ same_number (bfloat16_of_bits h) (b32_of_bits (bf16_to_f32 h)).
Proof.
  intros Hh. destruct (word_cases 7 8 eq_refl eq_refl h Hh) as (s & N & -> & HN). change (2 ^ (7 + 8)) with 32768 in HN.
  assert (E : bf16_to_f32 (word 7 8 s N) = w32 s (N * 65536)).
  { unfold bf16_to_f32, u32. rewrite Z.shiftl_mul_pow2 by lia. rewrite word78. unfold word. change (2 ^ 16) with 65536. change (2 ^ 32) with 4294967296. change (2 ^ (23 + 8)) with 2147483648.
    destruct s; rewrite Z.mod_small; lia. }
  rewrite E. split; [unfold word; change (2 ^ (23 + 8)) with 2147483648; change (2 ^ 32) with 4294967296; destruct s; lia|].
  destruct (Z.lt_trichotomy N 32640) as [L|[L|L]].
  - destruct (decode_finite 7 8 eq_refl eq_refl eq_refl s N (conj (proj1 HN) L)) as (D1 & _ & D3 & D4).
    destruct (b32_finite s (N * 65536) ltac:(lia)) as (F1 & _ & F3 & F4). fold bfloat16_of_bits in D1, D3, D4.
    split; [rewrite F3; symmetry; exact D3|].
    assert (EV : B2R 24 128 (b32_of_bits (w32 s (N * 65536))) = B2R 8 128 (bfloat16_of_bits (word 7 8 s N))).
    { rewrite F4. rewrite (D4 : B2R 8 128 (bfloat16_of_bits (word 7 8 s N)) = _). f_equal. exact (mag_val_widen 7 (-149) 16 N ltac:(lia) ltac:(lia) ltac:(lia)). }
    change (7 + 1) with 8 in D1. change (2 ^ (8 - 1)) with 128 in D1.
    destruct (bfloat16_of_bits (word 7 8 s N)); try discriminate; auto.
  - subst N. replace (bfloat16_of_bits (word 7 8 s 32640)) with (B754_infinity 8 128 s) by (symmetry; exact (decode_inf 7 8 eq_refl eq_refl eq_refl s)).
    change (32640 * 65536) with 2139095040. rewrite b32_inf. split; reflexivity.
  - destruct (decode_nan 7 8 eq_refl eq_refl eq_refl s N (conj L (proj2 HN))) as [D1 D2]. fold bfloat16_of_bits in D1, D2.
    destruct (b32_nan s (N * 65536) ltac:(lia)) as [N1 N2]. split; [rewrite N2; symmetry; exact D2|].
    change (7 + 1) with 8 in D1. change (2 ^ (8 - 1)) with 128 in D1. destruct (bfloat16_of_bits (word 7 8 s N)); try discriminate. exact N1.
Qed.
