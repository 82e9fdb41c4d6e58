(** Values of bit patterns and integer rounding. *)
From Coq Require Import ZArith Bool Reals Lia Lra Psatz.
From Flocq Require Import Core BinarySingleNaN Binary Bits.
Open Scope Z_scope.

(** Round N / 2^d to nearest, ties to even, on integers. *)
Definition rne (d N : Z) : Z := (N + (N / 2 ^ d) mod 2 + (2 ^ (d - 1) - 1)) / 2 ^ d.
(** The value of the magnitude word N: mw bits of fraction, least exponent em. *)
Definition mag_val (mw em N : Z) : R :=
  if N / 2 ^ mw =? 0 then IZR N * bpow radix2 em
  else IZR (N mod 2 ^ mw + 2 ^ mw) * bpow radix2 (em + N / 2 ^ mw - 1).

Lemma pow2_pos d : 0 <= d -> 0 < 2 ^ d.
Proof. intros. apply Z.pow_pos_nonneg; lia. Qed.
Lemma pow2_half d : 1 <= d -> 2 ^ d = 2 * 2 ^ (d - 1).
Proof. intros. rewrite <- Z.pow_succ_r by lia. f_equal. lia. Qed.

Lemma rne_spec d N : 1 <= d -> let q := N / 2 ^ d in let r := N mod 2 ^ d in
  rne d N = if r <? 2 ^ (d - 1) then q else if (r =? 2 ^ (d - 1)) && Z.even q then q else q + 1.
Proof.
  intros Hd q r. unfold rne. pose proof (pow2_pos (d - 1) ltac:(lia)) as P. pose proof (pow2_half d Hd) as H2.
  pose proof (Z.div_mod N (2 ^ d) ltac:(lia)) as D. pose proof (Z.mod_pos_bound N (2 ^ d) ltac:(lia)) as B.
  fold q in D |- *. fold r in D, B. set (h := 2 ^ (d - 1)) in *.
  rewrite Zmod_even. rewrite D at 1.
  destruct (Z.even q) eqn:E.
  - rewrite andb_true_r. destruct (Z.ltb_spec r h); [|destruct (Z.eqb_spec r h)]; symmetry.
    + apply (Z.div_unique _ _ _ (r + (h - 1))); lia.
    + apply (Z.div_unique _ _ _ (r + (h - 1))); lia.
    + apply (Z.div_unique _ _ _ (r + (h - 1) - 2 ^ d)); lia.
  - rewrite andb_false_r. destruct (Z.ltb_spec r h); symmetry.
    + apply (Z.div_unique _ _ _ (r + h)); lia.
    + apply (Z.div_unique _ _ _ (r + h - 2 ^ d)); lia.
Qed.

Lemma ZnearestE_rne d N : 1 <= d -> ZnearestE (IZR N * bpow radix2 (- d)) = rne d N.
Proof.
  intros Hd. rewrite rne_spec by auto. cbv zeta. pose proof (pow2_pos (d - 1) ltac:(lia)) as P. pose proof (pow2_half d Hd) as H2.
  pose proof (Z.div_mod N (2 ^ d) ltac:(lia)) as D. pose proof (Z.mod_pos_bound N (2 ^ d) ltac:(lia)) as B.
  set (q := N / 2 ^ d) in *. set (r := N mod 2 ^ d) in *.
  assert (Ex : (IZR N * bpow radix2 (- d) = IZR q + IZR r * bpow radix2 (- d))%R).
  { rewrite D, plus_IZR, mult_IZR. rewrite (IZR_Zpower radix2) by lia. rewrite Rmult_plus_distr_r. f_equal.
    rewrite (Rmult_comm (bpow _ d)), Rmult_assoc, <- bpow_plus. replace (d + - d) with 0 by lia. simpl bpow. ring. }
  assert (P2 : (0 < bpow radix2 (- d))%R) by apply bpow_gt_0.
  assert (Pd : (IZR (2 ^ d) * bpow radix2 (- d) = 1)%R).
  { rewrite (IZR_Zpower radix2) by lia. rewrite <- bpow_plus. replace (d + - d) with 0 by lia. reflexivity. }
  assert (Ph : (IZR (2 ^ (d - 1)) * bpow radix2 (- d) = / 2)%R).
  { rewrite H2, mult_IZR in Pd. nra. }
  assert (Br : (0 <= IZR r * bpow radix2 (- d) < 1)%R).
  { split; [apply Rmult_le_pos; [apply IZR_le; lia|lra]|]. rewrite <- Pd. apply Rmult_lt_compat_r; [auto|apply IZR_lt; lia]. }
  assert (F : Zfloor (IZR N * bpow radix2 (- d)) = q).
  { apply Zfloor_imp. rewrite Ex, plus_IZR. lra. }
  unfold Znearest. rewrite F, Ex.
  replace (IZR q + IZR r * bpow radix2 (- d) - IZR q)%R with (IZR r * bpow radix2 (- d))%R by ring. rewrite <- Ph.
  destruct (Z.ltb_spec r (2 ^ (d - 1))) as [H|H].
  - rewrite Rcompare_Lt; [reflexivity|]. apply Rmult_lt_compat_r; [auto|apply IZR_lt; lia].
  - assert (Hc : Zceil (IZR q + IZR r * bpow radix2 (- d)) = q + 1).
    { rewrite <- Ex. rewrite Zceil_floor_neq; rewrite F; [reflexivity|]. rewrite Ex. intros E.
      assert (0 < IZR r * bpow radix2 (- d))%R by (apply Rmult_lt_0_compat; [apply IZR_lt; lia|auto]). lra. }
    rewrite Hc. destruct (Z.eqb_spec r (2 ^ (d - 1))) as [Er|Er].
    + rewrite Er, Rcompare_Eq by reflexivity. cbn [andb]. destruct (Z.even q); reflexivity.
    + rewrite Rcompare_Gt; [reflexivity|]. apply Rmult_lt_compat_r; [auto|apply IZR_lt; lia].
Qed.

Lemma rne_add d mw N E : 1 <= d -> d + 1 <= mw -> rne d (E * 2 ^ mw + N) = E * 2 ^ (mw - d) + rne d N.
Proof.
  intros Hd Hm. rewrite !rne_spec by auto. cbv zeta. pose proof (pow2_pos d ltac:(lia)) as P.
  assert (EM : 2 ^ mw = 2 ^ (mw - d) * 2 ^ d) by (rewrite <- Z.pow_add_r by lia; f_equal; lia).
  assert (EV : 2 ^ (mw - d) = 2 * 2 ^ (mw - d - 1)) by (apply pow2_half; lia).
  rewrite EM, Z.mul_assoc, (Z.add_comm (_ * _ * _) N), Z.mod_add, Z.div_add by lia.
  replace (Z.even (N / 2 ^ d + E * 2 ^ (mw - d))) with (Z.even (N / 2 ^ d)).
  - destruct (_ <? _); [lia|]. destruct (_ && _); lia.
  - rewrite EV. replace (E * (2 * 2 ^ (mw - d - 1))) with (2 * (E * 2 ^ (mw - d - 1))) by ring.
    rewrite Z.even_add_mul_2. reflexivity.
Qed.
Lemma rne_bound d N M : 1 <= d -> 0 <= N <= M * 2 ^ d -> 0 <= rne d N <= M.
Proof.
  intros Hd [H1 H2]. rewrite rne_spec by auto. cbv zeta. pose proof (pow2_pos (d - 1) ltac:(lia)) as P. pose proof (pow2_half d Hd) as H3.
  pose proof (Z.div_mod N (2 ^ d) ltac:(lia)) as D. pose proof (Z.mod_pos_bound N (2 ^ d) ltac:(lia)) as B.
  assert (0 <= N / 2 ^ d) by (apply Z.div_pos; lia).
  destruct (Z.ltb_spec (N mod 2 ^ d) (2 ^ (d - 1))); [nia|]. destruct (_ && _); nia.
Qed.

Lemma mag_val_0 mw em : 0 <= mw -> mag_val mw em 0 = 0%R.
Proof. intros. unfold mag_val. rewrite Z.div_0_l by (pose proof (pow2_pos mw H); lia). cbn [Z.eqb]. ring. Qed.
Lemma mag_val_split mw em E m : 1 <= E -> 0 <= m < 2 ^ mw -> mag_val mw em (E * 2 ^ mw + m) = (IZR (m + 2 ^ mw) * bpow radix2 (em + E - 1))%R.
Proof.
  intros HE Hm. unfold mag_val. rewrite Z.add_comm, Z.div_add, Z.mod_add, Z.div_small, Z.mod_small by lia.
  destruct (Z.eqb_spec (0 + E) 0); [lia|]. do 2 f_equal. 
Qed.
Lemma mag_val_small mw em m : 0 <= m < 2 ^ mw -> mag_val mw em m = (IZR m * bpow radix2 em)%R.
Proof. intros H. unfold mag_val. rewrite Z.div_small by lia. reflexivity. Qed.
Lemma bpow_S e : (bpow radix2 (e + 1) = 2 * bpow radix2 e)%R.
Proof. rewrite bpow_plus. change (bpow radix2 1) with 2%R. ring. Qed.
(** [E * 2^mw + q] for q up to and including 2^mw. *)
Lemma mag_val_carry mw em E q : 0 <= mw -> 0 <= E -> 0 <= q <= 2 ^ mw ->
  mag_val mw em (E * 2 ^ mw + q) = if E =? 0 then (IZR q * bpow radix2 em)%R else (IZR (q + 2 ^ mw) * bpow radix2 (em + E - 1))%R.
Proof.
  intros Hm HE Hq. pose proof (pow2_pos mw Hm) as P. destruct (Z.eq_dec q (2 ^ mw)) as [->|N].
  - replace (E * 2 ^ mw + 2 ^ mw) with ((E + 1) * 2 ^ mw + 0) by ring. rewrite mag_val_split by lia.
    destruct (Z.eqb_spec E 0) as [->|]; [do 2 f_equal; lia|].
    replace (em + (E + 1) - 1) with (em + E - 1 + 1) by lia. rewrite bpow_S.
    replace (2 ^ mw + 2 ^ mw) with (2 * 2 ^ mw) by ring. rewrite mult_IZR. cbn [Z.add]. ring.
  - destruct (Z.eqb_spec E 0) as [->|]; [rewrite mag_val_small; [f_equal; f_equal; lia|lia]|]. apply mag_val_split; lia.
Qed.

(** Rounding the value of a word to a format with d bits less is rounding the word. *)
Theorem round_mag_val mw em d N : 1 <= d -> d + 1 <= mw -> 0 <= N ->
  round radix2 (FLT_exp (em + d) (mw - d + 1)) ZnearestE (mag_val mw em N) = mag_val (mw - d) (em + d) (rne d N).
Proof.
  intros Hd Hm HN. pose proof (pow2_pos mw ltac:(lia)) as P.
  set (E := N / 2 ^ mw). set (m := N mod 2 ^ mw).
  assert (EN : N = E * 2 ^ mw + m) by (pose proof (Z.div_mod N (2 ^ mw) ltac:(lia)); fold E m in H; lia).
  assert (Bm : 0 <= m < 2 ^ mw) by (apply Z.mod_pos_bound; lia).
  assert (HE : 0 <= E) by (apply Z.div_pos; lia).
  assert (EP : 2 ^ mw = 2 ^ (mw - d) * 2 ^ d) by (rewrite <- Z.pow_add_r by lia; f_equal; lia).
  assert (Bq : 0 <= rne d m <= 2 ^ (mw - d)) by (apply rne_bound; lia).
  rewrite EN, rne_add by lia. rewrite mag_val_carry by lia. rewrite mag_val_carry by lia.
  destruct (Z.eqb_spec E 0) as [E0|E0].
  - destruct (Z.eq_dec m 0) as [->|M0].
    { rewrite Rmult_0_l, round_0 by (try apply valid_rnd_N). unfold rne. rewrite Z.div_0_l, Z.mod_0_l by lia.
      rewrite Z.div_small; [ring|]. pose proof (pow2_pos (d - 1) ltac:(lia)). pose proof (pow2_half d Hd). lia. }
    assert (C : cexp radix2 (FLT_exp (em + d) (mw - d + 1)) (IZR m * bpow radix2 em) = em + d).
    { unfold cexp, FLT_exp. rewrite mag_mult_bpow by (apply IZR_neq; auto).
      assert (mag radix2 (IZR m) <= mw); [|lia]. apply mag_le_bpow; [apply IZR_neq; auto|].
      rewrite <- abs_IZR, Z.abs_eq, <- (IZR_Zpower radix2) by lia. apply IZR_lt. exact (proj2 Bm). }
    unfold round, scaled_mantissa. rewrite C. rewrite Rmult_assoc, <- bpow_plus. replace (em + - (em + d)) with (- d) by lia.
    rewrite ZnearestE_rne by auto. reflexivity.
  - assert (C : cexp radix2 (FLT_exp (em + d) (mw - d + 1)) (IZR (m + 2 ^ mw) * bpow radix2 (em + E - 1)) = em + d + E - 1).
    { unfold cexp, FLT_exp. rewrite mag_mult_bpow by (apply IZR_neq; lia).
      assert (M : mag radix2 (IZR (m + 2 ^ mw)) = mw + 1 :> Z); [|rewrite M; lia]. apply mag_unique.
      rewrite <- abs_IZR, Z.abs_eq by lia. rewrite <- !(IZR_Zpower radix2) by lia. replace (mw + 1 - 1) with mw by lia.
      split; [apply IZR_le; change (2 ^ mw <= m + 2 ^ mw); lia|apply IZR_lt; change (m + 2 ^ mw < 2 ^ (mw + 1)); rewrite Z.pow_add_r by lia; lia]. }
    unfold round, scaled_mantissa. rewrite C. rewrite Rmult_assoc, <- bpow_plus. replace (em + E - 1 + - (em + d + E - 1)) with (- d) by lia.
    rewrite ZnearestE_rne by auto. unfold F2R. cbn [Fnum Fexp].
    replace (m + 2 ^ mw) with (1 * 2 ^ mw + m) by ring. rewrite rne_add by lia. f_equal. f_equal. lia.
Qed.

(** ** Decoding a word *)
Section Decode.
Variables mw ew : Z.
Hypothesis Hmw : 0 < mw.
Hypothesis Hew : 0 < ew.
Hypothesis Hmax : mw + 1 < 2 ^ (ew - 1).
Let prec := mw + 1.
Let emax := 2 ^ (ew - 1).
Let of_bits := binary_float_of_bits mw ew Hmw Hew Hmax.
Let em := 3 - emax - prec.
(** word with sign s and magnitude N *)
Definition word (s : bool) (N : Z) : Z := (if s then 2 ^ (mw + ew) else 0) + N.
Definition signed (s : bool) (x : R) : R := if s then (- x)%R else x.
Lemma split_word s N : 0 <= N < 2 ^ (mw + ew) -> split_bits mw ew (word s N) = (s, N mod 2 ^ mw, N / 2 ^ mw).
Proof.
  intros HN. pose proof (pow2_pos mw ltac:(lia)). pose proof (pow2_pos ew ltac:(lia)).
  assert (EP : 2 ^ (mw + ew) = 2 ^ mw * 2 ^ ew) by (apply Z.pow_add_r; lia). unfold split_bits, word.
  assert (N / 2 ^ mw < 2 ^ ew) by (apply Z.div_lt_upper_bound; lia). assert (0 <= N / 2 ^ mw) by (apply Z.div_pos; lia).
  f_equal; [f_equal|].
  - destruct s; [apply Z.leb_le; lia|apply Z.leb_gt; lia].
  - destruct s; [|reflexivity]. rewrite EP, Z.add_comm, (Z.mul_comm (2 ^ mw)), Z.mod_add by lia. reflexivity.
  - destruct s; [|rewrite Z.mod_small; [reflexivity|split; [|cbn [Z.add]; lia]; apply Z.div_pos; lia]].
    rewrite EP, Z.add_comm, (Z.mul_comm (2 ^ mw)), Z.div_add by lia.
    replace (N / 2 ^ mw + 2 ^ ew) with (N / 2 ^ mw + 1 * 2 ^ ew) by ring. rewrite Z.mod_add, Z.mod_small by lia. reflexivity.
Qed.
Definition inf_word : Z := (2 ^ ew - 1) * 2 ^ mw.
Lemma decode_finite s N : 0 <= N < inf_word ->
  is_finite prec emax (of_bits (word s N)) = true /\ is_nan prec emax (of_bits (word s N)) = false /\
  Bsign prec emax (of_bits (word s N)) = s /\ B2R prec emax (of_bits (word s N)) = signed s (mag_val mw em N).
Proof.
  intros HN. unfold inf_word in HN. pose proof (pow2_pos mw ltac:(lia)). pose proof (pow2_pos ew ltac:(lia)).
  assert (EP : 2 ^ (mw + ew) = 2 ^ mw * 2 ^ ew) by (apply Z.pow_add_r; lia).
  unfold of_bits, binary_float_of_bits. fold prec emax.
  rewrite is_finite_FF2B, is_nan_FF2B, Bsign_FF2B, B2R_FF2B. unfold binary_float_of_bits_aux. rewrite split_word by nia.
  assert (N / 2 ^ mw < 2 ^ ew - 1) by (apply Z.div_lt_upper_bound; lia). assert (0 <= N / 2 ^ mw) by (apply Z.div_pos; lia).
  pose proof (Z.mod_pos_bound N (2 ^ mw) ltac:(lia)) as B. unfold mag_val.
  destruct (Z.eqb_spec (N / 2 ^ mw) 0) as [E0|E0].
  - rewrite (Zeq_bool_true _ _ E0).
    assert (EN : N mod 2 ^ mw = N) by (pose proof (Z.div_mod N (2 ^ mw) ltac:(lia)); rewrite E0 in *; lia). rewrite EN.
    destruct N as [|p|p]; [|..|lia].
    + repeat split; try reflexivity. cbn. destruct s; cbn; ring.
    + repeat split; try reflexivity. cbn [FF2R]. unfold F2R; cbn [Fnum Fexp]. unfold em, SpecFloat.emin. fold prec emax. destruct s; cbn [cond_Zopp Z.opp signed]; [change (Z.neg p) with (- Z.pos p); rewrite opp_IZR; ring|ring].
  - rewrite (Zeq_bool_false _ _ E0). rewrite (Zeq_bool_false (N / 2 ^ mw) (2 ^ ew - 1)) by lia.
    destruct (N mod 2 ^ mw + 2 ^ mw) as [|p|p] eqn:Ep; [lia| |lia].
    repeat split; try reflexivity. cbn [FF2R]. unfold F2R; cbn [Fnum Fexp]. fold prec emax. unfold em.
    unfold SpecFloat.emin. fold prec emax. replace (N / 2 ^ mw + (3 - emax - prec) - 1) with (3 - emax - prec + N / 2 ^ mw - 1) by lia.
    destruct s; cbn [cond_Zopp Z.opp signed]; [change (Z.neg p) with (- Z.pos p); rewrite opp_IZR; ring|ring].
Qed.
Lemma decode_inf s : of_bits (word s inf_word) = B754_infinity prec emax s.
Proof.
  pose proof (pow2_pos mw ltac:(lia)) as P1. pose proof (pow2_pos (ew - 1) ltac:(lia)) as P2. pose proof (pow2_half ew ltac:(lia)) as P3.
  assert (EP : 2 ^ (mw + ew) = 2 ^ mw * 2 ^ ew) by (apply Z.pow_add_r; lia).
  apply B2FF_inj. unfold of_bits, binary_float_of_bits. rewrite B2FF_FF2B. unfold binary_float_of_bits_aux.
  rewrite split_word by (unfold inf_word; nia). unfold inf_word. rewrite Z.mod_mul, Z.div_mul by lia.
  rewrite (Zeq_bool_false (2 ^ ew - 1) 0) by lia. rewrite Zeq_bool_true by reflexivity. reflexivity.
Qed.
Lemma decode_nan s N : inf_word < N < 2 ^ (mw + ew) ->
  is_nan prec emax (of_bits (word s N)) = true /\ Bsign prec emax (of_bits (word s N)) = s.
Proof.
  intros HN. unfold inf_word in HN. pose proof (pow2_pos mw ltac:(lia)) as P1. pose proof (pow2_pos (ew - 1) ltac:(lia)) as P2. pose proof (pow2_half ew ltac:(lia)) as P3.
  assert (EP : 2 ^ (mw + ew) = 2 ^ mw * 2 ^ ew) by (apply Z.pow_add_r; lia).
  unfold of_bits, binary_float_of_bits. fold prec emax.
  rewrite is_nan_FF2B, Bsign_FF2B. unfold binary_float_of_bits_aux. rewrite split_word by nia.
  assert (EQ : N / 2 ^ mw = 2 ^ ew - 1) by (symmetry; apply (Z.div_unique _ _ _ (N - (2 ^ ew - 1) * 2 ^ mw)); nia).
  rewrite EQ. rewrite (Zeq_bool_false (2 ^ ew - 1) 0) by lia. rewrite Zeq_bool_true by reflexivity.
  pose proof (Z.div_mod N (2 ^ mw) ltac:(lia)) as D. rewrite EQ in D.
  destruct (N mod 2 ^ mw) as [|p|p] eqn:E; [nia|split; reflexivity|].
  pose proof (Z.mod_pos_bound N (2 ^ mw) ltac:(lia)). lia.
Qed.
Lemma encode f s N : 0 <= N < inf_word -> is_finite prec emax f = true -> Bsign prec emax f = s ->
  B2R prec emax f = signed s (mag_val mw em N) -> bits_of_binary_float mw ew f = word s N.
Proof.
  intros HN Hf Hs Hv. destruct (decode_finite s N HN) as (D1 & _ & D3 & D4).
  assert (f = of_bits (word s N)) as -> by (apply B2R_Bsign_inj; congruence).
  apply bits_of_binary_float_of_bits. unfold word. unfold inf_word in HN. pose proof (pow2_pos mw ltac:(lia)). pose proof (pow2_pos ew ltac:(lia)).
  assert (EP : 2 ^ (mw + ew) = 2 ^ mw * 2 ^ ew) by (apply Z.pow_add_r; lia).
  rewrite (Z.pow_add_r 2 (mw + ew) 1) by lia. change (2 ^ 1) with 2. destruct s; nia.
Qed.
Lemma bits_inj u v : 0 <= u < 2 ^ (mw + ew + 1) -> 0 <= v < 2 ^ (mw + ew + 1) -> of_bits u = of_bits v -> u = v.
Proof. intros Hu Hv E. rewrite <- (bits_of_binary_float_of_bits mw ew Hmw Hew Hmax u Hu), <- (bits_of_binary_float_of_bits mw ew Hmw Hew Hmax v Hv). unfold of_bits in E. now rewrite E. Qed.
Lemma word_cases u : 0 <= u < 2 ^ (mw + ew + 1) -> exists s N, u = word s N /\ 0 <= N < 2 ^ (mw + ew).
Proof.
  intros H. rewrite Z.pow_add_r in H by lia. unfold word. destruct (Z.ltb_spec u (2 ^ (mw + ew))).
  - exists false, u. lia.
  - exists true, (u - 2 ^ (mw + ew)). lia.
Qed.
End Decode.
