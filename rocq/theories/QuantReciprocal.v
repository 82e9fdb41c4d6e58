(** Dividing by 82 and multiplying by its reciprocal in binary32. *)
From Coq Require Import ZArith Bool Lia Reals Lra.
From Flocq Require Import Core BinarySingleNaN.
From Verif Require Import QuantSpec QuantModel QuantFloat FloatDiv32Model.
Open Scope R_scope.

Lemma val (x : b32) s m e : B2SF x = SpecFloat.S754_finite s m e -> B2R x = F2R (Float radix2 (cond_Zopp s (Zpos m)) e).
Proof. intros E. rewrite <- SF2R_B2SF, E. reflexivity. Qed.
Lemma val_fin (x : b32) s m e : B2SF x = SpecFloat.S754_finite s m e -> is_finite x = true.
Proof. intros E. destruct x; try discriminate; reflexivity. Qed.

Lemma div_val (x y z : b32) s m e : B2R y <> 0 -> Bdiv mode_NE x y = z -> B2SF z = SpecFloat.S754_finite s m e ->
  rnd (-149) 24 (B2R x / B2R y) = B2R z.
Proof.
  intros Hy E F. pose proof (Bdiv_correct 24 128 _ _ mode_NE x y Hy) as H. rewrite E in H.
  destruct (Rlt_bool _ _); [symmetry; exact (proj1 H)|]. rewrite F in H. discriminate.
Qed.
Lemma mul_val (x y z : b32) s m e : Bmult mode_NE x y = z -> B2SF z = SpecFloat.S754_finite s m e ->
  rnd (-149) 24 (B2R x * B2R y) = B2R z.
Proof.
  intros E F. pose proof (Bmult_correct 24 128 _ _ mode_NE x y) as H. rewrite E in H.
  destruct (Rlt_bool _ _); [symmetry; exact (proj1 H)|]. rewrite F in H. discriminate.
Qed.

Definition i82 := of_int32 82. Definition i287 := of_int32 287. Definition i1 := of_int32 1.
Lemma v82 : B2R i82 = 82.
Proof. erewrite val by (vm_compute; reflexivity). unfold F2R. cbn. lra. Qed.
Lemma v287 : B2R i287 = 287.
Proof. erewrite val by (vm_compute; reflexivity). unfold F2R. cbn. lra. Qed.
Lemma v1 : B2R i1 = 1.
Proof. erewrite val by (vm_compute; reflexivity). unfold F2R. cbn. lra. Qed.

Lemma roundedR_unique x n m : roundedR x n -> roundedR x m -> n = m.
Proof. intros A B. apply Z.le_antisymm; eapply roundedR_mono; eauto; lra. Qed.

Lemma emu_val x n : generic_format radix2 (FLT_exp (-149) 24) x -> roundedR x n -> roundEvenEmulation (floats (-149) 24) x = IZR n.
Proof. intros F R. destruct (emulation_rounds (-149) 24 ltac:(lia) ltac:(lia) x F) as (k & E & Rk). rewrite E. f_equal. eapply roundedR_unique; eauto. Qed.

Lemma rnd_format x : generic_format radix2 (FLT_exp (-149) 24) (rnd (-149) 24 x).
Proof. apply generic_format_round; typeclasses eauto. Qed.

Lemma q_val (rec : bool) n : (0 <= n <= 255)%Z ->
  roundedR (if rec then rnd (-149) 24 (287 * rnd (-149) 24 (1 / 82)) else rnd (-149) 24 (287 / 82)) n ->
  quantizeFloat (-149) 24 rec true 82 None 287 = n.
Proof.
  intros Hn R. unfold quantizeFloat. cbv zeta. rewrite (emu_val _ n); [|destruct rec; apply rnd_format | exact R].
  change 255 with (IZR 255). change 0 with (IZR 0). rewrite clip_IZR by lia. rewrite Ztrunc_IZR. unfold saturate. lia.
Qed.

Lemma reciprocal_false : quantizeFloat (-149) 24 false true 82 None 287 = 4%Z.
Proof.
  apply q_val; [lia|].
  pose proof (div_val i287 i82 (Bdiv mode_NE i287 i82) false 14680064 (-22)) as H. rewrite v82, v287 in H. rewrite H; [|lra|reflexivity|vm_compute; reflexivity].
  erewrite val by (vm_compute; reflexivity). unfold F2R. cbn [cond_Zopp Fnum Fexp bpow]. change (Z.pow_pos radix2 22) with 4194304%Z.
  replace (14680064 * / 4194304) with (IZR 4 - / 2) by lra. split; [rewrite Rabs_left1; lra | intros _; reflexivity].
Qed.
Lemma reciprocal_true : quantizeFloat (-149) 24 true true 82 None 287 = 3%Z.
Proof.
  apply q_val; [lia|].
  pose proof (div_val i1 i82 (Bdiv mode_NE i1 i82)) as H. rewrite v82, v1 in H. erewrite H; [|lra|reflexivity|vm_compute; reflexivity]. clear H.
  pose proof (mul_val i287 (Bdiv mode_NE i1 i82) (Bmult mode_NE i287 (Bdiv mode_NE i1 i82)) false 14680063 (-22)) as H. rewrite v287 in H.
  rewrite H; [|reflexivity|vm_compute; reflexivity].
  erewrite val by (vm_compute; reflexivity). unfold F2R. cbn [cond_Zopp Fnum Fexp bpow]. change (Z.pow_pos radix2 22) with 4194304%Z.
  split; [rewrite Rabs_pos_eq; lra | rewrite Rabs_pos_eq by lra; intros; lra].
Qed.
