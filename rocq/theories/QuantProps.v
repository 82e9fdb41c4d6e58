(** C79: quantization. *)
From Coq Require Import List ZArith QArith Qabs Qminmax Qround Bool Reals Lia Lra Lqa.
From Flocq Require Import Core BinarySingleNaN.
From Verif Require Import Util QuantSpec QuantModel QuantProofs QuantFloat QuantReciprocal.
Import ListNotations.
Open Scope Z_scope.

(** The code emitted for roundEven rounds to the nearest integer, ties to even. *)
Theorem C79_round_half_even : forall x, exists n, rounded x n /\ (roundEvenEmulation exactQ x == inject_Z n)%Q.
Proof. intros x. exists (emuZ x). split; [apply emu_rounded | apply emu_eq]. Qed.

(** Also with floating-point numbers, for all values and precisions: no rounding error in the
    intermediate steps changes the result. *)
Theorem C79_round_half_even_float : forall emin prec x, 1 < prec -> emin <= -1 ->
  generic_format radix2 (FLT_exp emin prec) x ->
  exists n, roundEvenEmulation (floats emin prec) x = IZR n /\ roundedR x n.
Proof. intros emin prec x H1 H2 H. apply emulation_rounds; auto. Qed.

(** QuantizeLinear: every element is rounded, shifted and saturated. *)
Theorem C79_quantize : forall rec unsigned scale zp xs, ~ (scale == 0)%Q ->
  exists ys, quantizeLinear false rec unsigned scale zp xs = Some ys /\
    Forall2 (quantized (if unsigned then 0 else -128) (if unsigned then 255 else 127) scale (match zp with Some z => z | None => 0 end)) xs ys.
Proof.
  intros rec u scale zp xs Hs. unfold quantizeLinear. cbv zeta.
  apply mapM_Forall2. intros x _. exists (saturate (lo8 u) (hi8 u) (emuZ (x / scale) + zpZ zp)). split.
  - pose proof (quantizeElement_ok rec u scale (option_map inject_Z zp) zp x (emuZ (x / scale)) Hs) as H.
    destruct u; apply H; try (apply emu_rounded); destruct zp; cbn; auto; reflexivity.
  - exists (emuZ (x / scale)). split; [apply emu_rounded|]. destruct u; reflexivity.
Qed.

(** Larger values do not become smaller. *)
Theorem C79_monotone : forall lo hi scale zp x x' y y', (0 < scale)%Q -> (x <= x')%Q ->
  quantized lo hi scale zp x y -> quantized lo hi scale zp x' y' -> y <= y'.
Proof.
  intros lo hi scale zp x x' y y' Hs L (n & R1 & ->) (n' & R2 & ->).
  assert (n <= n'). { eapply rounded_mono; [|exact R1|exact R2]. apply Qle_shift_div_l; auto. assert ((x / scale * scale == x)%Q) by (field; lra). rewrite H; auto. }
  unfold saturate. lia.
Qed.

(** Dequantizing gives the value back up to half a step, when it is in the range of the quantized
    type. *)
Theorem C79_round_trip : forall rec (unsigned : bool) scale zp x y, (0 < scale)%Q ->
  (inject_Z (if unsigned then 0 else -128) - (1 # 2) <= x / scale + inject_Z zp <= inject_Z (if unsigned then 255 else 127) + (1 # 2))%Q ->
  quantizeLinear false rec unsigned scale (Some zp) [x] = Some [y] ->
  (Qabs (dequantizeElement false scale (Some zp) y - x) <= scale / 2)%Q.
Proof.
  intros rec u scale zp x y Hs Hr E. destruct (C79_quantize rec u scale (Some zp) [x]) as (ys & E2 & F); [lra|].
  rewrite E in E2. injection E2 as <-. inversion F as [|? ? ? ? (n & Hn & Ey) _]; subst.
  assert (D : (dequantizeElement false scale (Some zp) (saturate (if u then 0 else -128) (if u then 255 else 127) (n + zp)) ==
    dequantized scale zp (saturate (if u then 0 else -128) (if u then 255 else 127) (n + zp)))%Q).
  { unfold dequantizeElement, dequantized. rewrite injZ_sub. reflexivity. }
  rewrite D. apply round_trip; auto. destruct u; lia.
Qed.

(** Quantizing a dequantized value gives it back. *)
Theorem C79_requantize : forall rec (unsigned : bool) scale zp y, ~ (scale == 0)%Q ->
  (if unsigned then 0 else -128) <= y <= (if unsigned then 255 else 127) ->
  quantizeLinear false rec unsigned scale (Some zp) [dequantizeElement false scale (Some zp) y] = Some [y].
Proof.
  intros rec u scale zp y Hs Hy. destruct (C79_quantize rec u scale (Some zp) [dequantizeElement false scale (Some zp) y] Hs) as (ys & E & F).
  rewrite E. f_equal. inversion F as [|? y' ? l (n & Hn & Ey) Fl]; subst. inversion Fl; subst. f_equal.
  assert (n = y - zp). { eapply rounded_unique; [exact Hn|]. eapply rounded_comp; [|apply rounded_Z]. unfold dequantizeElement. rewrite injZ_sub. field. auto. }
  subst n. unfold saturate. replace (y - zp + zp) with y by lia. destruct u; lia.
Qed.

Lemma scale_pos lo hi xs : isMin xs lo -> isMax xs hi -> (lo <= 0 /\ 0 <= hi)%Q.
Proof. intros [_ A] [_ B]. split; [apply A | apply B]; cbn; auto. Qed.

(** DynamicQuantizeLinear computes the scale and the zero point of the data, and quantizes with
    them. *)
Theorem C79_dynamic : forall rec xs ys scale zp, dynamicQuantizeLinear false rec xs = Some (ys, scale, zp) ->
  (0 < scale)%Q /\ dynamicScale xs scale /\ dynamicZeroPoint xs scale zp /\ Forall2 (quantized 0 255 scale zp) xs ys.
Proof.
  intros rec xs ys scale zp. unfold dynamicQuantizeLinear. destruct xs as [|x r]; [discriminate|]. cbn [reduceMin reduceMax obind negb]. cbv zeta.
  unfold dynamicParameters. cbv zeta. pose proof (isMin_fold x r) as M1. pose proof (isMax_fold x r) as M2.
  set (lo := Qmin (fold_left Qmin r x) 0) in *. set (hi := Qmax (fold_left Qmax r x) 0) in *.
  pose proof (scale_pos _ _ _ M1 M2) as [L0 H0].
  destruct (Qeq_bool ((hi - lo) / (255 - 0)) 0) eqn:Es; [discriminate|]. cbn [obind].
  assert (Hs : ~ ((hi - lo) / (255 - 0) == 0)%Q) by (intros X; apply Qeq_bool_iff in X; congruence).
  set (s := ((hi - lo) / (255 - 0))%Q) in *.
  assert (Sp : (0 < s)%Q).
  { destruct (Qlt_le_dec 0 s); auto. exfalso. apply Hs. assert (0 <= s)%Q; [|apply Qle_antisym; auto]. subst s. apply Qle_shift_div_l; [reflexivity|]. lra. }
  assert (Eq255 : (hi - lo == 255 * s)%Q) by (subst s; field).
  set (u := (0 - lo / s)%Q).
  assert (Hu : (0 <= u <= 255)%Q).
  { subst u. split.
    - assert (lo / s <= 0)%Q by (apply Qle_shift_div_r; auto; lra). lra.
    - assert (-(255#1) <= lo / s)%Q by (apply Qle_shift_div_l; auto; lra). lra. }
  assert (Hz : exists n, rounded u n /\ 0 <= n <= 255 /\ (roundEvenEmulation exactQ (clip u 0 255) == inject_Z n)%Q).
  { exists (emuZ (clip u 0 255)). assert (R : rounded u (emuZ (clip u 0 255))) by (eapply rounded_comp; [apply (clip_id u 0 255 Hu) | apply emu_rounded]).
    split; auto. split; [|apply emu_eq].
    split; [eapply rounded_mono; [|exact (rounded_Z 0)|exact R] | eapply rounded_mono; [|exact R|exact (rounded_Z 255)]]; [exact (proj1 Hu) | exact (proj2 Hu)]. }
  destruct Hz as (n & Rn & Bn & En). pose proof (cast8_Z true _ n En Bn) as Ec; cbn [cast8] in Ec; rewrite Ec.
  cbn [obind].
  destruct (mapM_Forall2 (quantizeElement rec true 0 255 s (Some (roundEvenEmulation exactQ (clip u 0 255)))) (quantized 0 255 s n) (x :: r)) as (m & Em & Fm).
  { intros a _. exists (saturate 0 255 (emuZ (a / s) + n)). split; [|exists (emuZ (a / s)); split; [apply emu_rounded | reflexivity]].
    apply (quantizeElement_ok rec true s (Some _) (Some n) a (emuZ (a / s)) Hs En (emu_rounded _)). }
  match goal with |- context [mapM ?f ?l] => replace (mapM f l) with (Some m) by (symmetry; exact Em) end. cbn [obind]. intros E. injection E as <- <- <-.
  split; auto. split; [exists lo, hi; split; auto; split; auto; subst s; field|].
  split; auto. exists lo, n. split; auto. split; auto. unfold saturate. lia.
Qed.

(** It succeeds for every tensor with a non-zero element. *)
Theorem C79_dynamic_defined : forall rec xs, (exists x, In x xs /\ ~ (x == 0)%Q) ->
  exists ys scale zp, dynamicQuantizeLinear false rec xs = Some (ys, scale, zp).
Proof.
  intros rec xs (x0 & Hx & N0). unfold dynamicQuantizeLinear. destruct xs as [|x r]; [destruct Hx|]. cbn [reduceMin reduceMax obind negb]. cbv zeta.
  unfold dynamicParameters. cbv zeta. pose proof (isMin_fold x r) as M1. pose proof (isMax_fold x r) as M2.
  set (lo := Qmin (fold_left Qmin r x) 0) in *. set (hi := Qmax (fold_left Qmax r x) 0) in *.
  pose proof (scale_pos _ _ _ M1 M2) as [L0 H0].
  assert (A : (lo <= x0 <= hi)%Q) by (split; [apply M1 | apply M2]; right; exact Hx).
  destruct (Qeq_bool ((hi - lo) / (255 - 0)) 0) eqn:Es.
  { exfalso. apply Qeq_bool_iff in Es. assert (hi - lo == 0)%Q. { assert (X : (hi - lo == (hi - lo) / (255 - 0) * 255)%Q) by field. rewrite Es in X. rewrite X. reflexivity. } apply N0. lra. }
  cbn [obind]. assert (Hs : ~ ((hi - lo) / (255 - 0) == 0)%Q) by (intros X; apply Qeq_bool_iff in X; congruence).
  set (s := ((hi - lo) / (255 - 0))%Q) in *. set (u := (0 - lo / s)%Q).
  set (n := emuZ (clip u 0 255)). pose proof (emu_eq (clip u 0 255)) as En. fold n in En.
  assert (Bn : 0 <= n <= 255).
  { pose proof (emu_rounded (clip u 0 255)) as R. fold n in R.
    assert (C : (0 <= clip u 0 255 <= 255)%Q). { unfold clip. split; [apply Q.min_glb; [apply Q.le_max_r | lra] | apply Q.le_min_r]. }
    split; [eapply rounded_mono; [exact (proj1 C)|exact (rounded_Z 0)|exact R] | eapply rounded_mono; [exact (proj2 C)|exact R|exact (rounded_Z 255)]]. }
  pose proof (cast8_Z true _ n En Bn) as Ec. cbn [cast8] in Ec. rewrite Ec. cbn [obind].
  destruct (mapM_Forall2 (quantizeElement rec true 0 255 s (Some (roundEvenEmulation exactQ (clip u 0 255)))) (fun _ _ => True) (x :: r)) as (m & Em & _).
  { intros a _. exists (saturate 0 255 (emuZ (a / s) + n)). split; auto.
    apply (quantizeElement_ok rec true s (Some _) (Some n) a (emuZ (a / s)) Hs En (emu_rounded _)). }
  match goal with |- context [mapM ?f ?l] => replace (mapM f l) with (Some m) by (symmetry; exact Em) end. cbn [obind]. eauto.
Qed.

(** Every element comes back up to half a step, and 0 exactly. *)
Theorem C79_dynamic_round_trip : forall rec xs ys scale zp, dynamicQuantizeLinear false rec xs = Some (ys, scale, zp) ->
  Forall2 (fun x y => Qabs (dequantizeElement false scale (Some zp) y - x) <= scale / 2 /\
                      (x == 0 -> dequantizeElement false scale (Some zp) y == 0))%Q xs ys.
Proof.
  intros rec xs ys scale zp E. apply C79_dynamic in E as (Sp & (lo & hi & M1 & M2 & Es) & (lo' & n & M1' & Rn & Ez) & F).
  assert (El : (lo == lo')%Q) by (apply Qle_antisym; destruct M1 as [(a & Ia & Ea) Ha], M1' as [(a' & Ia' & Ea') Ha']; [rewrite Ea'; apply Ha; auto | rewrite Ea; apply Ha'; auto]).
  pose proof (scale_pos _ _ _ M1 M2) as [L0 H0].
  assert (E255 : (hi - lo == 255 * scale)%Q) by (rewrite Es; field).
  assert (Hn : (rounded (0 - lo / scale) n)) by (eapply rounded_comp; [|exact Rn]; rewrite El; reflexivity). clear Rn M1' El.
  assert (Hu : (0 <= 0 - lo / scale <= 255)%Q).
  { split.
    - assert (lo / scale <= 0)%Q by (apply Qle_shift_div_r; auto; lra). lra.
    - assert (-(255#1) <= lo / scale)%Q by (apply Qle_shift_div_l; auto; lra). lra. }
  assert (Bn : 0 <= n <= 255).
  { split; [eapply rounded_mono; [|exact (rounded_Z 0)|exact Hn] | eapply rounded_mono; [|exact Hn|exact (rounded_Z 255)]]; [exact (proj1 Hu) | exact (proj2 Hu)]. }
  assert (En : zp = n) by (unfold saturate in Ez; lia). clear Ez. subst zp. clear lo'.
  assert (D : forall y, (dequantizeElement false scale (Some n) y == dequantized scale n y)%Q).
  { intros y. unfold dequantizeElement, dequantized. rewrite injZ_sub. reflexivity. }
  assert (G : forall x y, In x xs -> quantized 0 255 scale n x y -> (Qabs (dequantizeElement false scale (Some n) y - x) <= scale / 2 /\
                      (x == 0 -> dequantizeElement false scale (Some n) y == 0))%Q).
  { intros x y Ix (k & Rk & ->). split.
    - rewrite D. apply round_trip; auto; [lia|]. destruct Hn as [Hn _]. apply Qabs_le in Hn as [N1 N2].
      assert (B : (lo <= x <= hi)%Q) by (split; [apply M1 | apply M2]; right; auto).
      assert (B1 : (lo / scale <= x / scale)%Q) by (apply Qle_shift_div_l; auto; assert (X : (lo / scale * scale == lo)%Q) by (field; lra); rewrite X; apply B).
      assert (B2 : (x / scale <= lo / scale + 255)%Q).
      { apply Qle_shift_div_r; auto. assert (X : ((lo / scale + 255) * scale == lo + 255 * scale)%Q) by (field; lra). rewrite X, <- E255. lra. }
      change (inject_Z 0) with 0%Q. change (inject_Z 255) with (255 # 1)%Q. split; lra.
    - intros X0. assert (k = 0). { eapply rounded_unique; [exact Rk|]. eapply rounded_comp; [|exact (rounded_Z 0)]. change (inject_Z 0) with 0%Q. rewrite X0. field. lra. }
      subst k. unfold saturate. replace (Z.max 0 (Z.min 255 (0 + n))) with n by lia. rewrite D. unfold dequantized. rewrite Z.sub_diag. change (inject_Z 0) with 0%Q. ring. }
  clear - F G. revert G. induction F; intros G; constructor; [apply G; cbn; auto|]. apply IHF. intros; apply G; cbn; auto.
Qed.

(** A tensor of zeros has scale 0: the zero point is 0 / 0. ONNX asks for zero point 0 and elements
    0 in this case. *)
Theorem C79_all_zero_refuted : ~ (forall rec xs, xs <> [] -> exists r, dynamicQuantizeLinear false rec xs = Some r).
Proof. intros H. destruct (H false [0%Q]) as (r & E); [discriminate|]. vm_compute in E. discriminate. Qed.

(** With floating-point numbers: the result is the saturated rounding of the rounded quotient; the
    addition of the zero point adds no error, also where it is inexact. *)
Theorem C79_quantize_float : forall emin prec unsigned scale zp x, 9 < prec -> emin <= -1 ->
  (match zp with Some z => -128 <= z <= 255 | None => True end) ->
  exists n, roundedR (rnd emin prec (x / scale)) n /\
    quantizeFloat emin prec false unsigned scale zp x =
    saturate (if unsigned then 0 else -128) (if unsigned then 255 else 127) (n + match zp with Some z => z | None => 0 end).
Proof. exact quantizeFloat_ok. Qed.
Theorem C79_monotone_float : forall emin prec unsigned scale zp x x', 9 < prec -> emin <= -1 ->
  (match zp with Some z => -128 <= z <= 255 | None => True end) -> (0 < scale)%R -> (x <= x')%R ->
  quantizeFloat emin prec false unsigned scale zp x <= quantizeFloat emin prec false unsigned scale zp x'.
Proof.
  intros emin prec u scale zp x x' Hp He Hz Hs L.
  destruct (quantizeFloat_ok emin prec u scale zp x Hp He Hz) as (n & Rn & ->).
  destruct (quantizeFloat_ok emin prec u scale zp x' Hp He Hz) as (n' & Rn' & ->).
  assert (n <= n'); [|unfold saturate; lia]. eapply roundedR_mono; [|exact Rn|exact Rn'].
  assert (Prec_gt_0 prec) by (red; lia). apply round_le; try typeclasses eauto. apply Rmult_le_compat_r; auto. left. apply Rinv_0_lt_compat; auto.
Qed.

(** Multiplying by the reciprocal, as with fast math, changes results: 287 / 82 = 3.5 is quantized
    to 4 or to 3. *)
Theorem C79_reciprocal_refuted : exists scale x, (0 < scale)%R /\
  quantizeFloat (-149) 24 false true scale None x = 4 /\ quantizeFloat (-149) 24 true true scale None x = 3.
Proof.
  exists 82%R, 287%R. split; [apply IZR_lt; reflexivity|]. split; [apply reciprocal_false | apply reciprocal_true].
Qed.

(** With the option that disables zero points, a given zero point is ignored. *)
Theorem C79_disable_refuted : ~ (forall disable scale zp xs ys, ~ (scale == 0)%Q -> quantizeLinear disable false true scale (Some zp) xs = Some ys ->
  Forall2 (quantized 0 255 scale zp) xs ys).
Proof.
  intros H. specialize (H true 1%Q 5 [0%Q] [0]). assert (F : Forall2 (quantized 0 255 1 5) [0%Q] [0]) by (apply H; [lra | vm_compute; reflexivity]).
  inversion F as [|? ? ? ? (n & Rn & E) _]; subst. assert (n = 0) by (eapply rounded_unique; [exact Rn | exact (rounded_Z 0)]). subst. discriminate.
Qed.

Example C79_ex_quantize : quantizeLinear false false true (1 # 2)%Q (Some 10) [0; 3 # 4; 5 # 4; 1000; -7; 1 # 4]%Q = Some [10; 12; 12; 255; 0; 10].
Proof. vm_compute. reflexivity. Qed.
Example C79_ex_signed : quantizeLinear false true false (1 # 2)%Q None [0; 3 # 4; 5 # 4; 1000; -7; -1000]%Q = Some [0; 2; 2; 127; -14; -128].
Proof. vm_compute. reflexivity. Qed.
Example C79_ex_dynamic : exists s, dynamicQuantizeLinear false false [0; 2; -3; -5 # 2; 134 # 100; 1 # 2]%Q = Some ([153; 255; 0; 25; 221; 179], s, 153).
Proof. eexists. vm_compute. reflexivity. Qed.
Example C79_ex_float : generic_format radix2 (FLT_exp (-149) 24) (5 / 2).
Proof. apply format_half_int; cbn; lia. Qed.

Print Assumptions C79_round_half_even.
Print Assumptions C79_round_half_even_float.
Print Assumptions C79_quantize.
Print Assumptions C79_monotone.
Print Assumptions C79_round_trip.
Print Assumptions C79_requantize.
Print Assumptions C79_dynamic.
Print Assumptions C79_dynamic_defined.
Print Assumptions C79_dynamic_round_trip.
Print Assumptions C79_all_zero_refuted.
Print Assumptions C79_quantize_float.
Print Assumptions C79_monotone_float.
Print Assumptions C79_reciprocal_refuted.
Print Assumptions C79_disable_refuted.
