(** Lemmas about modular arithmetic, folding and the generated code. *)
From Coq Require Import ZArith List Bool Lia Znumtheory.
From Verif Require Import FoldSpec FoldModel.
Import ListNotations.
Open Scope Z_scope.

Definition eqm (n a b : Z) : Prop := a mod 2 ^ n = b mod 2 ^ n.

Lemma pow2_pos : forall n, 0 <= n -> 0 < 2 ^ n.
Proof. intros. apply Z.pow_pos_nonneg; lia. Qed.

Lemma eqm_refl : forall n a, eqm n a a.
Proof. reflexivity. Qed.

Lemma eqm_le : forall n m a b, 0 <= n <= m -> eqm m a b -> eqm n a b.
Proof.
  unfold eqm; intros n m a b Hnm H.
  assert (D : (2 ^ n | 2 ^ m)).
  { exists (2 ^ (m - n)). rewrite <- Z.pow_add_r by lia. f_equal; lia. }
  rewrite (Zmod_div_mod (2 ^ n) (2 ^ m) a) by (try apply pow2_pos; auto; lia).
  rewrite (Zmod_div_mod (2 ^ n) (2 ^ m) b) by (try apply pow2_pos; auto; lia).
  congruence.
Qed.

Lemma eqm_add : forall n a b c d, eqm n a b -> eqm n c d -> eqm n (a + c) (b + d).
Proof.
  unfold eqm; intros. rewrite Zplus_mod, H, H0, <- Zplus_mod. reflexivity.
Qed.
Lemma eqm_sub : forall n a b c d, eqm n a b -> eqm n c d -> eqm n (a - c) (b - d).
Proof.
  unfold eqm; intros. rewrite Zminus_mod, H, H0, <- Zminus_mod. reflexivity.
Qed.
Lemma eqm_mul : forall n a b c d, eqm n a b -> eqm n c d -> eqm n (a * c) (b * d).
Proof.
  unfold eqm; intros. rewrite Zmult_mod, H, H0, <- Zmult_mod. reflexivity.
Qed.
Lemma eqm_opp : forall n a b, eqm n a b -> eqm n (- a) (- b).
Proof.
  intros. replace (- a) with (0 - a) by lia. replace (- b) with (0 - b) by lia.
  apply eqm_sub; auto. apply eqm_refl.
Qed.
Lemma eqm_lnot : forall n a b, eqm n a b -> eqm n (Z.lnot a) (Z.lnot b).
Proof.
  intros. unfold Z.lnot, Z.pred. apply eqm_add; [apply eqm_opp; auto | apply eqm_refl].
Qed.
Lemma eqm_sym : forall n a b, eqm n a b -> eqm n b a.
Proof. unfold eqm; congruence. Qed.
Lemma eqm_trans : forall n a b c, eqm n a b -> eqm n b c -> eqm n a c.
Proof. unfold eqm; congruence. Qed.
Lemma eqm_mod : forall n a, 0 <= n -> eqm n (a mod 2 ^ n) a.
Proof.
  unfold eqm; intros. apply Z.mod_mod. pose proof (pow2_pos n H); lia.
Qed.

Lemma bits_mod : forall n a i, 0 <= n -> 0 <= i ->
  Z.testbit (a mod 2 ^ n) i = (i <? n) && Z.testbit a i.
Proof.
  intros n a i Hn Hi. destruct (Z.ltb_spec i n).
  - rewrite Z.mod_pow2_bits_low by lia. reflexivity.
  - rewrite Z.mod_pow2_bits_high by lia. reflexivity.
Qed.

Lemma land_mod : forall n a b, 0 <= n ->
  Z.land (a mod 2 ^ n) (b mod 2 ^ n) = (Z.land a b) mod 2 ^ n.
Proof.
  intros n a b Hn. apply Z.bits_inj'. intros i Hi.
  rewrite Z.land_spec, !bits_mod, Z.land_spec by auto.
  destruct (i <? n), (Z.testbit a i), (Z.testbit b i); reflexivity.
Qed.
Lemma lor_mod : forall n a b, 0 <= n ->
  Z.lor (a mod 2 ^ n) (b mod 2 ^ n) = (Z.lor a b) mod 2 ^ n.
Proof.
  intros n a b Hn. apply Z.bits_inj'. intros i Hi.
  rewrite Z.lor_spec, !bits_mod, Z.lor_spec by auto.
  destruct (i <? n), (Z.testbit a i), (Z.testbit b i); reflexivity.
Qed.
Lemma lnot_mod : forall n a, 0 <= n ->
  Z.lxor (a mod 2 ^ n) (2 ^ n - 1) = (Z.lnot a) mod 2 ^ n.
Proof.
  intros n a Hn. replace (2 ^ n - 1) with (Z.ones n) by (rewrite Z.ones_equiv; lia).
  apply Z.bits_inj'. intros i Hi.
  rewrite Z.lxor_spec, !bits_mod, Z.lnot_spec, Z.testbit_ones by auto.
  replace (0 <=? i) with true by (symmetry; apply Z.leb_le; lia).
  destruct (i <? n), (Z.testbit a i); reflexivity.
Qed.

Lemma eqm_land : forall n a b c d, 0 <= n ->
  eqm n a b -> eqm n c d -> eqm n (Z.land a c) (Z.land b d).
Proof.
  unfold eqm; intros. rewrite <- !land_mod by auto. congruence.
Qed.
Lemma eqm_lor : forall n a b c d, 0 <= n ->
  eqm n a b -> eqm n c d -> eqm n (Z.lor a c) (Z.lor b d).
Proof.
  unfold eqm; intros. rewrite <- !lor_mod by auto. congruence.
Qed.

(** ** wrap, narrow and patterns *)

Lemma widthOK_range : forall w, widthOK w -> 8 <= w <= 64.
Proof. unfold widthOK; lia. Qed.

Lemma half_pow : forall w, 1 <= w -> 2 ^ w = 2 * 2 ^ (w - 1).
Proof.
  intros. replace w with (1 + (w - 1)) at 1 by lia.
  rewrite Z.pow_add_r by lia. reflexivity.
Qed.

Lemma wrap_eqm : forall s w v, widthOK w -> eqm w (wrap (TInt s w) v) v.
Proof.
  intros s w v Hw. apply widthOK_range in Hw. destruct s; cbn [wrap].
  - eapply eqm_trans.
    + apply eqm_sub; [apply eqm_mod; lia | apply eqm_refl].
    + replace (v + 2 ^ (w - 1) - 2 ^ (w - 1)) with v by lia. apply eqm_refl.
  - apply eqm_mod; lia.
Qed.

Lemma wrap_resp : forall s w a b, eqm w a b -> wrap (TInt s w) a = wrap (TInt s w) b.
Proof.
  intros s w a b H. destruct s; cbn [wrap].
  - pose proof (eqm_add w a b (2 ^ (w - 1)) (2 ^ (w - 1)) H (eqm_refl _ _)) as H'.
    unfold eqm in H'. rewrite H'. reflexivity.
  - exact H.
Qed.

Lemma wrap_range : forall t v, tyOK t -> inRange t (wrap t v).
Proof.
  intros [|s w] v Hw; cbn [wrap inRange].
  - destruct (v =? 0); auto.
  - cbn in Hw. apply widthOK_range in Hw.
    pose proof (pow2_pos w ltac:(lia)). pose proof (half_pow w ltac:(lia)).
    destruct s.
    + pose proof (Z.mod_pos_bound (v + 2 ^ (w - 1)) (2 ^ w) H). lia.
    + apply Z.mod_pos_bound; auto.
Qed.

Lemma wrap_id : forall t v, tyOK t -> inRange t v -> wrap t v = v.
Proof.
  intros [|s w] v Hw Hr; cbn [wrap inRange] in *.
  - destruct Hr; subst; reflexivity.
  - cbn in Hw. apply widthOK_range in Hw.
    pose proof (pow2_pos w ltac:(lia)). pose proof (half_pow w ltac:(lia)).
    destruct s.
    + rewrite Z.mod_small by lia. lia.
    + apply Z.mod_small; auto.
Qed.

Lemma eqm_small : forall n lo a b, 0 <= n ->
  lo <= a < lo + 2 ^ n -> lo <= b < lo + 2 ^ n -> eqm n a b -> a = b.
Proof.
  unfold eqm. intros n lo a b Hn Ha Hb H.
  pose proof (pow2_pos n Hn).
  pose proof (Z.div_mod a (2 ^ n) ltac:(lia)).
  pose proof (Z.div_mod b (2 ^ n) ltac:(lia)).
  assert (a / 2 ^ n = b / 2 ^ n \/ a / 2 ^ n < b / 2 ^ n \/ b / 2 ^ n < a / 2 ^ n)
    as [E|[E|E]] by lia; nia.
Qed.

Lemma inRange_eqm : forall s w a b, widthOK w ->
  inRange (TInt s w) a -> inRange (TInt s w) b -> eqm w a b -> a = b.
Proof.
  intros s w a b Hw Ha Hb H. apply widthOK_range in Hw.
  pose proof (half_pow w ltac:(lia)).
  destruct s; cbn [inRange] in *.
  - apply (eqm_small w (- 2 ^ (w - 1))); auto; lia.
  - apply (eqm_small w 0); auto; lia.
Qed.

Lemma narrow_range : forall t a, tyOK t -> inRange t (narrow t a).
Proof.
  intros [|s w] a Hw; cbn [narrow inRange].
  - destruct (a =? 0); auto.
  - cbn in Hw. apply widthOK_range in Hw.
    pose proof (pow2_pos w ltac:(lia)). pose proof (half_pow w ltac:(lia)).
    pose proof (Z.mod_pos_bound a (2 ^ w) H).
    destruct s; auto. destruct (Z.ltb_spec (a mod 2 ^ w) (2 ^ (w - 1))); lia.
Qed.

Lemma sint_eqm : forall w p, eqm w (sint w p) p.
Proof.
  intros w p. unfold sint. destruct (p <? 2 ^ (w - 1)); [apply eqm_refl|].
  unfold eqm. replace (p - 2 ^ w) with (p + (-1) * 2 ^ w) by lia.
  apply Z_mod_plus_full.
Qed.

Lemma narrow_wrap : forall t a, tyOK t -> narrow t a = wrap t a.
Proof.
  intros [|s w] a Hw; [reflexivity|].
  apply (inRange_eqm s w); auto.
  - apply (narrow_range (TInt s w)); auto.
  - apply (wrap_range (TInt s w)); auto.
  - eapply eqm_trans; [|apply eqm_sym, wrap_eqm; auto].
    cbn in Hw. apply widthOK_range in Hw.
    destruct s; cbn [narrow].
    + change (eqm w (sint w (a mod 2 ^ w)) a).
      eapply eqm_trans; [apply sint_eqm|apply eqm_mod; lia].
    + apply eqm_mod; lia.
Qed.

Lemma sint_pat : forall w m, widthOK w -> inRange (TInt true w) m -> sint w (pat w m) = m.
Proof.
  intros w m Hw Hm. pose proof (narrow_wrap (TInt true w) m Hw) as E.
  change (narrow (TInt true w) m) with (sint w (pat w m)) in E.
  rewrite E. apply wrap_id; auto.
Qed.

Lemma pat_eqm : forall w a b, eqm w a b -> pat w a = pat w b.
Proof. auto. Qed.

(** ** Wide numbers *)

Definition Wide (t : ety) (a : Z) : Prop :=
  match t with
  | TBool => a = 0 \/ a = 1
  | TInt true _ => - 2 ^ 63 <= a < 2 ^ 63
  | TInt false _ => 0 <= a < 2 ^ 64
  end.

Lemma Wide64 : forall s w a, Wide (TInt s w) a = inRange (TInt s 64) a.
Proof. intros [] w a; reflexivity. Qed.

Lemma inRange_Wide : forall t a, tyOK t -> inRange t a -> Wide t a.
Proof.
  intros [|s w] a Hw Ha; auto. cbn in Hw. apply widthOK_range in Hw.
  destruct s; cbn [inRange Wide] in *.
  - pose proof (Z.pow_le_mono_r 2 (w - 1) 63 ltac:(lia) ltac:(lia)). lia.
  - pose proof (Z.pow_le_mono_r 2 w 64 ltac:(lia) ltac:(lia)). lia.
Qed.

(** The relation between a wide number and the unbounded value. *)
Definition tracks (t : ety) (a v : Z) : Prop :=
  Wide t a /\ match t with TBool => a = v | TInt _ _ => eqm 64 a v end.

Lemma W64 : widthOK 64.
Proof. unfold widthOK; auto. Qed.

Lemma tracks_fits : forall t a v, tyOK t -> tracks t a v -> inRange t v -> a = v.
Proof.
  intros [|s w] a v Hw [Ha He] Hv; auto.
  apply (inRange_eqm s 64); auto using W64.
  pose proof (inRange_Wide (TInt s w) v Hw Hv). destruct s; assumption.
Qed.

Lemma i64_inv : forall v w, i64 v = Some w -> w = v /\ - 2 ^ 63 <= w < 2 ^ 63.
Proof.
  unfold i64, min64, max64. intros v w H.
  destruct (Z.leb_spec (- 2 ^ 63) v); cbn [andb] in H; [|discriminate].
  destruct (Z.leb_spec v (2 ^ 63 - 1)); [|discriminate].
  injection H as <-. lia.
Qed.

Lemma u64_ok : forall v, 0 <= u64 v < 2 ^ 64 /\ eqm 64 (u64 v) v.
Proof.
  intros v. unfold u64, two64. split.
  - apply Z.mod_pos_bound. reflexivity.
  - apply eqm_mod; lia.
Qed.

Lemma signed_bits : forall a, - 2 ^ 63 <= a < 2 ^ 63 <->
  (Z.shiftr a 63 = 0 \/ Z.shiftr a 63 = -1).
Proof.
  intros a. rewrite Z.shiftr_div_pow2 by lia.
  pose proof (Z.div_mod a (2 ^ 63) ltac:(lia)).
  pose proof (Z.mod_pos_bound a (2 ^ 63) ltac:(lia)).
  split; intros; [|destruct H1]; nia.
Qed.

Lemma land_signed : forall a b, - 2 ^ 63 <= a < 2 ^ 63 -> - 2 ^ 63 <= b < 2 ^ 63 ->
  - 2 ^ 63 <= Z.land a b < 2 ^ 63.
Proof.
  intros a b Ha Hb. rewrite signed_bits in *. rewrite Z.shiftr_land.
  destruct Ha as [->| ->], Hb as [->| ->]; cbn; auto.
Qed.
Lemma lor_signed : forall a b, - 2 ^ 63 <= a < 2 ^ 63 -> - 2 ^ 63 <= b < 2 ^ 63 ->
  - 2 ^ 63 <= Z.lor a b < 2 ^ 63.
Proof.
  intros a b Ha Hb. rewrite signed_bits in *. rewrite Z.shiftr_lor.
  destruct Ha as [->| ->], Hb as [->| ->]; cbn; auto.
Qed.
Lemma land_unsigned : forall a b, 0 <= a < 2 ^ 64 -> 0 <= b < 2 ^ 64 ->
  0 <= Z.land a b < 2 ^ 64.
Proof.
  intros a b Ha Hb.
  rewrite <- (Z.mod_small a (2 ^ 64)), <- (Z.mod_small b (2 ^ 64)) by auto.
  rewrite land_mod by lia. apply Z.mod_pos_bound. lia.
Qed.
Lemma lor_unsigned : forall a b, 0 <= a < 2 ^ 64 -> 0 <= b < 2 ^ 64 ->
  0 <= Z.lor a b < 2 ^ 64.
Proof.
  intros a b Ha Hb.
  rewrite <- (Z.mod_small a (2 ^ 64)), <- (Z.mod_small b (2 ^ 64)) by auto.
  rewrite lor_mod by lia. apply Z.mod_pos_bound. lia.
Qed.

Lemma toDouble_exact : forall v, Z.abs v <= 2 ^ 53 -> toDouble v = v.
Proof.
  intros v Hv. unfold toDouble.
  assert (Hs : Z.sgn v * Z.abs v = v) by (pose proof (Z.sgn_abs v); lia).
  destruct (Z.eq_dec (Z.abs v) (2 ^ 53)) as [E|E].
  - rewrite E in *. replace (roundAbs (2 ^ 53)) with (2 ^ 53) by (vm_compute; reflexivity).
    exact Hs.
  - assert (Hl : Z.log2 (Z.abs v) <= 52).
    { destruct (Z.eq_dec (Z.abs v) 0) as [->|N]; [cbn; lia|].
      assert (Z.log2 (Z.abs v) < 53) by (apply Z.log2_lt_pow2; lia). lia. }
    unfold roundAbs. rewrite (Z.max_l 0) by lia. rewrite Z.pow_0_r, Z.div_1_r, Z.mod_1_r.
    cbn [Z.mul Z.ltb Z.compare orb Z.eqb andb]. lia.
Qed.
