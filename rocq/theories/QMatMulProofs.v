(** Lemmas for the quantized matrix products. *)
From Coq Require Import List ZArith QArith Qabs Bool Lia Lqa.
From Verif Require Import Util QuantSpec QuantModel QuantProofs QMatMulSpec QMatMulModel.
Import ListNotations.
Open Scope Z_scope.

Definition byte (u : bool) (x : Z) : Prop := if u then 0 <= x <= 255 else -128 <= x <= 127.

Lemma wrap32_eq x : exists q, wrap32 x = x + q * 2 ^ 32.
Proof. exists (- ((x + 2 ^ 31) / 2 ^ 32)). unfold wrap32. rewrite Z.mod_eq by discriminate. ring. Qed.
Lemma wrap32_shift x q : wrap32 (x + q * 2 ^ 32) = wrap32 x.
Proof. unfold wrap32. replace (x + q * 2 ^ 32 + 2 ^ 31) with (x + 2 ^ 31 + q * 2 ^ 32) by ring. rewrite Z_mod_plus_full. reflexivity. Qed.
Lemma wrap32_range x : - 2 ^ 31 <= wrap32 x < 2 ^ 31.
Proof. unfold wrap32. pose proof (Z.mod_pos_bound (x + 2 ^ 31) (2 ^ 32) ltac:(reflexivity)). change (2 ^ 32) with (2 ^ 31 + 2 ^ 31) in *. lia. Qed.
Lemma wrap32_small x : - 2 ^ 31 <= x < 2 ^ 31 -> wrap32 x = x.
Proof. intros H. unfold wrap32. rewrite Z.mod_small; [lia|]. change (2 ^ 32) with (2 ^ 31 + 2 ^ 31). lia. Qed.

Lemma foldM_snoc {A S} (f : A -> S -> option S) l a s : foldM f (l ++ [a]) s = (t <- foldM f l s ;; f a t).
Proof.
  revert s; induction l as [|b l IH]; intros s; cbn [app foldM obind].
  - destruct (f a s); reflexivity.
  - destruct (f b s); cbn [obind]; auto.
Qed.

Lemma dot32_ok K f g fa ga : (forall k, 0 <= k < K -> exists q, f k = Some (fa k + q * 2 ^ 32)) ->
  (forall k, 0 <= k < K -> exists q, g k = Some (ga k + q * 2 ^ 32)) ->
  dot32 K f g = Some (wrap32 (total (Z.to_nat K) (fun k => fa k * ga k))).
Proof.
  intros Hf Hg. unfold dot32, zrange.
  assert (G : forall n, (n <= Z.to_nat K)%nat ->
    foldM (fun k acc => a <- f k ;; b <- g k ;; Some (wrap32 (acc + wrap32 (a * b)))) (zseq 0 n) 0 = Some (wrap32 (total n (fun k => fa k * ga k)))).
  { induction n as [|n IH]; intros Hn; [reflexivity|]. replace (S n) with (n + 1)%nat by lia. rewrite zseq_app. cbn [zseq]. rewrite foldM_snoc, IH by lia. cbn [obind].
    replace (n + 1)%nat with (S n) by lia. cbn [total]. rewrite Z.add_0_l.
    destruct (Hf (Z.of_nat n) ltac:(lia)) as (q1 & ->). destruct (Hg (Z.of_nat n) ltac:(lia)) as (q2 & ->). cbn [obind]. f_equal.
    set (x := fa (Z.of_nat n)). set (y := ga (Z.of_nat n)). set (t := total n _).
    replace ((x + q1 * 2 ^ 32) * (y + q2 * 2 ^ 32)) with (x * y + (q1 * y + q2 * x + q1 * q2 * 2 ^ 32) * 2 ^ 32) by ring. rewrite wrap32_shift.
    destruct (wrap32_eq (x * y)) as (q3 & ->). destruct (wrap32_eq t) as (q4 & ->).
    replace (t + q4 * 2 ^ 32 + (x * y + q3 * 2 ^ 32)) with (t + x * y + (q3 + q4) * 2 ^ 32) by ring. apply wrap32_shift. }
  apply G. lia.
Qed.

Lemma valueAt_fun {T} (p : param T) i v w : valueAt p i v -> valueAt p i w -> v = w.
Proof. destruct p as [x|[|x [|y l]]]; cbn [valueAt]; intros A B; subst; auto; congruence. Qed.
Lemma byColumn_ok {T} (p : param T) d j : 0 <= j < d -> fits p d -> exists v, byColumn d j p = Some v /\ valueAt p j v.
Proof.
  intros Hj. destruct p as [x|[|x [|y l]]]; cbn [fits byColumn valueAt]; [intros _; eauto | | intros _; eauto |].
  - intros [H | H]; cbn in H; [lia | lia].
  - intros [H | H]; [cbn in H; lia|]. rewrite H, Z.eqb_refl.
    destruct (nth_error (x :: y :: l) (Z.to_nat j)) eqn:E; [eauto|]. exfalso. apply nth_error_None in E. lia.
Qed.
Lemma unsqueezed_ok {T} (p : param T) M K i k : 0 <= i < M -> fits p M -> exists v, unsqueezed M K i k p = Some v /\ valueAt p i v.
Proof.
  intros Hj. destruct p as [x|[|x [|y l]]]; cbn [fits unsqueezed valueAt]; [intros _; eauto | | intros _; exists x; split; auto |].
  - intros [H | H]; cbn in H; lia.
  - intros [H | H]; [cbn in H; lia|]. rewrite H, Z.eqb_refl.
    replace (M =? 1) with false by (symmetry; apply Z.eqb_neq; cbn [length] in H; lia).
    destruct (nth_error (x :: y :: l) (Z.to_nat i)) eqn:E; [eauto|]. exfalso. apply nth_error_None in E. lia.
Qed.
Lemma mapParam_fits {T U} (f : T -> U) p n : fits p n -> fits (mapParam f p) n.
Proof. destruct p; cbn [fits mapParam]; auto. rewrite map_length. auto. Qed.
Lemma mapParam_valueAt {T U} (f : T -> U) p i v : valueAt (mapParam f p) i v -> exists w, valueAt p i w /\ v = f w.
Proof.
  destruct p as [x|[|x [|y l]]]; cbn [valueAt mapParam map]; [intros ->; eauto | | intros ->; eauto |].
  - destruct (Z.to_nat i); discriminate.
  - change (f x :: f y :: map f l) with (map f (x :: y :: l)). rewrite nth_error_map. destruct (nth_error (x :: y :: l) (Z.to_nat i)) eqn:E; [|discriminate].
    intros X; inversion X; subst. eauto.
Qed.
Lemma byColumn_mapParam {T U} (f : T -> U) d j p : byColumn d j (mapParam f p) = option_map f (byColumn d j p).
Proof.
  destruct p as [x|[|x [|y l]]]; cbn [byColumn mapParam map length]; auto.
  - destruct (_ =? _); auto. destruct (Z.to_nat j); auto.
  - rewrite map_length. destruct (_ =? _); auto. change (f x :: f y :: map f l) with (map f (x :: y :: l)). apply nth_error_map.
Qed.

Lemma toI8_diff u x z : byte u x -> byte u z -> getOrCastToI8 u x - getOrCastToI8 u z = x - z.
Proof.
  unfold byte, getOrCastToI8, wrap8. destruct u; auto. intros A B. rewrite !Z.mod_small by lia. lia.
Qed.

Lemma total_bound n f c : 0 <= c -> (forall k, 0 <= k < Z.of_nat n -> Z.abs (f k) <= c) -> Z.abs (total n f) <= Z.of_nat n * c.
Proof.
  intros Hc. induction n as [|n IH]; intros H; cbn [total]; [lia|].
  pose proof (IH ltac:(intros; apply H; lia)). pose proof (H (Z.of_nat n) ltac:(lia)). nia.
Qed.
Lemma total_ext n f g : (forall k, 0 <= k < Z.of_nat n -> f k = g k) -> total n f = total n g.
Proof. induction n as [|n IH]; intros H; cbn [total]; auto. rewrite IH, H by (intros; try apply H; lia). reflexivity. Qed.

Lemma bytes_bound K u1 u2 a b A B : 0 <= K <= 33025 -> (forall k, 0 <= k < K -> byte u1 (A k)) -> (forall k, 0 <= k < K -> byte u2 (B k)) -> byte u1 a -> byte u2 b ->
  - 2 ^ 31 <= total (Z.to_nat K) (fun k => (A k - a) * (B k - b)) < 2 ^ 31.
Proof.
  intros HK HA HB Ha Hb. pose proof (total_bound (Z.to_nat K) (fun k => (A k - a) * (B k - b)) 65025 ltac:(lia)) as H.
  assert (Z.abs (total (Z.to_nat K) (fun k : Z => (A k - a) * (B k - b))) <= Z.of_nat (Z.to_nat K) * 65025).
  { apply H. intros k Hk. specialize (HA k ltac:(lia)). specialize (HB k ltac:(lia)). rewrite Z.abs_mul.
    assert (Z.abs (A k - a) <= 255) by (unfold byte in *; destruct u1; lia). assert (Z.abs (B k - b) <= 255) by (unfold byte in *; destruct u2; lia). nia. }
  rewrite Z2Nat.id in H0 by lia. change (2 ^ 31) with 2147483648. lia.
Qed.

(** The scale of column j. *)
Lemma scale_ok sa sb sy N j : fits sa 1 -> fits sb N -> 0 <= j < N -> exists a b ab s, (forall i, valueAt sa i a) /\ valueAt sb j b /\
  bin Qmult sa sb = Some ab /\ bin Qdiv ab (One sy) = Some s /\ byColumn N j s = Some (a * b / sy)%Q.
Proof.
  intros Fa Fb Hj. destruct (byColumn_ok sb N j Hj Fb) as (b & Eb & Vb).
  assert (G : exists a, (forall i, valueAt sa i a) /\ (sa = One a \/ sa = Each [a])).
  { destruct sa as [a|[|a [|a' l]]]; [exists a; cbn; auto | cbn in Fa; lia | exists a; cbn; auto | cbn in Fa; lia]. }
  destruct G as (a & Va & Ha). exists a, b.
  destruct sb as [b'|m].
  - cbn in Eb. injection Eb as ->. destruct Ha as [-> | ->]; cbn [bin map].
    + exists (One (a * b))%Q, (One (a * b / sy))%Q. auto.
    + exists (Each [a * b])%Q, (Each [a * b / sy])%Q. auto.
  - exists (Each (map (Qmult a) m)), (Each (map (fun x => x / sy)%Q (map (Qmult a) m))). split; auto. split; auto. split; [destruct Ha as [-> | ->]; reflexivity|].
    split; [cbn [bin]; destruct (map (Qmult a) m) as [|? [|? ?]]; reflexivity|].
    rewrite map_map. change (Each (map (fun x => a * x / sy)%Q m)) with (mapParam (fun x => a * x / sy)%Q (Each m)). rewrite byColumn_mapParam, Eb. reflexivity.
Qed.

Lemma wrap8_eq x : exists q, wrap8 x = x + q * 256.
Proof. exists (- ((x + 128) / 256)). unfold wrap8. rewrite Z.mod_eq by discriminate. ring. Qed.
Lemma wrap8_range x : -128 <= wrap8 x <= 127.
Proof. unfold wrap8. pose proof (Z.mod_pos_bound (x + 128) 256 ltac:(reflexivity)). lia. Qed.

(** The last steps. *)
Lemma finish (uy : bool) n zy : byte uy zy ->
  let r := if uy then wrap8 (wrap32 (wrap32 (n + getOrCastToI8 uy zy) + 128)) mod 256 else wrap8 (wrap32 (n + getOrCastToI8 uy zy)) in
  byte uy r /\ (256 | r - (n + zy)).
Proof.
  intros Hz. destruct uy; cbn [getOrCastToI8]; cbv zeta.
  - replace (wrap8 (zy - 128)) with (zy - 128) by (unfold wrap8, byte in *; rewrite Z.mod_small; lia).
    destruct (wrap32_eq (n + (zy - 128))) as (q1 & ->). destruct (wrap32_eq (n + (zy - 128) + q1 * 2 ^ 32 + 128)) as (q2 & ->).
    match goal with |- context [wrap8 ?x] => destruct (wrap8_eq x) as (q3 & ->) end.
    match goal with |- context [?x mod 256] => pose proof (Z.mod_pos_bound x 256 ltac:(reflexivity)) as B; pose proof (Z.mod_eq x 256 ltac:(discriminate)) as E end.
    split; [unfold byte; lia|]. rewrite E. match goal with |- (256 | ?x - 256 * ?d - _) => exists (q1 * 2 ^ 24 + q2 * 2 ^ 24 + q3 - d) end.
    change (2 ^ 32) with (2 ^ 24 * 256). ring.
  - split; [apply wrap8_range|]. destruct (wrap32_eq (n + zy)) as (q1 & ->). destruct (wrap8_eq (n + zy + q1 * 2 ^ 32)) as (q2 & ->).
    exists (q1 * 2 ^ 24 + q2). change (2 ^ 32) with (2 ^ 24 * 256). ring.
Qed.

Lemma castI32_Z x n : (x == inject_Z n)%Q -> - 2 ^ 31 <= n < 2 ^ 31 -> castI32 x = Some n.
Proof.
  intros E H. unfold castI32. rewrite (toward0_Z _ _ E). cbv zeta.
  replace ((- 2 ^ 31 <=? n) && (n <? 2 ^ 31)) with true; auto. symmetry. apply andb_true_intro; split; [apply Z.leb_le | apply Z.ltb_lt]; lia.
Qed.

Lemma qlinear_ok M K N ua ub uy A sa za B sb zb sy zy i j :
  0 <= i < M -> 0 <= j < N -> 0 <= K <= 33025 ->
  (forall k, 0 <= k < K -> byte ua (A i k) /\ byte ub (B k j)) ->
  (forall v, valueAt za i v -> byte ua v) -> (forall v, valueAt zb j v -> byte ub v) -> byte uy zy ->
  fits za M -> fits zb N -> fits sa 1 -> fits sb N -> ~ (sy == 0)%Q ->
  exists v a b n, product K A B za zb i j v /\ valueAt sa i a /\ valueAt sb j b /\ rounded (inject_Z v * a * b / sy) n /\
    (- 2 ^ 31 <= n < 2 ^ 31 -> exists y, qlinearMatMul M K N ua ub uy A sa (Some za) B sb (Some zb) sy (Some zy) i j = Some y /\ byte uy y /\ (256 | y - (n + zy))).
Proof.
  intros Hi Hj HK HAB Hza Hzb Hzy Fza Fzb Fsa Fsb Hsy.
  destruct (unsqueezed_ok za M K i 0 Hi Fza) as (a0 & _ & Va0). destruct (byColumn_ok zb N j Hj Fzb) as (b0 & _ & Vb0).
  destruct (scale_ok sa sb sy N j Fsa Fsb Hj) as (a & b & ab & s & Va & Vb & Eab & Es & Ej).
  set (v := total (Z.to_nat K) (fun k => (A i k - a0) * (B k j - b0))).
  set (x := (inject_Z v * (a * b / sy))%Q).
  exists v, a, b, (emuZ x). split; [exists a0, b0; auto|]. split; auto. split; auto.
  split; [eapply rounded_comp; [|apply emu_rounded]; subst x; field; auto|].
  intros Hn. unfold qlinearMatMul. cbn [obind]. cbv zeta.
  rewrite (dot32_ok K _ _ (fun k => A i k - a0) (fun k => B k j - b0)).
  - cbn [obind]. fold v. rewrite wrap32_small by (apply (bytes_bound K ua ub a0 b0 (fun k => A i k) (fun k => B k j)); auto; intros; apply HAB; auto).
    destruct (Qeq_bool sy 0) eqn:Ez; [apply Qeq_bool_iff in Ez; contradiction|]. rewrite Eab. cbn [obind]. rewrite Es. cbn [obind]. rewrite Ej. cbn [obind].
    fold x. rewrite (castI32_Z _ (emuZ x) (emu_eq x) Hn). cbn [obind]. eexists. split; [reflexivity|]. apply finish; auto.
  - intros k Hk. destruct (unsqueezed_ok (mapParam (getOrCastToI8 ua) za) M K i k Hi (mapParam_fits _ _ _ Fza)) as (z & -> & Vz). cbn [obind].
    apply mapParam_valueAt in Vz as (w & Vw & ->). assert (w = a0) by (eapply valueAt_fun; eauto). subst w.
    rewrite toI8_diff by (auto; apply HAB; auto). destruct (wrap32_eq (A i k - a0)) as (q & ->). eauto.
  - intros k Hk. destruct (byColumn_ok (mapParam (getOrCastToI8 ub) zb) N j Hj (mapParam_fits _ _ _ Fzb)) as (z & -> & Vz). cbn [obind].
    apply mapParam_valueAt in Vz as (w & Vw & ->). assert (w = b0) by (eapply valueAt_fun; eauto). subst w.
    rewrite toI8_diff by (auto; apply HAB; auto). destruct (wrap32_eq (B k j - b0)) as (q & ->). eauto.
Qed.

Lemma product_fun K A B za zb i j v w : product K A B za zb i j v -> product K A B za zb i j w -> v = w.
Proof. intros (a & b & Va & Vb & ->) (a' & b' & Va' & Vb' & ->). rewrite (valueAt_fun _ _ _ _ Va Va'), (valueAt_fun _ _ _ _ Vb Vb'). reflexivity. Qed.

Lemma byte_unique u x y : byte u x -> byte u y -> (256 | x - y) -> x = y.
Proof. intros A B (q & E). unfold byte in *. destruct u; lia. Qed.

Lemma sumQ_app l a : (sumQ (l ++ [a]) == sumQ l + a)%Q.
Proof. induction l as [|x l IH]; cbn [app sumQ]; [ring|]. rewrite IH. ring. Qed.
Lemma sumQ_total f g K (c : Q) : (forall k, f k == inject_Z (g k) * c)%Q ->
  (sumQ (map f (zrange K)) == inject_Z (total (Z.to_nat K) g) * c)%Q.
Proof.
  intros H. unfold zrange. induction (Z.to_nat K) as [|n IH]; [cbn; ring|].
  replace (S n) with (n + 1)%nat by lia. rewrite zseq_app, map_app. cbn [zseq map]. rewrite sumQ_app, IH, H.
  replace (n + 1)%nat with (S n) by lia. cbn [total]. rewrite inject_Z_plus. rewrite Z.add_0_l. ring.
Qed.
