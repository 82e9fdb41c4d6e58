(** Theorems C69 and C70: the code emitted for DepthToSpace and SpaceToDepth. *)
From Coq Require Import List ZArith Znumtheory Lia Bool Arith Permutation.
From Verif Require Import Util TensorSpec TensorLemmas LoopModel GatherLoopModel ElementsSpec TransposeLoopModel DepthSpaceModel DepthSpaceProofs.
Import ListNotations.
Open Scope Z_scope.

(** A tensor of the given shape with the elements [dv]. *)
Definition holds {T} (x : mem T) (s : list Z) (dv : list Z -> T) : Prop := mShape x = s /\ forall i, valid s i -> mAt x i = Some (dv i).

Lemma mul_ge1 a b : 1 <= a -> 1 <= b -> 1 <= a * b.
Proof. nia. Qed.
Ltac pos := repeat apply Forall_cons; try apply Forall_nil; auto using mul_ge1.
Ltac vpos := unfold valid; repeat apply Forall2_cons; try apply Forall2_nil; auto.
Ltac rms := cbn [rm]; unfold size, prodZ; cbn [fold_right].
Ltac perm6 := apply NoDup_Permutation_bis; [repeat constructor; cbn; intuition discriminate|cbn; lia|intros a; cbn; intuition].
Lemma div_lt y bs H : 1 <= bs -> 0 <= y < H * bs -> 0 <= y / bs < H /\ 0 <= y mod bs < bs /\ y = bs * (y / bs) + y mod bs.
Proof. intros. split; [split; [apply Z.div_pos; lia|apply Z.div_lt_upper_bound; nia]|]. split; [apply Z.mod_pos_bound; lia|apply Z.div_mod; lia]. Qed.
Lemma valid4 a b c d i : valid [a; b; c; d] i -> exists p q r s, i = [p; q; r; s] /\ 0 <= p < a /\ 0 <= q < b /\ 0 <= r < c /\ 0 <= s < d.
Proof. intros V. inversion_clear V as [|? p ? ? P1 V1]. inversion_clear V1 as [|? q ? ? P2 V2]. inversion_clear V2 as [|? r ? ? P3 V3]. inversion_clear V3 as [|? s ? ? P4 V4]. inversion_clear V4. exists p, q, r, s. auto. Qed.

Lemma mix u m c D : 0 <= u < m -> 0 <= c < D -> 0 <= u * D + c < m * D.
Proof. nia. Qed.

(** ONNX, mode DCR: the depth is the block row, the block column and the new depth, in this
    order. *)
Theorem C69_dcr {T} junk parInner lits bs B D H W (x : mem T) dv :
  1 <= bs -> 1 <= B -> 1 <= D -> 1 <= H -> 1 <= W -> length lits = 6%nat -> holds x [B; D * (bs * bs); H; W] dv ->
  exists out, depthToSpace junk parInner lits true bs x = Some out /\
    holds out [B; D; H * bs; W * bs] (fun i => match i with
      | [b; c; y; z] => dv [b; ((y mod bs) * bs + z mod bs) * D + c; y / bs; z / bs] | _ => dv i end).
Proof.
  intros Pb PB PD PH PW LL (SX & XD). unfold depthToSpace. rewrite SX. destruct (Z.ltb_spec 0 bs); [|lia]. rewrite Z.div_mul by nia.
  destruct (steps_ok junk parInner lits [0; 3; 4; 1; 5; 2]%nat [B; bs; bs; D; H; W] [B; D; H * bs; W * bs] x dv) as (out & E & SO & A); try (rewrite SX); unfold permute; cbn [map nth]; pos; try (unfold size, prodZ; cbn [fold_right]; ring).
  - perm6.
  - exists out. split; [exact E|]. split; [exact SO|]. intros i V. apply valid4 in V as (b & c & y & z & -> & V1 & V2 & V3 & V4).
    destruct (div_lt y bs H Pb V3) as (Y1 & Y2 & Y3), (div_lt z bs W Pb V4) as (Z1 & Z2 & Z3).
    apply (A _ [b; y mod bs; z mod bs; c; y / bs; z / bs]); rewrite ?SX; unfold permute; cbn [map nth].
    + vpos.
    + vpos.
    + vpos. rewrite (Z.mul_comm D). apply mix; [apply mix; auto|auto].
    + rms. ring.
    + rms. rewrite Y3, Z3 at 1. ring.
Qed.
(** Mode CRD: the new depth comes first. *)
Theorem C69_crd {T} junk parInner lits bs B D H W (x : mem T) dv :
  1 <= bs -> 1 <= B -> 1 <= D -> 1 <= H -> 1 <= W -> length lits = 6%nat -> holds x [B; D * (bs * bs); H; W] dv ->
  exists out, depthToSpace junk parInner lits false bs x = Some out /\
    holds out [B; D; H * bs; W * bs] (fun i => match i with
      | [b; c; y; z] => dv [b; c * (bs * bs) + (y mod bs) * bs + z mod bs; y / bs; z / bs] | _ => dv i end).
Proof.
  intros Pb PB PD PH PW LL (SX & XD). unfold depthToSpace. rewrite SX. destruct (Z.ltb_spec 0 bs); [|lia]. rewrite Z.div_mul by nia.
  destruct (steps_ok junk parInner lits [0; 1; 4; 2; 5; 3]%nat [B; D; bs; bs; H; W] [B; D; H * bs; W * bs] x dv) as (out & E & SO & A); try (rewrite SX); unfold permute; cbn [map nth]; pos; try (unfold size, prodZ; cbn [fold_right]; ring).
  - perm6.
  - exists out. split; [exact E|]. split; [exact SO|]. intros i V. apply valid4 in V as (b & c & y & z & -> & V1 & V2 & V3 & V4).
    destruct (div_lt y bs H Pb V3) as (Y1 & Y2 & Y3), (div_lt z bs W Pb V4) as (Z1 & Z2 & Z3).
    apply (A _ [b; c; y mod bs; z mod bs; y / bs; z / bs]); rewrite ?SX; unfold permute; cbn [map nth].
    + vpos.
    + vpos.
    + vpos. rewrite <- Z.add_assoc. apply mix; [auto|apply mix; auto].
    + rms. ring.
    + rms. rewrite Y3, Z3 at 1. ring.
Qed.
(** What SpaceToDepth computes: the old depth comes first. *)
Theorem C70_space_to_depth {T} junk parInner lits bs B C H W (x : mem T) dv :
  1 <= bs -> 1 <= B -> 1 <= C -> 1 <= H -> 1 <= W -> length lits = 6%nat -> holds x [B; C; H * bs; W * bs] dv ->
  exists out, spaceToDepth junk parInner lits bs x = Some out /\
    holds out [B; C * (bs * bs); H; W] (fun i => match i with
      | [b; k; h; w] => dv [b; k / (bs * bs); h * bs + (k mod (bs * bs)) / bs; w * bs + k mod bs] | _ => dv i end).
Proof.
  intros Pb PB PD PH PW LL (SX & XD). unfold spaceToDepth. rewrite SX. destruct (Z.ltb_spec 0 bs); [|lia]. rewrite !Z.div_mul by nia.
  destruct (steps_ok junk parInner lits [0; 1; 3; 5; 2; 4]%nat [B; C; H; bs; W; bs] [B; C * (bs * bs); H; W] x dv) as (out & E & SO & A); try (rewrite SX); unfold permute; cbn [map nth]; pos; try (unfold size, prodZ; cbn [fold_right]; ring).
  - perm6.
  - exists out. split; [exact E|]. split; [exact SO|]. intros i V. apply valid4 in V as (b & k & h & w & -> & V1 & V2 & V3 & V4).
    destruct (div_lt k (bs * bs) C ltac:(nia) V2) as (K1 & K2 & K3). destruct (div_lt (k mod (bs * bs)) bs bs Pb K2) as (L1 & L2 & L3).
    assert (KM : (k mod (bs * bs)) mod bs = k mod bs).
    { symmetry. apply Zmod_div_mod; [lia|nia|exists bs; reflexivity]. }
    rewrite KM in L2, L3.
    apply (A _ [b; k / (bs * bs); h; (k mod (bs * bs)) / bs; w; k mod bs]); rewrite ?SX; unfold permute; cbn [map nth].
    + vpos.
    + vpos.
    + vpos; apply mix; auto.
    + rms. ring.
    + rms. rewrite K3 at 1. rewrite L3 at 1. ring.
Qed.
(** DepthToSpace with mode CRD and SpaceToDepth undo each other, in both orders: the rewrites
    of Canonicalize.td 1054-1072 agree with the emitted code. *)
Theorem C70_crd_pair {T} junk parInner lits junk' parInner' lits' bs B C H W (x : mem T) dv :
  1 <= bs -> 1 <= B -> 1 <= C -> 1 <= H -> 1 <= W -> length lits = 6%nat -> length lits' = 6%nat ->
  (holds x [B; C; H * bs; W * bs] dv ->
   exists y z, spaceToDepth junk parInner lits bs x = Some y /\ depthToSpace junk' parInner' lits' false bs y = Some z /\ holds z [B; C; H * bs; W * bs] dv) /\
  (holds x [B; C * (bs * bs); H; W] dv ->
   exists y z, depthToSpace junk' parInner' lits' false bs x = Some y /\ spaceToDepth junk parInner lits bs y = Some z /\ holds z [B; C * (bs * bs); H; W] dv).
Proof.
  intros Pb PB PD PH PW LL LL'. split; intros HX.
  - destruct (C70_space_to_depth junk parInner lits bs B C H W x dv Pb PB PD PH PW LL HX) as (y & EY & HY).
    destruct (C69_crd junk' parInner' lits' bs B C H W y _ Pb PB PD PH PW LL' HY) as (z & EZ & SZ & AZ). exists y, z. split; [exact EY|]. split; [exact EZ|]. split; [exact SZ|].
    intros i V. rewrite (AZ i V). apply valid4 in V as (b & c & p & q & -> & V1 & V2 & V3 & V4). f_equal. f_equal.
    destruct (div_lt p bs H Pb V3) as (Y1 & Y2 & Y3), (div_lt q bs W Pb V4) as (Z1 & Z2 & Z3).
    assert (R : 0 <= p mod bs * bs + q mod bs < bs * bs) by (apply mix; auto).
    replace (c * (bs * bs) + p mod bs * bs + q mod bs) with ((p mod bs * bs + q mod bs) + c * (bs * bs)) by ring.
    rewrite Z.div_add, Z.div_small, Z.mod_add, Z.mod_small by nia.
    replace (p mod bs * bs + q mod bs + c * (bs * bs)) with (q mod bs + (p mod bs + c * bs) * bs) by ring. rewrite Z.mod_add by lia. rewrite (Z.mod_small (q mod bs)) by lia.
    replace (p mod bs * bs + q mod bs) with (q mod bs + p mod bs * bs) by ring. rewrite Z.div_add, (Z.div_small (q mod bs)) by lia.
    replace (p / bs * bs + (0 + p mod bs)) with p by lia. replace (q / bs * bs + q mod bs) with q by lia. reflexivity.
  - destruct (C69_crd junk' parInner' lits' bs B C H W x dv Pb PB PD PH PW LL' HX) as (y & EY & HY).
    destruct (C70_space_to_depth junk parInner lits bs B C H W y _ Pb PB PD PH PW LL HY) as (z & EZ & SZ & AZ). exists y, z. split; [exact EY|]. split; [exact EZ|]. split; [exact SZ|].
    intros i V. rewrite (AZ i V). apply valid4 in V as (b & k & h & w & -> & V1 & V2 & V3 & V4). f_equal. f_equal.
    destruct (div_lt k (bs * bs) C ltac:(nia) V2) as (K1 & K2 & K3). destruct (div_lt (k mod (bs * bs)) bs bs Pb K2) as (L1 & L2 & L3).
    assert (KM : (k mod (bs * bs)) mod bs = k mod bs).
    { symmetry. apply Zmod_div_mod; [lia|nia|exists bs; reflexivity]. }
    rewrite KM in L2, L3. rewrite !(Z.add_comm (_ * bs)), !Z.mod_add, !Z.div_add by lia.
    rewrite (Z.mod_small (_ / bs) bs), (Z.mod_small (k mod bs) bs), (Z.div_small (_ / bs) bs), (Z.div_small (k mod bs) bs) by lia.
    rewrite !Z.add_0_l. f_equal. f_equal. rewrite K3 at 4. rewrite L3 at 2. ring.
Qed.
(** ONNX puts the block position first (channel (i * bs + j) * C + c), which is what
    DepthToSpace with its default mode undoes. The emitted code does not. *)
Theorem C70_block_first_refuted : exists x : mem Z, holds x [1; 2; 2; 2] (rm [1; 2; 2; 2]) /\
  exists out, spaceToDepth 0 false [false; false; false; false; false; false] 2 x = Some out /\ mShape out = [1; 8; 1; 1] /\
    mAt out [0; 1; 0; 0] = Some (rm [1; 2; 2; 2] [0; 0; 0; 1]) /\ rm [1; 2; 2; 2] [0; 0; 0; 1] <> rm [1; 2; 2; 2] [0; 1; 0; 0].
Proof.
  exists (Mem [1; 2; 2; 2] (fun i => Some (rm [1; 2; 2; 2] i))). split; [split; reflexivity|].
  destruct (spaceToDepth 0 false [false; false; false; false; false; false] 2 (Mem [1; 2; 2; 2] (fun i => Some (rm [1; 2; 2; 2] i)))) as [out|] eqn:E; [|exfalso; revert E; vm_compute; discriminate].
  exists out. split; [reflexivity|].
  assert (G : option_map (fun o => (mShape o, mAt o [0; 1; 0; 0])) (Some out) = Some ([1; 8; 1; 1], Some 1)) by (rewrite <- E; vm_compute; reflexivity).
  cbn in G. injection G as G1 G2. split; [exact G1|]. split; [exact G2|]. vm_compute. discriminate.
Qed.
(** "This is the reverse transformation of SpaceToDepth" (docs/Dialects/onnx.md 2213), with
    the default mode: not so. *)
Theorem C70_default_pair_refuted : exists x : mem Z, holds x [1; 2; 2; 2] (rm [1; 2; 2; 2]) /\
  exists y z, spaceToDepth 0 false [false; false; false; false; false; false] 2 x = Some y /\
    depthToSpace 0 false [false; false; false; false; false; false] true 2 y = Some z /\ mShape z = mShape x /\ mAt z [0; 1; 0; 0] <> mAt x [0; 1; 0; 0].
Proof.
  set (l := [false; false; false; false; false; false]). set (x := Mem [1; 2; 2; 2] (fun i => Some (rm [1; 2; 2; 2] i))).
  exists x. split; [split; reflexivity|].
  destruct (C70_space_to_depth 0 false l 2 1 2 1 1 x (rm [1; 2; 2; 2])) as (y & EY & HY); try lia; [reflexivity|split; reflexivity|].
  destruct (C69_dcr 0 false l 2 1 2 1 1 y _ ltac:(lia) ltac:(lia) ltac:(lia) ltac:(lia) ltac:(lia) eq_refl HY) as (z & EZ & SZ & AZ).
  exists y, z. split; [exact EY|]. split; [exact EZ|]. split; [exact SZ|]. rewrite AZ; [vm_compute; discriminate|]. repeat constructor; lia.
Qed.
(** An empty tensor: the code divides by zero. *)
Theorem C69_empty_refuted : exists x : mem Z, holds x [1; 4; 3; 0] (fun _ => 7) /\ depthToSpace 0 false [false; false; false; false; false; false] true 2 x = None.
Proof. exists (Mem [1; 4; 3; 0] (fun _ => Some 7)). split; [split; reflexivity|]. vm_compute. reflexivity. Qed.
(** Dimensions only known at run time that the block size does not divide: the output does
    not have all the elements, and the reads of the blocks run into the next row. *)
Theorem C70_indivisible_refuted : exists x : mem Z, holds x [1; 1; 2; 3] (rm [1; 1; 2; 3]) /\
  exists y, spaceToDepth 0 false [false; false; false; false; false; false] 2 x = Some y /\ mShape y = [1; 4; 1; 1] /\
    mAt y [0; 2; 0; 0] = Some 2 /\ rm [1; 1; 2; 3] [0; 0; 1; 0] = 3.
Proof.
  exists (Mem [1; 1; 2; 3] (fun i => Some (rm [1; 1; 2; 3] i))). split; [split; reflexivity|].
  destruct (spaceToDepth 0 false [false; false; false; false; false; false] 2 (Mem [1; 1; 2; 3] (fun i => Some (rm [1; 1; 2; 3] i)))) as [y|] eqn:E; [|exfalso; revert E; vm_compute; discriminate].
  exists y. split; [reflexivity|].
  assert (G : option_map (fun o => (mShape o, mAt o [0; 2; 0; 0])) (Some y) = Some ([1; 4; 1; 1], Some 2)) by (rewrite <- E; vm_compute; reflexivity).
  cbn in G. injection G as G1 G2. split; [exact G1|]. split; [exact G2|]. reflexivity.
Qed.
Example C69_nonvacuous : holds (Mem [1; 2 * (2 * 2); 1; 3] (fun i => Some (rm [1; 8; 1; 3] i))) [1; 2 * (2 * 2); 1; 3] (rm [1; 8; 1; 3]).
Proof. split; reflexivity. Qed.
Print Assumptions C69_dcr.
Print Assumptions C69_crd.
Print Assumptions C70_space_to_depth.
Print Assumptions C70_crd_pair.
