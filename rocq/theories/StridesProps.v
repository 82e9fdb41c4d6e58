(** Properties C01-C05: layout, indexing and zero-copy views of constants. *)
From Coq Require Import List ZArith Lia Bool.
From Verif Require Import Util TensorSpec TensorLemmas StridesModel StridesProofs StridesReshape
  OMTensorLayoutModel OMTensorLayoutProofs.
Import ListNotations.
Open Scope Z_scope.

(** ** C01 *)

(** The default strides of a constant send the valid indices of any shape
    one-to-one, in row-major order, onto exactly 0..size-1. *)
Theorem C01_default_strides_bijection : forall s : shape,
  okshape s ->
  length (getDefaultStrides s) = length s /\
  (forall idx, valid s idx ->
     getStridesPosition idx (getDefaultStrides s) = rowmajor s idx /\
     0 <= getStridesPosition idx (getDefaultStrides s) < size s) /\
  (forall i j, valid s i -> valid s j ->
     getStridesPosition i (getDefaultStrides s) = getStridesPosition j (getDefaultStrides s) -> i = j) /\
  (forall k, 0 <= k < size s ->
     exists idx, valid s idx /\ getStridesPosition idx (getDefaultStrides s) = k).
Proof.
  intros s Ok. split; [apply defaultStrides_length|]. split; [|split].
  - intros idx V. rewrite default_pos, rowmajor_rm by (auto; apply valid_length; auto).
    split; auto. now apply rm_bound.
  - intros i j Vi Vj. rewrite !default_pos by auto. now apply rm_inj.
  - intros k Hk. destruct (unrm_spec s k) as [V E]; auto.
    exists (unrm s k). rewrite default_pos; auto.
Qed.

(** Lexicographic order of indices is the order of buffer positions: the
    [k]-th index of the row-major enumeration is stored at position [k]. *)
Theorem C01_default_strides_order : forall s k idx,
  okshape s -> nth_error (indices s) k = Some idx ->
  getStridesPosition idx (getDefaultStrides s) = Z.of_nat k.
Proof.
  intros s k idx Ok E.
  assert (In idx (indices s)) as Hin by (eapply nth_error_In; eauto).
  pose proof (indices_valid _ _ Ok Hin) as V. rewrite default_pos by auto.
  pose proof (indices_nth _ _ V) as E2. pose proof (rm_bound _ _ V) as B.
  assert (HL : (k < length (indices s))%nat) by (apply nth_error_Some; congruence).
  pose proof (indices_length _ Ok) as IL.
  destruct (unrm_spec s (Z.of_nat k)) as [V2 E3]; auto; [lia|].
  pose proof (indices_nth _ _ V2) as E4. rewrite E3 in E4.
  rewrite zget_spec, Nat2Z.id in E4 by lia. rewrite E in E4. injection E4 as ->. auto.
Qed.

(** Tensors created through the runtime API use the dense row-major layout. *)
Theorem C01_runtime_strides_bijection : forall s : shape,
  okshape s ->
  getNumElems s = size s /\
  (forall idx, valid s idx ->
     computeElemOffset (omStrides s) idx = rowmajor s idx /\
     0 <= computeElemOffset (omStrides s) idx < getNumElems s) /\
  (forall k, 0 <= k < getNumElems s ->
     exists idx, valid s idx /\ computeElemOffset (omStrides s) idx = k /\
       forall idx', valid s idx' -> computeElemOffset (omStrides s) idx' = k -> idx' = idx) /\
  omTensorGetNumElems s (omStrides s) = Some (size s).
Proof.
  intros s Ok. rewrite getNumElems_size. split; auto. split; [|split].
  - intros idx V. pose proof (valid_length _ _ V).
    rewrite computeElemOffset_rm, rowmajor_rm by auto. split; auto. now apply rm_bound.
  - intros k Hk. destruct (unrm_spec s k) as [V E]; auto.
    exists (unrm s k). rewrite computeElemOffset_rm by (apply valid_length; auto).
    split; auto. split; auto. intros idx' V' E'.
    rewrite computeElemOffset_rm in E' by (apply valid_length; auto).
    eapply rm_inj; eauto. congruence.
  - unfold omTensorGetNumElems. now rewrite denseStridesOk_om, getNumElems_size.
Qed.

(** omTensorGetNumElems passes its assertions exactly on row-major strides. *)
Theorem C01_numelems_asserts_dense : forall s st n,
  length st = length s ->
  omTensorGetNumElems s st = Some n <-> (st = omStrides s /\ n = size s).
Proof.
  intros s st n HL. unfold omTensorGetNumElems.
  pose proof (denseStridesOk_iff s st HL) as D.
  destruct (denseStridesOk s st); rewrite ?getNumElems_size.
  - split; [injection 1; intros; subst; split; auto; now apply D | intros [_ ->]; auto].
  - split; [discriminate | intros [H _]; apply D in H; discriminate].
Qed.

Example C01_example :
  okshape [2;3;1;4] /\ getDefaultStrides [2;3;1;4] = [12;4;0;1] /\
  getStridesPosition [1;2;0;3] (getDefaultStrides [2;3;1;4]) = 23 /\
  omStrides [2;3;1;4] = [12;4;4;1] /\ computeElemOffset [12;4;4;1] [1;2;0;3] = 23.
Proof. repeat split; try reflexivity. repeat constructor; lia. Qed.

(** ** C02 *)
Theorem C02_unflatten_roundtrip : forall s,
  okshape s ->
  (forall k, 0 <= k < size s ->
     exists idx, unflattenIndex s k = Some idx /\ valid s idx /\ rowmajor s idx = k) /\
  (forall idx, valid s idx -> unflattenIndex s (rowmajor s idx) = Some idx).
Proof.
  intros s Ok. split.
  - intros k Hk. destruct (unrm_spec s k) as [V E]; auto. exists (unrm s k).
    rewrite unflatten_correct by auto. rewrite rowmajor_rm by (apply valid_length; auto). auto.
  - intros idx V. rewrite rowmajor_rm by (apply valid_length; auto).
    rewrite unflatten_correct by (auto; now apply rm_bound). now rewrite unrm_rm.
Qed.

Example C02_example : unflattenIndex [2;3;4] 23 = Some [1;2;3] /\ unflattenIndex [2;3;4] 24 = None.
Proof. split; reflexivity. Qed.

(** ** C03 *)
(** [k]-th step of the iteration over [s] with any stride vectors. *)
Theorem C03_strided_iteration : forall s (sts : list (list Z)),
  okshape s -> Forall (fun st => length st = length s) sts ->
  Z.of_nat (length (StridesRange s sts)) = size s /\
  map it_index (StridesRange s sts) = indices s /\
  (forall k it, nth_error (StridesRange s sts) k = Some it ->
     flattenedIndex it = Z.of_nat k /\
     rowmajor s (it_index it) = Z.of_nat k /\
     offsets it = map (fun st => getStridesPosition (it_index it) st) sts).
Proof.
  intros s sts Ok Hall. pose proof (size_nonneg _ Ok).
  assert (HL : Z.of_nat (length (StridesRange s sts)) = size s) by (rewrite range_length; lia).
  assert (HK : forall k it, nth_error (StridesRange s sts) k = Some it -> item_at s sts (Z.of_nat k) it).
  { intros k it E.
    assert (k < length (StridesRange s sts))%nat by (apply nth_error_Some; congruence).
    destruct (range_nth s sts (Z.of_nat k)) as (x & E2 & I); auto; [lia|].
    rewrite zget_spec, Nat2Z.id in E2 by lia. rewrite E in E2. injection E2 as ->. auto. }
  split; auto. split.
  - apply nth_error_ext. intros k. rewrite nth_error_map.
    destruct (nth_error (StridesRange s sts) k) as [it|] eqn:E; simpl.
    + destruct (HK _ _ E) as (F & V & R & O).
      pose proof (indices_nth _ _ V) as E2. rewrite R in E2.
      rewrite zget_spec, Nat2Z.id in E2 by lia. auto.
    + symmetry. apply nth_error_None. apply nth_error_None in E.
      pose proof (indices_length _ Ok). lia.
  - intros k it E. destruct (HK _ _ E) as (F & V & R & O).
    rewrite rowmajor_rm by (apply valid_length; auto). auto.
Qed.

Example C03_example :
  map offsets (StridesRange [2;3] [[1;2];[-3;0]]) = [[0;0];[2;0];[4;0];[1;-3];[3;-3];[5;-3]].
Proof. reflexivity. Qed.

(** ** C04 *)
(** Strides the compiler produces: non-negative, and 0 on axes of size 1. *)
Definition legal_view (s st : list Z) : Prop :=
  length st = length s /\ Forall (fun p => 0 < fst p /\ 0 <= snd p /\ (fst p = 1 -> snd p = 0)) (combine s st).

(** Zero-copy reshape either declines or gives strides under which the same
    row-major rank addresses the same buffer cell; no assertion fires and the
    result is again legal. *)
Theorem C04_reshape_zero_copy : forall s st r,
  legal_view s st -> Forall (fun d => 0 < d) r -> size s = size r ->
  reshapeStrides s st r = RS_none \/
  exists rs, reshapeStrides s st r = RS_some rs /\ legal_view r rs /\
    forall i j, valid s i -> valid r j -> rowmajor s i = rowmajor r j ->
      getStridesPosition i st = getStridesPosition j rs.
Proof.
  intros s st r HL Hr Hs.
  destruct (reshapeStrides_spec s st r HL Hr Hs) as [E | (rs & E & [A1 A2] & LG)]; auto.
  right. exists rs. split; auto. split; auto.
  intros i j Vi Vj. rewrite !rowmajor_rm by (apply valid_length; auto). auto.
Qed.

(** Contiguous constants always reshape without a copy. *)
Theorem C04_contiguous_never_copies : forall s r,
  Forall (fun d => 0 <= d) s -> size s = size r ->
  reshapeStrides s (getDefaultStrides s) r = RS_some (getDefaultStrides r).
Proof.
  intros s r Hs E. unfold reshapeStrides, getNumElements. fold (size s) (size r).
  rewrite defaultStrides_length, PeanoNat.Nat.eqb_refl, E, Z.eqb_refl. cbn [andb negb].
  rewrite (proj2 (contiguous_iff s (getDefaultStrides s) ltac:(now rewrite defaultStrides_length)) eq_refl).
  reflexivity.
Qed.

(** The precondition "positive dimensions" is needed: on a tensor with zero
    elements whose strides were transposed, the assertion of line 70 fires
    (a [2,0] constant transposed to [0,2] and then reshaped). *)
Theorem C04_empty_transposed_asserts_refuted : exists s st r,
  okshape s /\ size s = size r /\ length st = length s /\
  st = transposeDims (getDefaultStrides (transposeDims s [1%nat;0%nat])) [1%nat;0%nat] /\
  reshapeStrides s st r = RS_assert.
Proof.
  exists [0;2], [1;0], [0]. repeat split; try reflexivity.
  repeat constructor; lia.
Qed.

Example C04_example :
  legal_view [2;3;4] [1;0;2] /\
  reshapeStrides [2;3;4] [1;0;2] [2;1;3;2;2] = RS_some [1;0;0;4;2] /\
  reshapeStrides [2;3;4] [1;0;2] [6;4] = RS_none.
Proof. split; [split; [reflexivity|repeat constructor; simpl; lia] | split; reflexivity]. Qed.

(** ** C05 *)
Theorem C05_restride : forall (A : Type) (s st : list Z) (src dst : list A),
  okshape s -> length st = length s -> is_data s dst ->
  (forall idx, valid s idx -> 0 <= getStridesPosition idx st < Z.of_nat (length src)) ->
  exists out, restrideArray s st src dst = Some out /\ is_data s out /\
    forall idx, valid s idx -> elem s out idx = zget src (getStridesPosition idx st).
Proof. intros. apply restride_correct; auto. Qed.

Example C05_example :
  restrideArray [3;2] [1;3] [10;11;12;20;21;22] (repeat 0 6) = Some [10;20;11;21;12;22].
Proof. reflexivity. Qed.

Print Assumptions C01_default_strides_bijection.
Print Assumptions C01_default_strides_order.
Print Assumptions C01_runtime_strides_bijection.
Print Assumptions C01_numelems_asserts_dense.
Print Assumptions C02_unflatten_roundtrip.
Print Assumptions C03_strided_iteration.
Print Assumptions C04_reshape_zero_copy.
Print Assumptions C04_contiguous_never_copies.
Print Assumptions C04_empty_transposed_asserts_refuted.
Print Assumptions C05_restride.
