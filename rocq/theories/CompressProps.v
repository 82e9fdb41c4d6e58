(** Theorems C66: the loops emitted for Compress. ONNX: with an axis, the output holds the
    slices of the input, in order, whose position along the axis has a true condition;
    without one, the elements of the flattened input whose position has. The condition
    may be shorter than the axis (or the flattened input). *)
From Coq Require Import List ZArith Lia Bool Arith.
From Verif Require Import Util TensorSpec TensorLemmas LoopModel LoopProofs GatherLoopModel GatherLoopSpec CompressModel CompressProofs.
Import ListNotations.
Open Scope Z_scope.

(** The positions with a true condition, in order. *)
Definition selected (dc : Z -> bool) (c : Z) : list Z := filter dc (zrange c).
(** The condition is a vector of [c] booleans [dc]. *)
Definition isCondition (cond : mem bool) (c : Z) (dc : Z -> bool) : Prop := mShape cond = [c] /\ 0 <= c /\ forall k, 0 <= k < c -> mAt cond [k] = Some (dc k).
(** No true condition lies beyond the [n] positions it selects from. *)
Definition selects_below (dc : Z -> bool) (c n : Z) : Prop := forall k, 0 <= k < c -> dc k = true -> k < n.

Lemma sel_below dc c n : 0 <= n -> selects_below dc c n -> sel dc (Z.to_nat (Z.min c n)) = sel dc (Z.to_nat c).
Proof.
  intros N H. destruct (Z.le_ge_cases c n) as [L|L]; [now rewrite Z.min_l by lia|]. rewrite Z.min_r by lia. unfold sel. replace (Z.to_nat c) with (Z.to_nat n + Z.to_nat (c - n))%nat by lia.
  rewrite zseq_app, filter_app. replace (filter dc (zseq (0 + Z.of_nat (Z.to_nat n)) (Z.to_nat (c - n)))) with (@nil Z); [now rewrite app_nil_r|].
  symmetry. destruct (filter dc (zseq _ _)) as [|k r] eqn:E; auto. assert (In k (k :: r)) as I by (cbn; auto). rewrite <- E in I. apply filter_In in I as [I1 I2]. apply zseq_In in I1. specialize (H k ltac:(lia) I2). lia.
Qed.

Theorem C66_flat {T} condLit inLit (x : mem T) (cond : mem bool) dv c dc : let s := mShape x in
  okshape s -> (forall i, valid s i -> mAt x i = Some (dv i)) -> isCondition cond c dc -> length inLit = length s ->
  selects_below dc c (size s) -> (s = [] -> 0 < c) ->
  exists out, compress condLit inLit None x cond = Some out /\ mShape out = [Z.of_nat (length (selected dc c))] /\
    forall k p, zget (selected dc c) k = Some p -> exists i, valid s i /\ rowmajor s i = p /\ mAt out [k] = Some (dv i).
Proof.
  intros s Ok XD (CS & CP & CD) LL SB NS. destruct (compressFlat_ok cond dc c CS CP CD x dv condLit inLit XD Ok LL) as (out & E & S1 & A & _); [intros E _; specialize (NS E); lia|].
  exists out. fold s in A. pose proof (size_nonneg s Ok) as SP. rewrite sel_below in A by auto. split; [exact E|]. split; [exact S1|]. intros k p HZ. specialize (A k p HZ). unfold flatAt in A. fold s in A.
  assert (P : 0 <= p < size s). { assert (In p (selected dc c)) as I by (unfold zget in HZ; destruct (k <? 0); [discriminate|]; eapply nth_error_In; exact HZ). apply filter_In in I as [I1 I2]. apply zrange_In in I1. specialize (SB p I1 I2). lia. }
  destruct (unrm_spec s p Ok P) as [V R]. exists (unrm s p). split; auto. split; [rewrite rowmajor_rm by (now apply valid_length); exact R|].
  rewrite <- R in A at 1. rewrite indices_nth in A by auto. exact A.
Qed.
Theorem C66_axis {T} condLit inLit axis a (x : mem T) (cond : mem bool) dv c dc : let s := mShape x in
  okshape s -> (forall i, valid s i -> mAt x i = Some (dv i)) -> isCondition cond c dc -> names_axis (length s) a axis ->
  selects_below dc c (nth a s 0) ->
  exists out, compress condLit inLit (Some axis) x cond = Some out /\ mShape out = upd a (Z.of_nat (length (selected dc c))) s /\
    forall i, valid (mShape out) i -> exists p, zget (selected dc c) (nth a i 0) = Some p /\ mAt out i = Some (dv (upd a p i)).
Proof.
  intros s Ok XD (CS & CP & CD) AX SB. destruct (compressAxis_ok cond dc c CS CP CD x dv condLit (nth (normalAxis (length s) axis) inLit false) a axis XD Ok AX) as (out & E & S1 & A & _).
  exists out. destruct AX as [HA _]. assert (D0 : 0 <= nth a s 0) by (apply (proj1 (Forall_forall _ _) Ok), nth_In; exact HA).
  fold s in A. rewrite sel_below in A by auto. split; [exact E|]. split; [exact S1|]. intros i V.
  assert (B : 0 <= nth a i 0 < Z.of_nat (length (selected dc c))).
  { rewrite S1 in V. fold s in V. apply ShapeOpsCopies.valid_upd_iff in V; [|exact HA]. exact (proj1 (proj2 V)). }
  destruct (zget_some _ _ B) as [p HP]. exists p. split; auto.
Qed.
(** A condition with a true entry past the end of the axis: the output is larger than what
    is selected and its last slices are never written. *)
Theorem C66_long_condition_refuted : exists (x : mem Z) (cond : mem bool) c dc out, mShape x = [2] /\ (forall i, valid [2] i -> mAt x i = Some 7) /\
  isCondition cond c dc /\ compress true [true] (Some 0) x cond = Some out /\ mShape out = [2] /\ mAt out [1] = None.
Proof.
  exists (Mem [2] (fun _ => Some 7)), (Mem [3] (fun i => Some (negb (nth 0 i 0 =? 1)))), 3, (fun k => negb (k =? 1)). eexists. split; [reflexivity|]. split; [reflexivity|].
  split; [split; [reflexivity|split; [lia|reflexivity]]|]. split; [vm_compute; reflexivity|]. split; reflexivity.
Qed.
(** A scalar input and an empty condition of known length: the element of the condition is
    read although it does not exist. *)
Theorem C66_scalar_refuted : exists (x : mem Z) (cond : mem bool) dc, mShape x = [] /\ (forall i, valid [] i -> mAt x i = Some 7) /\
  isCondition cond 0 dc /\ compress true [] None x cond = None.
Proof.
  exists (Mem [] (fun _ => Some 7)), (Mem [0] (fun i => None)), (fun k => false). split; [reflexivity|]. split; [reflexivity|].
  split; [split; [reflexivity|split; [lia|intros; lia]]|]. reflexivity.
Qed.
Example C66_run_axis : option_map (fun m => (mShape m, map (mAt m) (indices (mShape m))))
  (compress true [true; false] (Some (-1)) (Mem [2; 3] (fun i => Some (rowmajor [2; 3] i))) (Mem [2] (fun i => Some (nth 0 i 0 =? 1)))) = Some ([2; 1], map Some [1; 4]).
Proof. vm_compute. reflexivity. Qed.
Example C66_run_flat : option_map (fun m => (mShape m, map (mAt m) (indices (mShape m))))
  (compress true [true; true] None (Mem [2; 3] (fun i => Some (rowmajor [2; 3] i))) (Mem [5] (fun i => Some (Z.odd (nth 0 i 0))))) = Some ([2], map Some [1; 3]).
Proof. vm_compute. reflexivity. Qed.
Example C66_nonvacuous : isCondition (Mem [5] (fun i => Some (Z.odd (nth 0 i 0)))) 5 Z.odd /\ selects_below Z.odd 5 6 /\ names_axis 2 1 (-1).
Proof. split; [split; [reflexivity|split; [lia|reflexivity]]|]. split; [intros k; lia|]. split; [lia|right; reflexivity]. Qed.
Print Assumptions C66_flat.
Print Assumptions C66_axis.
