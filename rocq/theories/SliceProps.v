(** Property C10: Slice. *)
From Coq Require Import List ZArith Lia Bool Arith.
From Verif Require Import Util TensorSpec TensorLemmas StridesModel StridesProofs
  ElementsModel ElementsSpec ElementsBase ElementsViews ElementsProps SliceModel SliceSpec SliceProofs.
Import ListNotations.
Open Scope Z_scope.

(** One axis: the shape helper's start, step and output dimension describe
    exactly the positions ONNX selects, in order, all inside the input.  The
    hypothesis [dim < 2^31] and the exclusion of (empty dimension, negative
    step) are needed: see the refutations below. *)
Theorem C10_slice_axis : forall dim start end_ step, 0 <= dim < 2 ^ 31 -> step <> 0 -> (0 < step \/ 0 < dim) ->
  exists r, slice_axis dim start end_ step = Some r /\ sd_step r = step /\
    onnx_slice dim start end_ step = map (fun k => sd_start r + k * step) (zrange (sd_out r)) /\
    Z.of_nat (length (onnx_slice dim start end_ step)) = sd_out r /\
    Forall (fun p => 0 <= p < dim) (onnx_slice dim start end_ step).
Proof.
  intros dim st en step Hd Hs Hc. destruct (slice_axis dim st en step) as [r|] eqn:E.
  2:{ unfold slice_axis in E. destruct (Z.eqb_spec step 0); [congruence|discriminate]. }
  exists r. destruct (slice_axis_spec dim st en step r Hd Hc E) as (A & B & C & D).
  split; auto. split; auto. split; auto. rewrite C. split.
  - rewrite map_length, zrange_length. lia.
  - apply Forall_forall. intros x Hx. apply in_map_iff in Hx as (k & <- & Hk). apply zrange_In in Hk. auto.
Qed.

(** Folding Slice of a constant: shape and every element. *)
Theorem C10_slice : forall (W : Type) (junk : W) e s data axes starts ends steps,
  const junk e s data ->
  Forall (fun d => d < 2 ^ 31) s ->
  let rank := Z.of_nat (length s) in
  let ax := match axes with Some l => l | None => map Z.of_nat (seq 0 (length s)) end in
  Forall (fun a => - rank <= a < rank) ax ->
  NoDup (map (fun a => if a <? 0 then a + rank else a) ax) ->
  length starts = length ax -> length ends = length ax -> length steps = length ax ->
  Forall (fun t => t <> 0) steps ->
  (Forall (fun d => 0 < d) s \/ Forall (fun t => 0 < t) steps) ->
  let sel := selection s ax starts ends steps in
  let os := map (fun l => Z.of_nat (length l)) sel in
  exists e' out, constPropSlice junk e axes starts ends steps = Some e' /\ const junk e' os out /\
    forall idx, valid os idx ->
      valid s (selected_index sel idx) /\ elem os out idx = elem s data (selected_index sel idx).
Proof.
  intros W junk e s data axes starts ends steps C HB rank ax HR HN L1 L2 L3 HS HP sel os.
  destruct (const_data _ _ _ _ C) as [Ok _]. assert (C' := C). apply const_iff in C' as (_ & Se & _).
  set (nax := map (fun a => Z.to_nat (if a <? 0 then a + rank else a)) ax).
  assert (AX : match axes with None => Some (seq 0 (length s)) | Some l => norm_axes rank l end = Some nax).
  { unfold nax, ax in *. destruct axes as [l|]; [now apply norm_axes_some|]. f_equal.
    rewrite map_map. rewrite <- (map_id (seq 0 (length s))) at 1. apply map_ext. intros a.
    destruct (Z.ltb_spec (Z.of_nat a) 0); lia. }
  assert (LN : length nax = length ax) by (unfold nax; apply map_length).
  assert (INJ : forall a b, In a ax -> In b ax ->
     Z.to_nat (if a <? 0 then a + rank else a) = Z.to_nat (if b <? 0 then b + rank else b) ->
     (if a <? 0 then a + rank else a) = (if b <? 0 then b + rank else b)).
  { intros a b Ha Hb. rewrite Forall_forall in HR. pose proof (HR a Ha). pose proof (HR b Hb).
    destruct (Z.ltb_spec a 0), (Z.ltb_spec b 0); lia. }
  assert (ND : NoDup nax).
  { unfold nax. clear - HN HR. induction ax as [|a l IH]; cbn [map] in *; constructor.
    - inversion HN; inversion HR; subst. intros HI. apply H1. apply in_map_iff in HI as (b & E & Hb).
      apply in_map_iff. exists b. split; auto. rewrite Forall_forall in H6. pose proof (H6 b Hb).
      destruct (Z.ltb_spec a 0), (Z.ltb_spec b 0); lia.
    - inversion HN; inversion HR; auto. }
  assert (FA : Forall (fun a => (a < length s)%nat) nax).
  { unfold nax. apply Forall_forall. intros x Hx. apply in_map_iff in Hx as (a & <- & Ha).
    rewrite Forall_forall in HR. pose proof (HR a Ha). unfold rank in *. destruct (Z.ltb_spec a 0); lia. }
  destruct (slice_loop_spec s nax starts ends steps (repeat None (length s))) as (arr & EA & LA & GA);
    try lia; auto. { apply repeat_length. }
  set (rs := map2 (fun d o => match o with Some r => r | None => SliceDim 0 1 d d end) s arr).
  assert (EC : slice_computeShape (e_shape e) axes starts ends steps = Some rs).
  { unfold slice_computeShape. rewrite Se. fold rank. rewrite AX. cbn [obind]. rewrite EA. reflexivity. }
  (* axis_selection agrees with lookup *)
  assert (SEL : forall a dim, (a < length s)%nat ->
     axis_selection rank (Z.of_nat a) dim ax starts ends steps =
     match lookup a nax starts ends steps with
     | Some (x, y, t) => onnx_slice dim x y t
     | None => map Z.of_nat (seq 0 (Z.to_nat dim))
     end).
  { intros a dim Ha. unfold nax. clear - HR Ha L1 L2 L3. revert starts ends steps L1 L2 L3.
    induction ax as [|x l IH]; intros [|b starts] [|c ends] [|t steps] L1 L2 L3; try discriminate; auto.
    cbn [axis_selection map lookup]. inversion HR as [|? ? Hx HR']; subst. cbn [length] in *.
    destruct (Nat.eqb_spec (Z.to_nat (if x <? 0 then x + rank else x)) a);
      destruct (Z.eqb_spec (if x <? 0 then x + rank else x) (Z.of_nat a)); auto;
      destruct (Z.ltb_spec x 0); lia. }
  assert (LKS : forall a x y t, lookup a nax starts ends steps = Some (x, y, t) -> In t steps).
  { clear. intros a. generalize nax. intros l. revert starts ends steps.
    induction l as [|n l IH]; intros [|b starts] [|c ends] [|u steps] x y t E; try discriminate.
    cbn [lookup] in E. destruct (Nat.eqb n a); [injection E as <- <- <-; now left|]. right. eauto. }
  assert (AO : axes_ok s rs sel).
  { assert (G : forall k ds ars, (forall i, (i < length ds)%nat -> nth i ds 0 = nth (k + i) s 0 /\ nth i ars None = nth (k + i) arr None) ->
       (k + length ds = length s)%nat -> length ars = length ds ->
       axes_ok ds (map2 (fun d o => match o with Some r => r | None => SliceDim 0 1 d d end) ds ars)
         (map (fun p => axis_selection rank (Z.of_nat (fst p)) (snd p) ax starts ends steps) (combine (seq k (length ds)) ds))).
    { intros k ds. revert k. induction ds as [|d ds IH]; intros k [|o ars] H LK LE; try discriminate; [constructor|].
      cbn [map2 length seq combine map fst snd]. cbn [length] in *. constructor.
      - destruct (H O ltac:(lia)) as [H1 H2]. cbn [nth] in H1, H2. rewrite Nat.add_0_r in *. subst d o.
        rewrite SEL by lia. rewrite GA by lia.
        assert (HD : In (nth k s 0) s) by (apply nth_In; lia).
        assert (0 <= nth k s 0 < 2 ^ 31).
        { unfold okshape in Ok. rewrite Forall_forall in Ok, HB. pose proof (Ok _ HD). pose proof (HB _ HD). lia. }
        destruct (lookup k nax starts ends steps) as [[[x y] t]|] eqn:EL.
        + pose proof (LKS _ _ _ _ EL) as IT.
          assert (HT : t <> 0) by (rewrite Forall_forall in HS; auto).
          assert (HO : 0 < t \/ 0 < nth k s 0).
          { destruct HP as [P|P]; rewrite Forall_forall in P; auto. }
          destruct (slice_axis (nth k s 0) x y t) as [r|] eqn:ER.
          2:{ unfold slice_axis in ER. destruct (Z.eqb_spec t 0); [congruence|discriminate]. }
          destruct (slice_axis_spec _ _ _ _ _ H0 HO ER) as (A1 & A2 & A3 & A4). subst t.
          split; [auto|split; auto].
        + replace (nth k (repeat None (length s)) None) with (@None slice_dim).
          2:{ symmetry. apply nth_repeat. }
          split; [simpl; lia|]. cbn [sd_out sd_start sd_step]. split; [apply zrange_of_nat; lia|]. intros; lia.
      - apply IH; try lia. intros i Hi. destruct (H (S i) ltac:(lia)) as [H1 H2]. cbn [nth] in H1, H2.
        replace (S k + i)%nat with (k + S i)%nat by lia. auto. }
    apply (G O s arr); auto; lia. }
  destruct (axes_ok_facts _ _ _ AO) as (OK & LR & EQS & IDX). fold os in EQS.
  destruct (slice_spec junk e s data (map sd_out rs) (map sd_start rs) (map sd_step rs)) as (e' & out & E & CO & G);
    auto; try (rewrite map_length; lia).
  { intros idx V. now apply IDX. }
  exists e', out. split; [unfold constPropSlice; rewrite EC; exact E|].
  rewrite EQS. split; auto. intros idx V. destruct (IDX idx V) as [V1 E1]. rewrite E1. split; auto.
Qed.

Example C10_example :
  (e <- constPropSlice 0 (Elements [2; 4] [4; 1] [0; 1; 2; 3; 4; 5; 6; 7] None) (Some [-1]) [-1] [- 2 ^ 63] [-2] ;; getWideNums 0 e)
    = Some [3; 1; 7; 5] /\
  selection [2; 4] [-1] [-1] [- 2 ^ 63] [-2] = [[0; 1]; [3; 1]].
Proof. split; reflexivity. Qed.

(** Finding: reversing an empty axis (x[::-1] with dim = 0) yields one element. *)
Theorem C10_empty_negative_step_refuted :
  exists r, slice_axis 0 (-1) (- 2 ^ 31) (-1) = Some r /\ sd_out r = 1 /\ onnx_slice 0 (-1) (- 2 ^ 31) (-1) = [].
Proof. eexists. split; [reflexivity|]. split; reflexivity. Qed.

(** ... so folding it reads outside the (empty) input. *)
Theorem C10_empty_negative_step_faults :
  constPropSlice 0 (Elements [0] [1] [] None) None [-1] [- 2 ^ 31] [-1] = None.
Proof. reflexivity. Qed.

(** Finding: the ends INT32_MAX and above are taken for "to the end", although a dimension may be longer. *)
Theorem C10_int32_sentinel_refuted :
  exists r, slice_axis (2 ^ 31 + 9) 0 (2 ^ 31) (2 ^ 31) = Some r /\ sd_out r = 2 /\
    onnx_end (2 ^ 31 + 9) (2 ^ 31) (2 ^ 31) = 2 ^ 31.
Proof. eexists. split; [reflexivity|]. split; reflexivity. Qed.

Print Assumptions C10_slice_axis.
Print Assumptions C10_slice.
Print Assumptions C10_empty_negative_step_refuted.
Print Assumptions C10_int32_sentinel_refuted.
