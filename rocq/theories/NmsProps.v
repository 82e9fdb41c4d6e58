(** C77: NonMaxSuppression. *)
From Coq Require Import List ZArith Bool QArith Qminmax Lia Lqa Permutation.
From Verif Require Import Util NmsSpec NmsModel NmsProofs NmsGeometry.
Import ListNotations.
Open Scope Z_scope.

Definition orThreshold (p : nmsIn) : Q := match iouTH p with Some th => th | None => 0%Q end.
(** The IOU of every two boxes is below the threshold, or above it by more than the 1e-8 added to
    the union can hide. *)
Definition clear (p : nmsIn) : Prop := forall b k s, 0 <= b < nb p -> 0 <= k < ns p -> 0 <= s < ns p ->
  let e := extent (center p) (boxes p b k) in let f := extent (center p) (boxes p b s) in
  (iou e f < orThreshold p \/ (orThreshold p < iou e f /\ orThreshold p * (union e f + (1 # 100000000)) <= inter e f))%Q.

(** The selected rows are those of the ONNX definition, for the order of the boxes used, whatever
    the numbers of batches, classes and boxes. *)
Theorem C77_nms_right p order : 0 <= nb p -> 0 <= nc p -> 0 <= ns p -> (forall m, maxOut p = Some m -> 0 <= m) ->
  (scoreTH p = None -> forall b c s, 0 <= b < nb p -> 0 <= c < nc p -> 0 <= s < ns p -> (0 < scores p b c s)%Q) ->
  (center p = true -> forall b s, 0 <= b < nb p -> 0 <= s < ns p -> (0 <= boxes p b s 2 /\ 0 <= boxes p b s 3)%Q) ->
  clear p -> descending p order ->
  nmsLowering p order = Some (nms p order).
Proof.
  intros HB HC HS HM HSc HW HCl HD.
  rewrite nms_rows; [|assumption|assumption|assumption|unfold orZero; destruct (maxOut p) eqn:E; [now apply HM|lia]|intros b c Hb Hc; now apply (proj1 (HD b c Hb Hc))].
  f_equal. unfold nms. rewrite !flat_map_concat_map. f_equal. apply map_ext_in. intros b Hb. apply zrange_In in Hb.
  rewrite !flat_map_concat_map. f_equal. apply map_ext_in. intros c Hc. apply zrange_In in Hc. f_equal.
  assert (forall s, In s (order b c) -> 0 <= s < ns p) as Rg by (intros s Hs; apply (Permutation_in _ (proj1 (HD b c Hb Hc))) in Hs; now apply zrange_In).
  apply greedy_ext2.
  - intros s Hs. apply Rg in Hs. unfold eligible, orZero. destruct (scoreTH p) eqn:E; [reflexivity|]. apply Qltb_lt. now apply HSc.
  - intros k s Hk Hs. cbn [app] in Hk. apply Rg in Hk, Hs. unfold overlap. change (match iouTH p with Some th => th | None => 0%Q end) with (orThreshold p).
    change (orZero 0%Q (iouTH p)) with (orThreshold p).
    apply decision.
    + apply extent_proper. intros C. now apply HW.
    + apply extent_proper. intros C. now apply HW.
    + now apply HCl.
    + pose proof (emitIOU_eq (center p) (boxes p b k) (boxes p b s)) as E. destruct (center p); exact E.
Qed.
(** With no condition on the thresholds: no store falls outside the buffer, whose size is computed
    before the selection, and no class has more rows than the maximum. *)
Theorem C77_memory p order : 0 <= nb p -> 0 <= nc p -> 0 <= ns p -> (forall m, maxOut p = Some m -> 0 <= m) -> descending p order ->
  exists r, nmsLowering p order = Some r /\ forall b c, Z.of_nat (length (filter (fun x => (fst (fst x) =? b) && (snd (fst x) =? c)) r)) <= orZero 0 (maxOut p).
Proof.
  intros HB HC HS HM HD. assert (0 <= orZero 0 (maxOut p)) as M0 by (unfold orZero; destruct (maxOut p) eqn:E; [now apply HM|lia]).
  rewrite nms_rows; [|assumption|assumption|assumption|assumption|intros b c Hb Hc; now apply (proj1 (HD b c Hb Hc))].
  eexists. split; [reflexivity|]. intros b c.
  apply rows_bound; [assumption| |apply NoDup_zseq|apply NoDup_zseq].
  intros b' c'. etransitivity; [apply greedy_length; cbn; lia|cbn; lia].
Qed.
(** For corners with integer coordinates, in any order: the overlap computed is the number of unit
    squares in both boxes over the number in one of them, up to the 1e-8. *)
Theorem C77_overlap_counts_squares lo n b1 b2 : inWindow lo n b1 -> inWindow lo n b2 ->
  (emitIOU false (tryToUnflip (fun i => inject_Z (b1 i))) (tryToUnflip (fun i => inject_Z (b2 i))) ==
   inject_Z (countCells lo n (fun c => covers b1 c && covers b2 c)) / (inject_Z (countCells lo n (fun c => covers b1 c || covers b2 c)) + (1 # 100000000)))%Q.
Proof.
  intros W1 W2. pose proof (emitIOU_eq false (fun i => inject_Z (b1 i)) (fun i => inject_Z (b2 i))) as E. cbn [negb] in E. rewrite E.
  rewrite (inter_cells lo n), (union_cells lo n) by assumption. reflexivity.
Qed.

Definition ofList (l : list Q) (i : Z) : Q := nth (Z.to_nat i) l 0%Q.
Definition two (k s : list Q) (i sc : option Q) (s0 s1 : Q) : nmsIn :=
  {| nb := 1; nc := 1; ns := 2; boxes := fun _ j => ofList (if j =? 0 then k else s); scores := fun _ _ j => if j =? 0 then s0 else s1; maxOut := Some 2; iouTH := i; scoreTH := sc; center := false |}.
Lemma two_descending k s i sc s0 s1 : (s1 <= s0)%Q -> descending (two k s i sc s0 s1) (fun _ _ => [0; 1]).
Proof.
  intros H b c _ _. split; [reflexivity|]. intros [|[|?]] [|[|?]] x y L E1 E2; cbn in E1, E2; try discriminate; try lia; try (destruct n; discriminate).
  injection E1 as <-. injection E2 as <-. exact H.
Qed.
(** Without a threshold, ONNX keeps boxes that do not overlap at all; the compiled code keeps one. *)
Theorem C77_default_threshold_refuted : exists p order, descending p order /\ iouTH p = None /\
  nms p order = [(0, 0, 0); (0, 0, 1)] /\ nmsLowering p order = Some [(0, 0, 0)].
Proof.
  exists (two [0; 0; 1; 1]%Q [5; 5; 6; 6]%Q None (Some 0%Q) 2%Q 1%Q), (fun _ _ => [0; 1]). split; [apply two_descending; lra|]. repeat split; vm_compute; reflexivity.
Qed.
(** Two equal boxes of side 1/100000, as for normalized coordinates: their IOU is 1, above the
    threshold 1/2, but both are kept. *)
Theorem C77_small_boxes_refuted : exists p order, descending p order /\ iouTH p = Some (1 # 2)%Q /\
  iou (extent false (boxes p 0 0)) (extent false (boxes p 0 1)) == 1 /\
  nms p order = [(0, 0, 0)] /\ nmsLowering p order = Some [(0, 0, 0); (0, 0, 1)].
Proof.
  exists (two [0; 0; 1 # 100000; 1 # 100000]%Q [0; 0; 1 # 100000; 1 # 100000]%Q (Some (1 # 2)%Q) (Some 0%Q) 2%Q 1%Q), (fun _ _ => [0; 1]). split; [apply two_descending; lra|]. repeat split; vm_compute; reflexivity.
Qed.
(** Without a score threshold, boxes whose score is not positive are dropped. *)
Theorem C77_default_score_refuted : exists p order, descending p order /\ scoreTH p = None /\
  nms p order = [(0, 0, 0); (0, 0, 1)] /\ nmsLowering p order = Some [(0, 0, 0)].
Proof.
  exists (two [0; 0; 1; 1]%Q [5; 5; 6; 6]%Q (Some (1 # 2)%Q) None 2%Q (-1)%Q), (fun _ _ => [0; 1]). split; [apply two_descending; lra|]. repeat split; vm_compute; reflexivity.
Qed.

(** Three boxes, the second flipped and overlapping the first, the third apart: *)
Definition pex : nmsIn :=
  {| nb := 1; nc := 2; ns := 3; boxes := fun _ j => ofList (if j =? 0 then [0; 0; 4; 4] else if j =? 1 then [4; 5; 0; 1] else [9; 9; 12; 12])%Q;
     scores := fun _ c j => if c =? 0 then (if j =? 0 then 1 # 2 else if j =? 1 then 3 # 4 else 1 # 4)%Q else (if j =? 0 then 1 # 2 else 0)%Q;
     maxOut := Some 5; iouTH := Some (1 # 2)%Q; scoreTH := Some (1 # 5)%Q; center := false |}.
Example C77_nonvacuous : descending pex (fun b c => if c =? 0 then [1; 0; 2] else [0; 2; 1]) /\ clear pex /\
  nmsLowering pex (fun b c => if c =? 0 then [1; 0; 2] else [0; 2; 1]) = Some [(0, 0, 1); (0, 0, 2); (0, 1, 0)].
Proof.
  split; [|split; [|vm_compute; reflexivity]].
  - intros b c Hb Hc. cbn [nc pex] in Hc. assert (c = 0 \/ c = 1) as [-> | ->] by lia; change (zrange (ns pex)) with [0; 1; 2]; cbn [Z.eqb]; cbv iota.
    + split; [apply NoDup_Permutation_bis; [repeat (apply NoDup_cons; [cbn; intuition discriminate|]); apply NoDup_nil|cbn; lia|intros a; cbn; intuition]|].
      intros [|[|[|i]]] [|[|[|j]]] x y L E1 E2; cbn in E1, E2; try discriminate; try lia; try (destruct i; discriminate); try (destruct j; discriminate); injection E1 as <-; injection E2 as <-; vm_compute; discriminate.
    + split; [apply NoDup_Permutation_bis; [repeat (apply NoDup_cons; [cbn; intuition discriminate|]); apply NoDup_nil|cbn; lia|intros a; cbn; intuition]|].
      intros [|[|[|i]]] [|[|[|j]]] x y L E1 E2; cbn in E1, E2; try discriminate; try lia; try (destruct i; discriminate); try (destruct j; discriminate); injection E1 as <-; injection E2 as <-; vm_compute; discriminate.
  - intros b k s Hb Hk Hs. cbn [ns pex] in Hk, Hs.
    assert (k = 0 \/ k = 1 \/ k = 2) as [-> |[-> | ->]] by lia; assert (s = 0 \/ s = 1 \/ s = 2) as [-> |[-> | ->]] by lia;
    first [left; vm_compute; reflexivity | right; split; vm_compute; first [reflexivity|discriminate]].
Qed.

Print Assumptions C77_nms_right.
Print Assumptions C77_overlap_counts_squares.
