(** Theorems C71 and C72: the code emitted for Loop and Scan. *)
From Coq Require Import List ZArith Lia Bool Arith.
From Verif Require Import Util ControlSpec ControlModel ControlProofs.
Import ListNotations.
Open Scope Z_scope.

(** * C71: Loop *)

(** A loop with a trip count whose body returns its condition: the final values are those of
    ONNX, and every row of the scan outputs is written, in order. *)
Theorem C71_counted {V} fuel (m : Z) (b : loopBody V) vs :
  wf b (length vs) -> inOrder (bCarried b) -> bCond b = None -> 0 <= m ->
  exists final rows, onnx_loop (Some m) b 0 true vs final rows /\ Z.of_nat (length rows) = m /\
    loopLowering fuel (Some m) (Some true) b vs = Done (map Some final, map Some rows).
Proof.
  intros W O BC Hm. destruct (onnx_loop_total b m (Z.to_nat m) 0 true vs W ltac:(lia)) as (final & rows & R & L). exists final, rows. split; [exact R|].
  destruct (counted_go b BC O (Z.to_nat m) 0 [] vs final rows) as (LR & E); [apply W|reflexivity|rewrite Z2Nat.id by lia; exact R|]. split; [lia|].
  unfold loopLowering, isWhileLoop. rewrite BC. unfold countedLoop. cbn [obind]. destruct (Z.ltb_spec m 0); [lia|]. cbn [andb]. unfold zrange. cbn [map app] in E. rewrite E. reflexivity.
Qed.
(** The same with an initial condition that is false, without scan outputs. *)
Theorem C71_counted_false {V} fuel (m : Z) (b : loopBody V) vs : bCond b = None -> bScan b = [] ->
  onnx_loop (Some m) b 0 false vs vs [] /\ exists rows, loopLowering fuel (Some m) (Some false) b vs = Done (map Some vs, rows).
Proof.
  intros BC BS. split; [constructor; auto|]. unfold loopLowering, isWhileLoop. rewrite BC. unfold countedLoop. cbn [obind]. rewrite BS. cbn [length Nat.eqb negb]. rewrite andb_false_r. unfold zrange. rewrite counted_false. cbn [obind fst snd]. eexists. reflexivity.
Qed.
(** A loop whose condition changes, entered with a true condition: the final values are
    those of ONNX, and the emitted loop ends. *)
Theorem C71_while {V} fuel (m : Z) (b : loopBody V) f vs :
  wf b (length vs) -> inOrder (bCarried b) -> bCond b = Some f -> bScan b = [] -> 0 < m -> (Z.to_nat m <= fuel)%nat ->
  exists final rows, onnx_loop (Some m) b 0 true vs final rows /\
    loopLowering fuel (Some m) (Some true) b vs = Done (map Some final, []).
Proof.
  intros W O BC BS Hm HF. destruct (onnx_loop_total b m (Z.to_nat m) 0 true vs W ltac:(lia)) as (final & rows & R & L). exists final, rows. split; [exact R|].
  unfold loopLowering, isWhileLoop. rewrite BC. unfold whileLoop. rewrite BS, wellBound_both.
  inversion R as [? ? ? [HC|(n' & HN & HL)]|i' vs0 vs' row final0 rows' HM HV HR HI]; subst; try discriminate; [injection HN as <-; lia|].
  destruct fuel as [|fuel]; [lia|]. cbn [whileIter]. destruct (Z.ltb_spec 0 m); [|lia]. cbn [andb obind].
  pose proof (copyOutputs_first (0, true) vs (bCarried b) vs' [] (repeat None (length vs))) as CO. cbn [length app] in CO. rewrite CO; [|rewrite repeat_length; symmetry; apply W|exact HV]. cbn [obind]. rewrite BC in *.
  replace m with (0 + 1 + Z.of_nat (Z.to_nat (m - 1))) by lia. replace m with (0 + 1 + Z.of_nat (Z.to_nat (m - 1))) in HI by lia.
  rewrite (while_later b f BC O _ _ _ _ final rows'); [reflexivity|rewrite (values_length _ _ _ _ HV); reflexivity|lia|exact HI].
Qed.

(** The body (a, b) -> (a + b, a) passes on its first argument as the second: the copies run
    one after the other, and the second reads a buffer the first has overwritten. *)
Definition fib : loopBody Z := {| bCond := None; bCarried := [Fresh (fun _ vs => nth 0 vs 0 + nth 1 vs 0); View 0]; bScan := [] |}.
Theorem C71_passed_on_refuted : wf fib 2 /\ onnx_loop (Some 2) fib 0 true [1; 0] [2; 1] [[]; []] /\
  exists rows, loopLowering 0 (Some 2) (Some true) fib [1; 0] = Done ([Some 2; Some 2], rows).
Proof.
  split; [|split].
  - split; [reflexivity|]. split; intros k H; cbn in H; [destruct H as [H|[H|[]]]; [discriminate|injection H as <-; lia]|destruct H].
  - apply (loop_step _ _ 0 _ [1; 1]); [intros n [= <-]; lia|reflexivity|reflexivity|]. apply (loop_step _ _ _ _ [2; 1]); [intros n [= <-]; lia|reflexivity|reflexivity|]. constructor. right. exists 2. split; [reflexivity|lia].
  - eexists. vm_compute. reflexivity.
Qed.
(** A condition that is false at first, in a loop that changes it: the results are never
    written. *)
Definition count : loopBody Z := {| bCond := Some (fun _ vs => nth 0 vs 0 <? 5); bCarried := [Fresh (fun _ vs => nth 0 vs 0 + 1)]; bScan := [] |}.
Theorem C71_zero_trips_refuted : onnx_loop (Some 10) count 0 false [7] [7] [] /\ loopLowering 10 (Some 10) (Some false) count [7] = Done ([None], []).
Proof. split; [constructor; auto|reflexivity]. Qed.
(** A false condition with scan outputs: they have a row for each iteration that did not
    take place. *)
Definition rowOf : loopBody Z := {| bCond := None; bCarried := [View 0]; bScan := [View 0] |}.
Theorem C71_false_scan_refuted : onnx_loop (Some 2) rowOf 0 false [7] [7] [] /\ loopLowering 0 (Some 2) (Some false) rowOf [7] = Done ([Some 7], [None; None]).
Proof. split; [constructor; auto|reflexivity]. Qed.
(** No trip count, no condition, or scan outputs with a condition that changes: legal, and
    rejected. *)
Theorem C71_unsupported_refuted :
  (onnx_loop None count 0 true [5] [6] [[]] /\ forall fuel, loopLowering fuel None (Some true) count [5] = Failed) /\
  (onnx_loop (Some 1) rowOf 0 true [7] [7] [[7]] /\ forall fuel, loopLowering fuel (Some 1) None rowOf [7] = Failed) /\
  exists b : loopBody Z, wf b 1 /\ onnx_loop (Some 1) b 0 true [7] [8] [[7]] /\ forall fuel, loopLowering fuel (Some 1) (Some true) b [7] = Failed.
Proof.
  split; [|split].
  - split; [|reflexivity]. apply (loop_step _ _ 0 _ [6] []); [discriminate|reflexivity|reflexivity|]. constructor. left. reflexivity.
  - split; [|reflexivity]. apply (loop_step _ _ 0 _ [7] [7]); [intros n [= <-]; lia|reflexivity|reflexivity|]. constructor. right. exists 1. split; [reflexivity|lia].
  - exists {| bCond := Some (fun _ vs => nth 0 vs 0 <? 5); bCarried := [Fresh (fun _ vs => nth 0 vs 0 + 1)]; bScan := [View 0] |}. split; [|split; [|reflexivity]].
    + split; [reflexivity|]. split; intros k [H|[]]; [discriminate|injection H as <-; lia].
    + apply (loop_step _ _ 0 _ [8] [7]); [intros n [= <-]; lia|reflexivity|reflexivity|]. constructor. left. reflexivity.
Qed.
Example C71_nonvacuous : wf {| bCond := None; bCarried := [View 1; Fresh (fun i vs => nth 0 vs 0 + fst i)]; bScan := [View 0] |} 2 /\
  inOrder (V := Z) (I := Z * bool) [View 1; Fresh (fun i vs => nth 0 vs 0 + fst i)] /\
  loopLowering 0 (Some 3) (Some true) {| bCond := None; bCarried := [View 1; Fresh (fun i vs => nth 0 vs 0 + fst i)]; bScan := [View 0] |} [10; 20] = Done ([Some 21; Some 12], [Some [10]; Some [20]; Some [10]]).
Proof.
  split; [|split].
  - split; [reflexivity|]. split; intros k; cbn; [intros [H|[H|[]]]; [injection H as <-; lia|discriminate]|intros [H|[]]; injection H as <-; lia].
  - intros [|[|[|j]]] k H; try discriminate. lia.
  - vm_compute. reflexivity.
Qed.
Example C71_while_run : loopLowering 10 (Some 10) (Some true) count [2] = Done ([Some 6], []).
Proof. vm_compute. reflexivity. Qed.

(** * C72: Scan *)

(** With the default axes and directions: the final values and the rows of the scan outputs
    are those of ONNX. *)
Theorem C72_scan {V} (d : V) inDirs outDirs carried scan vs inputs L : inputs <> [] ->
  Forall (fun x => length x = L) inputs -> length carried = length vs -> refersBelow (length vs) carried -> refersBelow (length vs) scan -> inOrder carried ->
  (forall k, In (View k) scan -> nth_error carried k = Some (View k)) ->
  exists final rows, onnx_scan carried scan (map (fun i => map (fun x => nth i x d) inputs) (seq 0 L)) vs final rows /\
    scanLowering inDirs outDirs carried scan vs inputs = Some (final, map Some rows).
Proof.
  intros NE LI LC R1 R2 O SO. destruct (onnx_scan_total carried scan (map (fun i => map (fun x => nth i x d) inputs) (seq 0 L)) vs LC R1 R2) as (final & rows & H). exists final, rows. split; [exact H|].
  unfold scanLowering. destruct inputs as [|x r]; [now elim NE|]. assert (Lx : length x = L) by now inversion LI. rewrite Lx. unfold zrange. rewrite Nat2Z.id.
  apply (scan_go carried scan (x :: r) d O SO L 0 [] vs final rows LC eq_refl LI H).
Qed.
(** A scan output that is the state before the iteration gets the state after it. *)
Theorem C72_old_state_refuted : onnx_scan (V := Z) [Fresh (fun xs vs => nth 0 vs 0 + nth 0 xs 0)] [View 0] [[5]; [6]] [0] [11] [[0]; [5]] /\
  scanLowering [] [] [Fresh (fun xs vs => nth 0 vs 0 + nth 0 xs 0)] [View 0] [0] [[5; 6]] = Some ([11], [Some [5]; Some [11]]).
Proof.
  split; [|vm_compute; reflexivity]. apply (scan_step _ _ _ _ _ [5]); [reflexivity|reflexivity|]. apply (scan_step _ _ _ _ _ [11]); [reflexivity|reflexivity|]. constructor.
Qed.
(** So does a state passed on to a later position. *)
Theorem C72_passed_on_refuted : onnx_scan (V := Z) [Fresh (fun xs _ => nth 0 xs 0); View 0] [] [[5]; [6]] [0; 0] [6; 5] [[]; []] /\
  exists rows, scanLowering [] [] [Fresh (fun xs _ => nth 0 xs 0); View 0] [] [0; 0] [[5; 6]] = Some ([6; 6], rows).
Proof.
  split; [|eexists; vm_compute; reflexivity]. apply (scan_step _ _ _ _ _ [5; 0]); [reflexivity|reflexivity|]. apply (scan_step _ _ _ _ _ [6; 5]); [reflexivity|reflexivity|]. constructor.
Qed.
(** A scan input read backwards ([true] in the directions): read forwards. *)
Theorem C72_backwards_refuted : onnx_scan (V := Z) [Fresh (fun xs vs => 10 * nth 0 vs 0 + nth 0 xs 0)] [] (rev [[5]; [6]]) [0] [65] [[]; []] /\
  exists rows, scanLowering [true] [] [Fresh (fun xs vs => 10 * nth 0 vs 0 + nth 0 xs 0)] [] [0] [[5; 6]] = Some ([56], rows).
Proof.
  split; [|eexists; vm_compute; reflexivity]. apply (scan_step _ _ _ _ _ [6]); [reflexivity|reflexivity|]. apply (scan_step _ _ _ _ _ [65]); [reflexivity|reflexivity|]. constructor.
Qed.
Example C72_nonvacuous : scanLowering [] [] [View 0; Fresh (fun xs vs => nth 1 vs 0 + nth 0 xs 0 * nth 1 xs 0)] [View 0; Fresh (fun xs vs => nth 0 xs 0 + nth 0 vs 0)] [3; 0] [[5; 6]; [7; 8]] =
  Some ([3; 83], [Some [3; 8]; Some [3; 9]]).
Proof. vm_compute. reflexivity. Qed.
Print Assumptions C71_counted.
Print Assumptions C71_while.
Print Assumptions C72_scan.
