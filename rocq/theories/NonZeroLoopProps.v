(** Theorems C59: the loops emitted for NonZero. ONNX: column [k] of the output holds the
    coordinates of the k-th non-zero element in row-major order. *)
From Coq Require Import List ZArith Lia Bool Arith Permutation Sorted.
From Verif Require Import Util TensorSpec TensorLemmas LoopModel LoopProofs NonZeroLoopModel NonZeroLoopProofs.
Import ListNotations.
Open Scope Z_scope.

(** The positions of the non-zero elements in row-major order. *)
Definition nonZeroPositions {T} (isZero : T -> bool) (dv : index -> T) (s : shape) : list index := filter (fun i => negb (isZero (dv i))) (indices s).

(** No access is out of bounds, the output has one row per dimension and one column per
    non-zero element, and each row holds the right coordinates in ascending order. *)
Theorem C59_rows {T} (isZero : T -> bool) (x : mem T) dv : let s := mShape x in let nz := nonZeroPositions isZero dv s in
  (forall i, valid s i -> mAt x i = Some (dv i)) ->
  exists out, nonZeroLoop isZero x = Some out /\ mShape out = [Z.of_nat (length s); Z.of_nat (length nz)] /\
    forall a, (a < length s)%nat -> exists r, StronglySorted Z.le r /\ Permutation r (map (fun i => nth a i 0) nz) /\
      forall k, 0 <= k < Z.of_nat (length nz) -> mAt out [Z.of_nat a; k] = zget r k.
Proof. intros s nz H. exact (nonZero_ok isZero x dv H). Qed.
(** So the first row is right, and a row is right whenever its coordinates happen to be in
    ascending order. *)
Theorem C59_first_row {T} (isZero : T -> bool) (x : mem T) dv a : let s := mShape x in let nz := nonZeroPositions isZero dv s in
  (forall i, valid s i -> mAt x i = Some (dv i)) -> (a < length s)%nat ->
  (a = O \/ StronglySorted Z.le (map (fun i => nth a i 0) nz)) ->
  exists out, nonZeroLoop isZero x = Some out /\
    forall k, 0 <= k < Z.of_nat (length nz) -> exists i, zget nz k = Some i /\ mAt out [Z.of_nat a; k] = Some (nth a i 0).
Proof.
  intros s nz H Ha HS. destruct (C59_rows isZero x dv H) as (out & E & _ & R). exists out. split; auto. intros k K. destruct (R a Ha) as (r & Sr & P & A).
  assert (r = map (fun i => nth a i 0) nz).
  { apply sorted_perm_eq; auto. destruct HS as [->|HS]; auto. unfold nz, nonZeroPositions. eapply map_sorted; [|apply filter_sorted, indices_first_sorted; fold s; lia]. cbn beta. auto. }
  fold s nz in A. rewrite A by auto. subst r. rewrite zget_map. unfold zget. destruct (Z.ltb_spec k 0); [lia|].
  destruct (nth_error nz (Z.to_nat k)) as [i|] eqn:EN; [exists i; auto|]. apply nth_error_None in EN. lia.
Qed.
(** For a vector the whole output is right. *)
Theorem C59_rank_one {T} (isZero : T -> bool) (x : mem T) dv d : let nz := nonZeroPositions isZero dv [d] in
  mShape x = [d] -> (forall i, valid [d] i -> mAt x i = Some (dv i)) ->
  exists out, nonZeroLoop isZero x = Some out /\ mShape out = [1; Z.of_nat (length nz)] /\
    forall k, 0 <= k < Z.of_nat (length nz) -> exists i, zget nz k = Some [i] /\ mAt out [0; k] = Some i.
Proof.
  intros nz HS H. rewrite <- HS in H. destruct (C59_rows isZero x dv H) as (out & E & S1 & _). destruct (C59_first_row isZero x dv O H) as (out' & E' & A); [rewrite HS; cbn; lia|auto|].
  rewrite E in E'. injection E' as <-. exists out. rewrite HS in S1, A. split; auto. split; auto. intros k K. destruct (A k K) as (i & Z1 & Z2). fold nz in Z1.
  assert (V : valid [d] i). { apply indices_In. assert (In i nz) as I by (unfold zget in Z1; destruct (k <? 0); [discriminate|]; eapply nth_error_In; exact Z1). now apply filter_In in I as [I _]. }
  destruct i as [|i [|]]; try solve [inversion V as [|? ? ? ? ? V2]; inversion V2]. exists i. auto.
Qed.
(** For a matrix it is wrong: the coordinates of a column are those of different elements.
    For [[0, 1], [1, 0]] the code yields the columns (0, 0) and (1, 1), the positions of
    the zeros. *)
Theorem C59_matrix_refuted : exists (x : mem Z) dv out, mShape x = [2; 2] /\ (forall i, mAt x i = Some (dv i)) /\
  nonZeroLoop (Z.eqb 0) x = Some out /\ nonZeroPositions (Z.eqb 0) dv [2; 2] = [[0; 1]; [1; 0]] /\
  mAt out [0; 0] = Some 0 /\ mAt out [1; 0] = Some 0 /\ mAt out [0; 1] = Some 1 /\ mAt out [1; 1] = Some 1.
Proof.
  exists (Mem [2; 2] (fun i => Some (if nth 0 i 0 =? nth 1 i 0 then 0 else 1))), (fun i => if nth 0 i 0 =? nth 1 i 0 then 0 else 1). eexists.
  split; [reflexivity|]. split; [reflexivity|]. split; [vm_compute; reflexivity|]. split; [reflexivity|]. split; [reflexivity|]. split; [reflexivity|]. split; reflexivity.
Qed.
Example C59_run : option_map (fun m => (mShape m, map (mAt m) (indices (mShape m)))) (nonZeroLoop (Z.eqb 0) (Mem [5] (fun i => Some (nth (Z.to_nat (nth 0 i 0)) [0; 7; 0; 3; 1] 0))))
  = Some ([1; 3], map Some [1; 3; 4]).
Proof. vm_compute. reflexivity. Qed.
Print Assumptions C59_rows.
Print Assumptions C59_first_row.
Print Assumptions C59_rank_one.
