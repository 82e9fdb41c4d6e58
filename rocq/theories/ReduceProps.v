(** Properties C14-C16, C39, C40: folding of reductions (for any number of
    threads and any interleaving), MatMul, NonZero and Range. *)
From Coq Require Import List ZArith Lia Bool Arith Permutation.
From Verif Require Import Util TensorSpec TensorLemmas StridesModel StridesProofs
  ElementsModel ElementsSpec ElementsBase ElementsViews ElementsGather ElementsProps
  ReduceModel ReduceProofs MatMulProofs.
Import ListNotations.
Open Scope Z_scope.

(** C14: whatever the storage of the operand, the number of threads and the
    schedule, a completed reduction has the reduced shape, and the element at
    [o] is the fold, from left to right in row-major order, of exactly the
    elements whose reduced index is [o]. *)
Theorem C14_reduce : forall (W : Type) (junk : W) numThreads e s data axes keepdims reducer r,
  const junk e s data -> 0 < size s -> NoDup axes -> 0 < numThreads ->
  reduce_run junk numThreads e axes keepdims reducer r ->
  let mask := axes_mask (length s) axes in
  let rs := reduced_shape keepdims mask s in
  exists e' out, r = Some e' /\ const junk e' rs out /\
    forall o, valid rs o ->
      exists ws,
        Forall2 (fun idx w => elem s data idx = Some w)
                (filter (fun idx => beq_idx (reduced_index keepdims mask idx) o) (indices s)) ws /\
        elem rs out o = fold1 reducer ws.
Proof. intros. eapply reduce_main; eauto. Qed.

(** C15: a run exists, and any two runs, with any thread counts and schedules, give the same tensor. *)
Theorem C15_schedule_independent : forall (W : Type) (junk : W) e s data axes keepdims reducer,
  const junk e s data -> 0 < size s -> NoDup axes ->
  let rs := reduced_shape keepdims (axes_mask (length s) axes) s in
  exists out, forall n, 0 < n ->
    (exists r, reduce_run junk n e axes keepdims reducer r) /\
    (forall r, reduce_run junk n e axes keepdims reducer r -> exists e', r = Some e' /\ const junk e' rs out).
Proof.
  intros W junk e s data axes keepdims reducer C Hs HN rs.
  assert (EX : forall n, 0 < n -> exists r, reduce_run junk n e axes keepdims reducer r).
  { intros n Hn. unfold reduce_run. destruct (_ =? 0); [eauto|]. destruct axes as [|a axes]; [eauto|].
    destruct (negb _); [eauto|]. destruct (reduce_split _ _ _ _ _) as [[ash ast] [rsh rst]].
    destruct (negb _); [eauto|].
    destruct (schedule_exists n (reduce_batch rsh rst) (map (fun it => off it 0) (StridesRange ash [ast])) Hn) as (tr & T).
    eauto. }
  destruct (EX 1 ltac:(lia)) as (r1 & R1).
  destruct (reduce_main junk 1 e s data axes keepdims reducer r1 C Hs HN ltac:(lia) R1) as (e1 & out & -> & C1 & G1).
  exists out. intros n Hn. split; auto. intros r R.
  destruct (reduce_main junk n e s data axes keepdims reducer r C Hs HN Hn R) as (e2 & out2 & -> & C2 & G2).
  exists e2. split; auto. destruct (const_data _ _ _ _ C1) as [Ok D1], (const_data _ _ _ _ C2) as [_ D2].
  replace out with out2; auto. apply (data_ext rs); auto. intros o V.
  destruct (G1 o V) as (w1 & F1 & E1), (G2 o V) as (w2 & F2 & E2). unfold rs. rewrite E1, E2. f_equal.
  assert (FU : forall l (a b : list W), Forall2 (fun idx w => elem s data idx = Some w) l a ->
     Forall2 (fun idx w => elem s data idx = Some w) l b -> a = b).
  { clear. intros l a b H; revert b; induction H; intros b' H'; inversion H'; subst; auto. f_equal; auto. congruence. }
  eauto.
Qed.

(** C15: the tiles handed to the threads are a partition of the work list, in order. *)
Theorem C15_tiles_partition : forall numThreads batch, 0 < numThreads ->
  exists tiles,
    Forall2 (fun t tile => fetchBatch numThreads batch t = Some tile) (zrange numThreads) tiles /\
    List.concat tiles = batch.
Proof.
  intros n batch Hn. destruct (tiles_exist n batch Hn) as (tiles & T). exists tiles. split; auto.
  eapply tiles_concat; eauto.
Qed.

(** Reducing over the same axis twice trips an assertion (line 852). *)
Theorem C14_duplicate_axes_refuted : forall (W : Type) (junk : W) n e s data keepdims reducer r a,
  const junk e s data -> 0 < size s ->
  reduce_run junk n e [a; a] keepdims reducer r -> r = None.
Proof.
  intros W junk n e s data keepdims reducer r a C Hs R. apply const_iff in C as (_ & Se & _).
  unfold reduce_run in R. rewrite Se in R.
  replace (getNumElements s =? 0) with false in R.
  2:{ symmetry. apply Z.eqb_neq. unfold getNumElements. change (prodZ s) with (size s). lia. }
  unfold sort_axes in R. cbn [fold_right insert_axis] in R. rewrite Nat.leb_refl in R.
  cbn [axes_unique] in R. rewrite Nat.eqb_refl in R. exact R.
Qed.

Example C14_example : exists e,
  reduce_run 0 1 (Elements [2; 3] [1; 2] [1; 2; 3; 4; 5; 6] None) [1%nat] false Z.add (Some e) /\
  getWideNums 0 e = Some [9; 12].
Proof.
  eexists. split.
  - unfold reduce_run. cbn. exists (work [0; 2; 4] [(0, 0); (1, 1)]). split; [reflexivity|]. vm_compute. reflexivity.
  - reflexivity.
Qed.

(** C16: folding MatMul of constants of shapes [lb ++ (M) ++ K] and
    [rb ++ K ++ (N)]; the row (column) axis is absent for a 1-D operand. *)
Theorem C16_matmul : forall (W : Type) (junk zero : W) (add mul : W -> W -> W) l r lb rb vl vr M K N c dl dr,
  let ls := lb ++ opt_axis vl M ++ [K] in
  let rs := rb ++ [K] ++ opt_axis vr N in
  let os := c ++ opt_axis vl M ++ opt_axis vr N in
  const junk l ls dl -> const junk r rs dr ->
  (vl = true -> lb = []) -> (vr = true -> rb = []) ->
  is_broadcast lb rb c ->
  exists e out, matMul junk zero add mul l r = Some e /\ const junk e os out /\
    forall b i j, valid c b -> valid (opt_axis vl M) i -> valid (opt_axis vr N) j ->
      exists xs ys,
        Forall2 (fun k w => elem ls dl (bsel lb b ++ i ++ [k]) = Some w) (zrange K) xs /\
        Forall2 (fun k w => elem rs dr (bsel rb b ++ [k] ++ j) = Some w) (zrange K) ys /\
        elem os out (b ++ i ++ j) = Some (fold_left add (map2 mul xs ys) zero).
Proof.
  intros W junk zero add mul l r lb rb vl vr M K N c dl dr ls rs os Cl Cr HVl HVr HC.
  apply getBroadcastedShape_iff in HC.
  assert (EM : opt_axis vl M = opt_axis vl (if vl then 1 else M)) by (destruct vl; auto).
  assert (EN : opt_axis vr N = opt_axis vr (if vr then 1 else N)) by (destruct vr; auto).
  unfold ls, rs, os in *. rewrite EM, EN in *.
  apply matMul_spec; auto.
  - intros ->. auto.
  - intros ->. auto.
Qed.

(** Operands that do not broadcast, or whose inner dimensions differ, are not folded. *)
Theorem C16_matmul_defined_only_if : forall (W : Type) (junk zero : W) (add mul : W -> W -> W) (l r : elements W) ls rs K K' M N e,
  e_shape l = ls ++ [M; K] -> e_shape r = rs ++ [K'; N] ->
  matMul junk zero add mul l r = Some e -> K = K' /\ exists c, is_broadcast ls rs c.
Proof.
  intros W junk zero add mul l r ls rs K K' M N e Sl Sr E. unfold matMul in E. rewrite Sl, Sr in E.
  assert (L1 : forall t (a b : Z), (length (t ++ [a; b]) =? 1)%nat = false)
    by (intros; apply Nat.eqb_neq; rewrite app_length; simpl; lia).
  assert (L0 : forall t (a b : Z), (length (t ++ [a; b]) =? 0)%nat = false)
    by (intros; apply Nat.eqb_neq; rewrite app_length; simpl; lia).
  rewrite !L1, !L0 in E. cbn [orb] in E. rewrite !drop_back2, !nth_last1, !nth_last2 in E.
  destruct (Z.eqb_spec K K') as [->|]; [|discriminate]. cbn [negb] in E. split; auto.
  destruct (getBroadcastedShape ls rs) as [c|] eqn:EC; [|discriminate].
  exists c. now apply getBroadcastedShape_iff.
Qed.

Example C16_example :
  (e <- matMul 0 0 Z.add Z.mul (Elements [2; 2] [1; 2] [1; 3; 2; 4] None)
         (Elements [2; 2; 1] [2; 1; 0] [1; 2; 3; 4] None) ;; getWideNums 0 e)
  = Some [5; 11; 11; 25] /\ is_broadcast [] [2] [2].
Proof.
  split; [reflexivity|]. split; [reflexivity|]. intros [|[|i]] Hi; simpl in *; try lia. unfold dim_back; simpl. auto.
Qed.

(** C39: NonZero of a constant of rank > 0. *)
Theorem C39_nonzero : forall (W : Type) (junk : W) (isZero : W -> bool) e s data,
  const junk e s data -> s <> [] ->
  let found := filter (fun idx => match elem s data idx with Some w => negb (isZero w) | None => false end) (indices s) in
  let os := [Z.of_nat (length s); Z.of_nat (length found)] in
  exists out, nonZero isZero e = Some (os, out) /\ is_data os out /\
    forall j i idx, nth_error found i = Some idx -> (j < length s)%nat ->
      elem os out [Z.of_nat j; Z.of_nat i] = Some (nth j idx 0).
Proof. intros. now apply nonZero_spec with junk. Qed.

Example C39_example : nonZero (Z.eqb 0) (Elements [2; 2] [1; 2] [0; 7; 8; 9] None) = Some ([2; 3], [0; 1; 1; 1; 0; 1]).
Proof. reflexivity. Qed.

(** A scalar constant makes the fold divide by zero (its rank): the claim fails for rank 0. *)
Theorem C39_scalar_refuted : forall (W : Type) (isZero : W -> bool) (v : W), nonZero isZero (Elements [] [] [v] None) = None.
Proof. intros. unfold nonZero. destruct (nonZeroIndices _ _) as [x|]; reflexivity. Qed.

(** C40: Range. *)
Theorem C40_range : forall (W : Type) (junk : W) (add : W -> W -> W) n start delta, 0 <= n ->
  exists e out, range junk add [n] start delta = Some e /\ const junk e [n] out /\
    forall k, 0 <= k < n -> elem [n] out [k] = Some (Nat.iter (Z.to_nat k) (fun y => add y delta) start).
Proof. intros. now apply range_spec. Qed.

Example C40_example : (e <- range 0 Z.add [3] 5 (-2) ;; getWideNums 0 e) = Some [5; 3; 1].
Proof. reflexivity. Qed.

Print Assumptions C14_reduce.
Print Assumptions C15_schedule_independent.
Print Assumptions C15_tiles_partition.
Print Assumptions C14_duplicate_axes_refuted.
Print Assumptions C16_matmul.
Print Assumptions C16_matmul_defined_only_if.
Print Assumptions C39_nonzero.
Print Assumptions C39_scalar_refuted.
Print Assumptions C40_range.
