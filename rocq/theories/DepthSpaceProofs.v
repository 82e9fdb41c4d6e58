(** Proofs about DepthSpaceModel.v. *)
From Coq Require Import List ZArith Lia Bool Arith Permutation.
From Verif Require Import Util TensorSpec TensorLemmas LoopModel LoopProofs GatherLoopModel GatherLoopProofs ElementsSpec ShapeOpsModel ShapeOpsSpec ShapeOpsProofs TransposeLoopModel TransposeLoopProofs DepthSpaceModel.
Import ListNotations.
Open Scope Z_scope.

Lemma reshapeBy_ok {T} (x : mem T) dims : Forall (fun d => 1 <= d) (mShape x) -> Forall (fun d => 1 <= d) dims -> size dims = size (mShape x) ->
  reshapeBy x dims = Some (reinterpret x dims).
Proof.
  intros P1 P2 E. unfold reshapeBy. rewrite (reshape_run_ok _ (mShape x) dims dims); auto.
  - split.
    + intros i v H. apply nth_error_In in H. pose proof (proj1 (Forall_forall _ _) P2 v H). cbn in *. lia.
    + intros i j H _. apply nth_error_In in H. pose proof (proj1 (Forall_forall _ _) P2 _ H). cbn in *. lia.
  - intros i k H. apply nth_error_In, repeat_spec in H. discriminate.
  - split; [reflexivity|]. split; [|exact E]. intros i v H. split; [|auto]. intros ->. apply nth_error_In in H. pose proof (proj1 (Forall_forall _ _) P2 _ H). cbn in *. lia.
Qed.

Lemma pos_ok s : Forall (fun d => 1 <= d) s -> okshape s.
Proof. intros H. eapply Forall_impl; [|exact H]. cbn. intros; lia. Qed.

(** Reshape, transpose, reshape. *)
Lemma steps_ok {T} junk parInner lits (perm : list nat) dims1 dims3 (x : mem T) dv :
  Forall (fun d => 1 <= d) (mShape x) -> Forall (fun d => 1 <= d) dims1 -> Forall (fun d => 1 <= d) dims3 -> Forall (fun d => 1 <= d) (permute perm dims1) ->
  size dims1 = size (mShape x) -> size dims3 = size (permute perm dims1) ->
  Permutation perm (seq 0 (length dims1)) -> length lits = length dims1 ->
  (forall i, valid (mShape x) i -> mAt x i = Some (dv i)) ->
  exists out,
    (r1 <- reshapeBy x dims1 ;; t <- transposeLoop junk parInner lits (Some (map Z.of_nat perm)) r1 ;; reshapeBy t dims3) = Some out /\
    mShape out = dims3 /\
    forall j i src, valid dims1 i -> valid (permute perm dims1) (permute perm i) -> valid (mShape x) src ->
      rm dims1 i = rm (mShape x) src -> rm dims3 j = rm (permute perm dims1) (permute perm i) -> mAt out j = Some (dv src).
Proof.
  intros PX P1 P3 P2 S1 S3 HP LL XD. rewrite (reshapeBy_ok x dims1) by auto. cbn [obind].
  destruct (transpose_ok (reinterpret x dims1) (fun i => dv (unrm (mShape x) (rm dims1 i))) perm) with (junk := junk) (parInner := parInner) (lits := lits) (permAttr := Some (map Z.of_nat perm)) as (t & ET & ST & AT); auto.
  - intros i V. cbn [reinterpret mAt mShape]. apply XD. apply unrm_spec; [now apply pos_ok|]. rewrite <- S1. apply rm_bound, V.
  - apply pos_ok, P1.
  - rewrite ET. cbn [obind]. cbn [reinterpret mShape] in ST, AT. rewrite reshapeBy_ok by (rewrite ?ST; auto). eexists. split; [reflexivity|]. split; [reflexivity|].
    intros j i src V1 V2 VS R1 R2. rewrite (reinterpret_at t dims3 j (permute perm i)) by (rewrite ?ST; auto). rewrite (AT i V1), R1, unrm_rm; auto. apply pos_ok, PX.
Qed.
