(** Theorems C68: the code emitted for Transpose. ONNX: dimension [k] of the output is
    dimension perm[k] of the input, and so are the indices; without a permutation the
    dimensions are reversed. *)
From Coq Require Import List ZArith Lia Bool Arith Permutation.
From Verif Require Import Util TensorSpec TensorLemmas LoopModel LoopProofs GatherLoopProofs ElementsSpec TransposeLoopModel TransposeLoopProofs.
Import ListNotations.
Open Scope Z_scope.

(** Whichever code is emitted (a view, copies of blocks or of elements), no access is out of
    bounds and every element of the output is written. *)
Theorem C68_transpose {T} junk parInner lits (perm : list nat) (x : mem T) dv : let s := mShape x in
  okshape s -> (forall i, valid s i -> mAt x i = Some (dv i)) -> length lits = length s -> Permutation perm (seq 0 (length s)) ->
  exists out, transposeLoop junk parInner lits (Some (map Z.of_nat perm)) x = Some out /\ mShape out = permute perm s /\
    (forall i, valid s i -> mAt out (permute perm i) = Some (dv i)) /\
    (forall j, valid (mShape out) j -> exists i, valid s i /\ permute perm i = j).
Proof.
  intros s Ok XD LL HP. destruct (transpose_ok x dv perm HP XD Ok junk parInner lits (Some (map Z.of_nat perm)) LL eq_refl) as (out & E & S1 & A).
  exists out. split; [exact E|]. split; [exact S1|]. split; [exact A|]. intros j V. rewrite S1 in V. exists (inv x perm j). split; [apply (inv_valid x perm HP); exact V|].
  apply (permute_inv x perm HP). apply valid_length in V. rewrite (permute_length _ _ HP) in V. auto.
Qed.
Theorem C68_default {T} junk parInner lits (x : mem T) dv : let s := mShape x in
  okshape s -> (forall i, valid s i -> mAt x i = Some (dv i)) -> length lits = length s ->
  exists out, transposeLoop junk parInner lits None x = Some out /\ mShape out = rev s /\ forall i, valid s i -> mAt out (rev i) = Some (dv i).
Proof.
  intros s Ok XD LL. assert (HP : Permutation (rev (seq 0 (length s))) (seq 0 (length s))) by apply Permutation_sym, Permutation_rev.
  assert (R : forall l, length l = length s -> permute (rev (seq 0 (length s))) l = rev l) by (intros l L; unfold permute; rewrite map_rev; f_equal; rewrite <- L; apply permute_id).
  destruct (transpose_ok x dv _ HP XD Ok junk parInner lits None LL) as (out & E & S1 & A).
  - unfold permOf. fold s.
    transitivity (map Z.of_nat (map (fun i => (length s - 1 - i)%nat) (seq 0 (length s)))); [now rewrite map_map|]. f_equal.
    apply nth_ext with (d := O) (d' := O); [now rewrite map_length, rev_length|]. intros k Hk. rewrite map_length, seq_length in Hk.
    set (g := fun i => (length s - 1 - i)%nat). rewrite (nth_indep _ O (g O)) by (rewrite map_length, seq_length; lia). rewrite map_nth, seq_nth by lia. rewrite rev_nth by (rewrite seq_length; lia). rewrite seq_length, seq_nth by lia. unfold g. lia.
  - exists out. split; [exact E|]. fold s in S1. rewrite R in S1 by reflexivity. split; [exact S1|]. intros i V. rewrite <- (R i) by (symmetry; apply valid_length, V). apply A, V.
Qed.
(** The verifier and shape inference accept negative entries of the permutation; the
    lowering then indexes out of bounds. *)
Theorem C68_negative_refuted : exists x : mem Z, (forall i, valid (mShape x) i -> mAt x i = Some 7) /\ mShape x = [2; 3] /\
  transposedDims (mShape x) [-1; 0] = Some [3; 2] /\ transposeLoop 0 false [true; true] (Some [-1; 0]) x = None.
Proof. exists (Mem [2; 3] (fun _ => Some 7)). split; [reflexivity|]. split; [reflexivity|]. split; reflexivity. Qed.
Definition tensorOf (s : list Z) : mem Z := Mem s (fun i => Some (rowmajor s i)).
Definition show (o : option (mem Z)) := option_map (fun m => (mShape m, map (mAt m) (indices (mShape m)))) o.
Example C68_view : canBeViewOp [true; true; false] [1; 2; 3] [1; 0; 2] = Some true /\ show (transposeLoop 5 false [true; true; false] (Some [1; 0; 2]) (tensorOf [1; 2; 3])) = Some ([2; 1; 3], map Some [0; 1; 2; 3; 4; 5]).
Proof. split; vm_compute; reflexivity. Qed.
Example C68_block : unchangedInner [1; 0; 2] 3 = 1%nat /\ show (transposeLoop 5 false [true; true; false] (Some [1; 0; 2]) (tensorOf [2; 2; 3])) = Some ([2; 2; 3], map Some [0; 1; 2; 6; 7; 8; 3; 4; 5; 9; 10; 11]).
Proof. split; vm_compute; reflexivity. Qed.
Example C68_scalar : show (transposeLoop 5 false [true; true] None (tensorOf [2; 3])) = Some ([3; 2], map Some [0; 3; 1; 4; 2; 5]).
Proof. vm_compute. reflexivity. Qed.
Example C68_nonvacuous : Permutation [1; 0; 2]%nat (seq 0 3).
Proof. apply perm_swap. Qed.
Print Assumptions C68_transpose.
Print Assumptions C68_default.
