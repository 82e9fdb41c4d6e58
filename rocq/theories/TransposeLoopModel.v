(** The code emitted for Transpose:
    /repo/src/Conversion/ONNXToKrnl/Tensor/Transpose.cpp. *)
From Coq Require Import List ZArith Bool.
From Verif Require Import Util TensorSpec TensorLemmas LoopModel GatherLoopModel BroadcastModel.
Import ListNotations.
Open Scope Z_scope.

(** krnl.memcpy, /repo/src/Conversion/KrnlToLLVM/KrnlMemcpy.cpp 33-105: [n] elements of the
    row-major storage, at the given offsets. *)
Definition flatLoad {T} (m : mem T) (k : Z) : option T :=
  if (0 <=? k) && (k <? size (mShape m)) then mAt m (unrm (mShape m) k) else None.
Definition flatStore {T} (m : mem T) (k : Z) (v : T) : option (mem T) :=
  if (0 <=? k) && (k <? size (mShape m)) then store m (unrm (mShape m) k) v else None.
Definition memcpyAt {T} (dest src : mem T) (n destOffset srcOffset : Z) : option (mem T) :=
  iterate [n] (fun k dest => v <- flatLoad src (srcOffset + nth 0 k 0) ;; flatStore dest (destOffset + nth 0 k 0) v) dest.

(** ONNXTransposeOpShapeHelper::computeShape,
    /repo/src/Dialect/ONNX/ONNXOps/Tensor/Transpose.cpp 27-64: the permutation (reversal by
    default) and the output dimensions. A negative entry is accepted here. *)
Definition permOf (rank : nat) (permAttr : option (list Z)) : list Z :=
  match permAttr with Some p => p | None => map (fun i => Z.of_nat (rank - 1 - i)) (seq 0 rank) end.
Fixpoint transposedDims (s perm : list Z) : option (list Z) :=
  match perm with
  | [] => Some []
  | p :: perm' => let p := if p <? 0 then p + Z.of_nat (length s) else p in d <- zget s p ;; r <- transposedDims s perm' ;; Some (d :: r)
  end.

(** canBeViewOp, Transpose.cpp 85-103. [lits] tells which dimensions are known at compile
    time; an unknown one is not 1. An axis out of range of the array of dimensions is
    undefined behaviour. *)
Definition keptAxis (lits : list bool) (s : list Z) (axis : Z) : option bool :=
  l <- zget lits axis ;; d <- zget s axis ;; Some (negb (l && (d =? 1))).
Fixpoint keptAxes (lits : list bool) (s axes : list Z) : option (list Z) :=
  match axes with
  | [] => Some []
  | a :: r => k <- keptAxis lits s a ;; l <- keptAxes lits s r ;; Some (if k then a :: l else l)
  end.
Definition canBeViewOp (lits : list bool) (s perm : list Z) : option bool :=
  originalAxes <- keptAxes lits s (zrange (Z.of_nat (length s))) ;;
  permutedAxes <- keptAxes lits s perm ;;
  Some (if list_eq_dec Z.eq_dec originalAxes permutedAxes then true else false).

(** unchangedInnerDimensions, Transpose.cpp 107-131, for memrefs with the identity layout. *)
Fixpoint unchangedInner (perm : list Z) (i : nat) : nat :=
  match i with
  | O => O
  | S i' => if nth i' perm 0 =? Z.of_nat i' then S (unchangedInner perm i') else O
  end.

(** scalarTransposeOverOutputs, Transpose.cpp 182-194: the inverse permutation; the two
    assertions say that it is one. *)
Fixpoint findOutput (perm : list Z) (o i : Z) (inputIndex : Z) : option Z :=
  match perm with
  | [] => if inputIndex =? -1 then None else Some inputIndex
  | p :: r => if p =? o then (if inputIndex =? -1 then findOutput r o (i + 1) i else None) else findOutput r o (i + 1) inputIndex
  end.
Fixpoint reversePermute (perm : list Z) (os : list Z) : option (list Z) :=
  match os with [] => Some [] | o :: r => i <- findOutput perm o 0 (-1) ;; l <- reversePermute perm r ;; Some (i :: l) end.
(** getNoLeftoverUnrollFactor, /repo/src/Conversion/ONNXToKrnl/ONNXToKrnlCommon.cpp 988-1004,
    for a lower bound of 0. *)
Fixpoint unrollFactor (u : nat) (tripCount : Z) : Z :=
  match u with
  | O | 1%nat => 1
  | S u' => if tripCount mod Z.of_nat u =? 0 then Z.of_nat u else unrollFactor u' tripCount
  end.
Definition getNoLeftoverUnrollFactor (isLit : bool) (ub : Z) (u : nat) : Z := if isLit then unrollFactor u ub else 1.
(** krnl.block of the innermost loop (Transpose.cpp 196-212): a loop over the blocks and one
    within a block. *)
Definition iterateBlocked {S} (ubs : list Z) (u : Z) (body : list Z -> S -> option S) (st : S) : option S :=
  if 1 <? u then
    let d := last ubs 0 in
    iterate (removelast ubs) (fun outer st =>
      foldM (fun ib st => foldM (fun i st => body (outer ++ [i]) st) (forLoop ib (Z.min (ib + u) d) 1) st) (forLoop 0 d u) st) st
  else iterate ubs body st.

Section Transpose.
Context {T : Type}.
(** scalarTransposeOverOutputs, Transpose.cpp 163-222. [parInner]: the innermost loop is the
    parallel one. Simplification: the loops run sequentially. *)
Definition scalarTranspose (parInner outLit : bool) (perm : list Z) (x out : mem T) : option (mem T) :=
  let rank := length (mShape out) in
  rp <- reversePermute perm (zrange (Z.of_nat rank)) ;;
  let u := if parInner then 1 else getNoLeftoverUnrollFactor outLit (last (mShape out) 0) 8 in
  iterateBlocked (mShape out) u (fun storeIndices out =>
    v <- load x (map (fun r => nth (Z.to_nat r) storeIndices 0) rp) ;; store out storeIndices v) out.

(** Transpose.cpp 240-254: row-major strides, and the product of all bounds. *)
Fixpoint strides (ubs : list Z) : list Z * Z :=
  match ubs with [] => ([], 1) | d :: r => let '(l, p) := strides r in (p :: l, p * d) end.
(** blockTranspose, Transpose.cpp 226-305. The last entry of outStrides is never set: it is
    [junk]. *)
Definition blockTranspose (junk : Z) (numLastDims : nat) (perm : list Z) (x out : mem T) : option (mem T) :=
  let rank := length (mShape x) in
  let outerRank := (rank - numLastDims)%nat in
  let inStrides := fst (strides (mShape x)) in
  let outStrides := upd (rank - 1) junk (fst (strides (mShape out))) in
  let elemsToCopy := fold_left Z.mul (skipn outerRank (mShape x)) 1 in
  iterate (firstn outerRank (mShape x)) (fun indices out =>
    let '(destOffset, srcOffset) := fold_left (fun '(d, s) i =>
          (d + nth (Z.to_nat (nth i perm 0)) indices 0 * nth i outStrides 0,
           s + nth i indices 0 * nth i inStrides 0)) (seq 0 outerRank) (0, 0) in
    memcpyAt out x elemsToCopy destOffset srcOffset) out.

(** matchAndRewrite, Transpose.cpp 38-80. *)
Definition transposeLoop (junk : Z) (parInner : bool) (lits : list bool) (permAttr : option (list Z)) (x : mem T) : option (mem T) :=
  let perm := permOf (length (mShape x)) permAttr in
  outDims <- transposedDims (mShape x) perm ;;
  view <- canBeViewOp lits (mShape x) perm ;;
  if (view : bool) then Some (reinterpret x outDims) else
  let numLastDims := unchangedInner perm (length (mShape x)) in
  if (0 <? numLastDims)%nat then blockTranspose junk numLastDims perm x (alloc outDims)
  else scalarTranspose parInner (nth (Z.to_nat (last perm 0)) lits false) perm x (alloc outDims).
End Transpose.
