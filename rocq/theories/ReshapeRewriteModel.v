(** Rewriting of Reshape operations:
    /repo/src/Dialect/ONNX/ONNXOps/Canonicalize.cpp FuseTwoReshapesPattern, RewriteReshapeAllowZeroPattern,
    /repo/src/Dialect/ONNX/ONNXOps/Canonicalize.td FuseTwoReshapesAllowZeroPattern,
    RemoveIdentityReshapePattern2, SwapReshapeMatMulPattern,
    /repo/src/Dialect/ONNX/ONNXOps/OpHelper.cpp isIdentityReshape. *)
From Coq Require Import List ZArith Bool.
From Verif Require Import Util.
Import ListNotations.
Open Scope Z_scope.

(** An entry of a shape operand: a constant, or the single element of an i64 tensor computed at run
    time, with the value it has there (OpHelper.cpp 479-501 areDims). *)
Inductive entry := Const (v : Z) | Run (v : Z).
Definition value (e : entry) : Z := match e with Const v => v | Run v => v end.

(** Canonicalize.cpp 1639-1651. *)
Definition isZero (e : entry) : bool := match e with Const v => v =? 0 | Run _ => false end.
Definition isMinusOne (e : entry) : bool := match e with Const v => v =? -1 | Run _ => false end.

(** Canonicalize.cpp 1582-1611: the loop over the second shape. *)
Fixpoint fuseDims (firstDims secondDims : list entry) : list entry :=
  match secondDims with
  | [] => []
  | d2 :: r2 =>
      match firstDims with
      | d1 :: r1 => (if isZero d2 then d1 else d2) :: fuseDims r1 r2
      | [] => d2 :: fuseDims [] r2
      end
  end.
(** Canonicalize.cpp 1545-1637. [None]: no match. The fused shape is constant or a Concat of the
    entries. *)
Definition fuseTwoReshapes (firstAllowZero secondAllowZero : Z) (firstDims secondDims : list entry) : option (list entry) :=
  if negb (secondAllowZero =? 0) then None
  else if negb (firstAllowZero =? 0) then None
  else
    let fusedDims := fuseDims firstDims secondDims in
    if (1 <? length (filter isMinusOne fusedDims))%nat then None else Some fusedDims.

(** Canonicalize.td 715-720: the first Reshape is dropped; the shape operand of the second is kept. *)
Definition fuseAllowZero (secondAllowZero : Z) (second : list Z) : option (list Z) :=
  if secondAllowZero =? 1 then Some second else None.

(** OpHelper.cpp 904-944. [None]: a dynamic dim; [same]: the dims that dimension analysis proves
    equal, at the same position (all false without dimension analysis). *)
Definition eqDim (a b : option Z) : bool := match a, b with Some x, Some y => x =? y | None, None => true | _, _ => false end.
Fixpoint eqShape (a b : list (option Z)) : bool :=
  match a, b with [] , [] => true | x :: r, y :: s => eqDim x y && eqShape r s | _, _ => false end.
Fixpoint sameDims (ins outs : list (option Z)) (same : list bool) : nat :=
  match ins, outs, same with
  | x :: r, y :: s, b :: t => ((if match x with Some _ => eqDim x y | None => false end then 1 else if b then 1 else 0) + sameDims r s t)%nat
  | _, _, _ => O
  end.
Definition isIdentityReshape (ins outs : list (option Z)) (same : list bool) : bool :=
  if negb (length ins =? length outs)%nat then false
  else if negb (eqShape ins outs) then false
  else (length ins - 1 <=? sameDims ins outs same)%nat.

(** Canonicalize.cpp 1737-1801: whether allowzero becomes 0. *)
Definition isDynamic (d : option Z) : bool := match d with None => true | Some _ => false end.
Definition staticProduct (s : list (option Z)) : Z := fold_left (fun p d => match d with Some v => p * v | None => p end) s 1.
Definition rewriteAllowZero (allowzero : Z) (ins outs : list (option Z)) : bool :=
  if negb (allowzero =? 1) then false
  else
    let numDynamicDims := length (filter isDynamic ins) in
    let numDynamicInOutput := length (filter isDynamic outs) in
    let allStaticDims := (numDynamicDims =? 0)%nat && (numDynamicInOutput =? 0)%nat in
    let singleDynamicDim := (numDynamicDims =? 1)%nat && (numDynamicInOutput =? 1)%nat in
    if negb (allStaticDims || singleDynamicDim) then false
    else if singleDynamicDim then staticProduct ins =? staticProduct outs
    else true.

(** Canonicalize.td 742-756 and 117-123: MatMul (Reshape A) B with result res2 becomes
    Reshape (MatMul A B), with the shape of res2 as a constant. The last dims are compared as they
    are in the types, also when both are dynamic. *)
Definition swapReshapeMatMul (a res1 b res2 : list (option Z)) : option (list Z) :=
  if (2 <? length a)%nat && (length res1 =? 2)%nat && (length b =? 2)%nat &&
     eqDim (last a None) (last res1 None) && forallb (fun d => negb (isDynamic d)) res2
  then Some (map (fun d => match d with Some v => v | None => 0 end) res2)
  else None.
