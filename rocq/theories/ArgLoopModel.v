(** The loops emitted for ArgMin and ArgMax:
    /repo/src/Conversion/ONNXToKrnl/Tensor/ArgMinMax.cpp. *)
From Coq Require Import List ZArith Bool.
From Verif Require Import Util TensorSpec LoopModel GatherLoopModel.
Import ListNotations.
Open Scope Z_scope.

(** getReductionMapping, /repo/src/Conversion/ONNXToKrnl/ONNXToKrnlCommon.cpp 168-195: pairs
    (output dimension, input dimension). *)
Fixpoint reductionMapping (isReductionAxis : list bool) (keepdims : bool) (inIndex outIndex : nat) : list (nat * nat) :=
  match isReductionAxis with
  | [] => []
  | true :: r => reductionMapping r keepdims (S inIndex) (if keepdims then S outIndex else outIndex)
  | false :: r => (outIndex, inIndex) :: reductionMapping r keepdims (S inIndex) (S outIndex)
  end.
Definition getReductionMapping (rank : nat) (axes : list nat) (keepdims : bool) : list (nat * nat) :=
  reductionMapping (map (fun i => existsb (Nat.eqb i) axes) (seq 0 rank)) keepdims 0 0.
(** The output indices of an iteration: ArgMinMax.cpp 118-123. *)
Definition outLoopIVs (m : list (nat * nat)) (reducedRank : nat) (inLoopIVs : list Z) : list Z :=
  map (fun i => match find (fun p => (fst p =? i)%nat) m with Some p => nth (snd p) inLoopIVs 0 | None => 0 end) (seq 0 reducedRank).

(** ONNXArgMinMaxOpShapeHelper::computeShape,
    /repo/src/Dialect/ONNX/ONNXOps/Tensor/ArgMinMax.cpp 27-66. *)
Definition argShape (s : list Z) (axis : nat) (keepdims : bool) : list Z :=
  map (fun i => if keepdims then (if (i =? axis)%nat then 1 else nth i s 0) else if (i <? axis)%nat then nth i s 0 else nth (i + 1) s 0)
      (seq 0 (if keepdims then length s else length s - 1)).

Inductive argKind := ArgMin | ArgMax.
Section Arg.
Context {T : Type} (less : T -> T -> bool).
(** getCondition, ArgMinMax.cpp 23-36. *)
Definition getCondition (kind : argKind) (next dstVal : T) : bool :=
  match kind with ArgMin => less next dstVal | ArgMax => less dstVal next end.
(** ArgMinMax.cpp 45-155. The attribute select_last_index is not read. *)
Definition argLoop (kind : argKind) (selectLastIndex : bool) (axis : Z) (keepdims : bool) (data : mem T) : option (mem Z) :=
  let s := mShape data in
  let a := normalAxis (length s) axis in
  let outputDims := argShape s a keepdims in
  let m := getReductionMapping (length s) [a] keepdims in
  res <- iterate outputDims (fun o res => store res o (-1)) (alloc outputDims) ;;
  iterate s (fun i res =>
    let o := outLoopIVs m (length outputDims) i in
    next <- load data i ;;
    idx <- load res o ;;
    let idx := if idx <? 0 then 0 else idx in
    dstVal <- load data (map (fun k => if (k =? a)%nat then idx else nth k i 0) (seq 0 (length s))) ;;
    store res o (if getCondition kind next dstVal then nth a i 0 else idx)) res.
End Arg.
