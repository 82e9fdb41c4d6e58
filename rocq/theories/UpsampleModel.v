(** UpsampleAndPad: /repo/src/Dialect/ONNX/ONNXOps/Additional/UpsampleAndPad.cpp and
    /repo/src/Conversion/ONNXToKrnl/Additional/UpsampleAndPad.cpp. *)
From Coq Require Import List ZArith Bool Arith.
From Verif Require Import Util TensorSpec LoopModel CopyLoopSpec CopyLoopModel.
Import ListNotations.
Open Scope Z_scope.

(** ONNXUpsampleAndPadOp::verify, ONNXOps/Additional/UpsampleAndPad.cpp 103-152. *)
Definition upVerify (rank : nat) (strides pads : option (list Z)) : bool :=
  let k := match strides, pads with Some l, _ => length l | None, Some p => (length p / 2)%nat | None, None => rank end in
  (k <=? rank)%nat && match strides with Some l => forallb (fun x => 0 <? x) l | None => true end &&
  match pads with Some p => (length p =? 2 * k)%nat | None => true end.

(** The number of dimensions and the two vectors, ONNXOps/Additional/UpsampleAndPad.cpp 45-76 and the same code
    in the lowering (63-95). *)
Definition upK (rank : nat) (strides pads : option (list Z)) : nat :=
  let k := match strides with Some l => length l | None => 0%nat end in
  let k := match pads with Some p => if (k =? 0)%nat then (length p / 2)%nat else k | None => k end in
  if (k =? 0)%nat then rank else k.
Definition orDefault (v : option (list Z)) (d : list Z) : list Z := match v with None => d | Some [] => d | Some l => l end.

(** ONNXUpsampleAndPadOpShapeHelper::computeShape, 31-96. *)
Definition upShape (strides pads : option (list Z)) (s : list Z) : list Z :=
  let rank := length s in
  let k := upK rank strides pads in
  let stridesVec := orDefault strides (repeat 1 k) in
  let padsVec := orDefault pads (repeat 0 (2 * k)) in
  map (fun r => if (r <? rank - k)%nat then nth r s 0 else
    let i := (r - (rank - k))%nat in
    (nth r s 0 - 1) * nth i stridesVec 1 + 1 + (nth i padsVec 0 + nth (k + i) padsVec 0)) (seq 0 rank).

Section Up.
Context {T : Type}.
(** The lowering, 37-142. None: the operation is refused, the size of the allocation is negative, or an access is
    outside the bounds. The parallel loops are run in order. *)
Definition upsampleAndPad (zero : T) (strides pads : option (list Z)) (X : mem T) : option (mem T) :=
  let s := mShape X in
  let rank := length s in
  if negb (upVerify rank strides pads) then None else
  let k := upK rank strides pads in
  let stridesVec := orDefault strides (repeat 1 k) in
  let padsVec := orDefault pads (repeat 0 (2 * k)) in
  let outDims := upShape strides pads s in
  if existsb (fun d => d <? 0) outDims then None else
  iterate s (fun inputLoopInd out =>
    inputValue <- load X inputLoopInd ;;
    store out (map (fun i => if (i <? rank - k)%nat then nth i inputLoopInd 0 else
      let dimIdx := (i - (rank - k))%nat in
      nth i inputLoopInd 0 * nth dimIdx stridesVec 1 + nth dimIdx padsVec 0) (seq 0 rank)) inputValue) (Mem outDims (fun _ => Some zero)).

(** RemoveIdentityUpsampleAndPadPattern and ConvertUpsampleAndPadToPadPattern, Canonicalize.td 543-558;
    OpHelper.cpp 807-829. None: no rewrite. *)
Definition allOnes (v : option (list Z)) : bool := match v with None => true | Some l => forallb (fun x => x =? 1) l end.
Definition allZeros (v : option (list Z)) : bool := match v with None => true | Some l => forallb (fun x => x =? 0) l end.
(** createFullPadsForAllDims, OpHelper.cpp 831-855. *)
Definition fullPads (rank : nat) (pads : list Z) : list Z :=
  let k := (length pads / 2)%nat in
  repeat 0 (rank - k) ++ firstn k pads ++ repeat 0 (rank - k) ++ skipn k pads.
Definition upCanonical (zero : T) (strides pads : option (list Z)) (X : mem T) : option (option (mem T)) :=
  if allOnes strides then
    if allZeros pads then Some (Some X) else
    match pads with None => None | Some p => Some (padLoop PConstant (fullPads (length (mShape X)) p) zero X) end
  else None.
End Up.
