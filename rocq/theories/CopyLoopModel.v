(** The loops emitted for Pad, Tile, OneHot and ReverseSequence. *)
From Coq Require Import List ZArith Bool.
From Verif Require Import Util TensorSpec LoopModel CopyLoopSpec.
Import ListNotations.
Open Scope Z_scope.

Section Copy.
Context {T : Type}.

(** ONNXPadOpShapeHelper::computeShape, /repo/src/Dialect/ONNX/ONNXOps/Tensor/Pad.cpp
    27-70: [pads] holds the begin pads of all axes, then the end pads. *)
Definition padShape (pads dims : list Z) : list Z :=
  map (fun i => nth i pads 0 + nth i dims 0 + nth (i + length dims) pads 0) (seq 0 (length dims)).
(** /repo/src/Conversion/ONNXToKrnl/Tensor/Pad.cpp 120-139: the input index of one
    dimension. A mode that is none of the known ones leaves the output index. *)
Definition padIndex (mode : padMode) (pad dim ind : Z) : Z :=
  match mode with
  | PEdge => let ind := if ind <=? pad then 0 else ind - pad in
             if dim <=? ind then dim - 1 else ind
  | PReflect => let ind := if ind <? pad then pad - ind else ind - pad in
                if dim <=? ind then dim - (ind - dim) - 2 else ind
  | _ => ind
  end.
(** Pad.cpp 26-153. [cval]: the pad value (0 when the operand is absent).
    Simplification: the work-around for a pad value given as a tensor of rank 1 is left
    out. *)
Definition padLoop (mode : padMode) (pads : list Z) (cval : T) (data : mem T) : option (mem T) :=
  let rank := length (mShape data) in
  let out := padShape pads (mShape data) in
  match mode with
  | PConstant =>
      iterate (mShape data) (fun i res =>
        v <- load data i ;;
        store res (map (fun r => nth r i 0 + nth r pads 0) (seq 0 rank)) v) (Mem out (fun _ => Some cval))
  | _ =>
      iterate out (fun o res =>
        v <- load data (map (fun r => padIndex mode (nth r pads 0) (nth r (mShape data) 0) (nth r o 0)) (seq 0 rank)) ;;
        store res o v) (alloc out)
  end.

(** ONNXTileOpShapeHelper::computeShape,
    /repo/src/Dialect/ONNX/ONNXOps/Tensor/Tile.cpp 28-48. *)
Definition tileShape (repeats dims : list Z) : list Z := map (fun i => nth i dims 0 * nth i repeats 0) (seq 0 (length dims)).
(** /repo/src/Conversion/ONNXToKrnl/Tensor/Tile.cpp 54-106. *)
Definition tileLoop (repeats : list Z) (input : mem T) : option (mem T) :=
  let out := tileShape repeats (mShape input) in
  iterate out (fun o res =>
    v <- load input (map (fun i => nth i o 0 mod nth i (mShape input) 0) (seq 0 (length out))) ;;
    store res o v) (alloc out).

(** ONNXOneHotOpShapeHelper::computeShape,
    /repo/src/Dialect/ONNX/ONNXOps/Tensor/OneHot.cpp 27-69; the axis is checked by the
    verifier, lines 82-89. *)
Definition oneHotAxis (rank : nat) (axis : Z) : nat := Z.to_nat (if axis <? 0 then axis + Z.of_nat rank + 1 else axis).
Definition oneHotShape (a : nat) (depth : Z) (dims : list Z) : list Z :=
  map (fun i => if (i =? a)%nat then depth else if (i <? a)%nat then nth i dims 0 else nth (i - 1) dims 0) (seq 0 (length dims + 1)).
(** /repo/src/Conversion/ONNXToKrnl/Tensor/OneHot.cpp 75-89: the position of the on value,
    -1 if there is none. *)
Definition onValueIndex (depth input : Z) : Z :=
  let inputIndex := if input <? 0 then input + depth else input in
  if (inputIndex <? 0) || (depth <=? inputIndex) then -1 else inputIndex.
(** OneHot.cpp 26-114. [ind]: the indices after conversion to integers. *)
Definition oneHotLoop (axis depth : Z) (ind : mem Z) (values : mem T) : option (mem T) :=
  let rank := length (mShape ind) in
  let a := oneHotAxis rank axis in
  offVal <- load values [0] ;;
  onVal <- load values [1] ;;
  iterate (mShape ind) (fun l res =>
    input <- load ind l ;;
    let on := onValueIndex depth input in
    iterate [depth] (fun d res =>
      store res (map (fun i => if (i =? a)%nat then nth 0 d 0 else nth (if (a <? i)%nat then i - 1 else i) l 0) (seq 0 (rank + 1)))
        (if nth 0 d 0 =? on then onVal else offVal)) res)
    (alloc (oneHotShape a depth (mShape ind))).

(** /repo/src/Conversion/ONNXToKrnl/Tensor/ReverseSequence.cpp 27-125. *)
Definition reverseSequenceLoop (batchAxis timeAxis : nat) (input : mem T) (lens : mem Z) : option (mem T) :=
  iterate (mShape input) (fun o res =>
    v <- (len <- load lens [nth batchAxis o 0] ;;
          let t := nth timeAxis o 0 in
          load input (upd timeAxis (if t <? len then len - t - 1 else t) o)) ;;
    store res o v) (alloc (mShape input)).
End Copy.
