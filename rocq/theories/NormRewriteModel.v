(** Rewriting of normalizations (src/Dialect/ONNX/ONNXOps/Canonicalize.cpp 2045-2098, 2216-2407): the
    shapes and attributes of the operations created. *)
From Coq Require Import List ZArith Bool.
From Verif Require Import Util TensorSpec ShapeOpsModel ShapeRewriteModel.
Import ListNotations.
Open Scope Z_scope.

(** Canonicalize.cpp 2220-2262: the shape scale and bias are unsqueezed to, and the axis of the
    LayerNormalization. [xShape]: the shape of the input when the operation runs. *)
Definition instanceNorm (xShape : list Z) : outcome (list Z * nat) :=
  let inputRank := length xShape in
  match zget xShape 1 with
  | None => Undefined
  | Some C =>
      if (inputRank <=? 2)%nat then Undefined
      else let axis := 2%nat in
           let numInNorm := (inputRank - axis)%nat in
           Rewritten (C :: repeat 1 numInNorm, axis)
  end.

(** Canonicalize.cpp 2273-2407. *)
Record groupNormParts := {
  gScaleShape : list Z;        (** scale and bias are unsqueezed or reshaped to it *)
  gInputShape : list Z;        (** target of the Reshape of the input *)
  gAxis : nat;                 (** of the LayerNormalization *)
  gOutputShape : list Z        (** target of the Reshape of the result *) }.
Definition groupNorm (opset18 : bool) (xShape : list Z) (staticC : option Z) (numGroups : Z) : outcome groupNormParts :=
  let inputRank := length xShape in
  if (inputRank <=? 2)%nat then Undefined
  else if (match staticC with Some C => (numGroups =? 0) || negb (C mod numGroups =? 0) | None => false end) then Undefined
  else match zget xShape 0 with
       | None => Undefined
       | Some N =>
           let spacialRank := (inputRank - 2)%nat in
           let layerNormRank := S inputRank in
           let axis := 2%nat in
           let numInNorm := (layerNormRank - axis)%nat in
           let scaleShape := if opset18 then numGroups :: repeat 1 numInNorm
                             else [numGroups] ++ [numGroups] ++ repeat 1 spacialRank in
           Rewritten {| gScaleShape := scaleShape; gInputShape := [N] ++ [numGroups; -1] ++ skipn 2 xShape; gAxis := axis; gOutputShape := xShape |}
       end.

(** Operand of an Add: its value and, when a LayerNormalization defines it, which result of it that is
    (0: Y, 1: Mean, 2: InvStdDev), whether the operation has one use and whether it has a bias. *)
Record normInfo := { nResult : nat; nOneUse : bool; nHasBias : bool }.
Record addOperand (A : Type) := { oValue : tensor A; oNorm : option normInfo }.
Arguments oValue {A}. Arguments oNorm {A}.
(** Canonicalize.cpp 2052-2091 and operandOfOpDefinedBy (OpHelper.hpp.inc 85-114), which does not look at
    the number of the result: the bias of the new LayerNormalization and, for the statement, the operand
    taken for Y. *)
Definition propagateBias {A} (a b : addOperand A) : outcome (tensor A * tensor A) :=
  let study n y bias := if negb (nOneUse n) then NoMatch else if nHasBias n then NoMatch else Rewritten (oValue y, oValue bias) in
  match oNorm a with
  | Some n => study n a b
  | None => match oNorm b with Some n => study n b a | None => NoMatch end
  end.
