(** Rewriting of elementwise binary operations (src/Dialect/ONNX/ONNXOps/Canonicalize.cpp 393-563,
    OpHelper.cpp 869-873). *)
From Coq Require Import List ZArith Bool.
From Verif Require Import Util TensorSpec ShapeOpsModel ShapeRewriteModel.
Import ListNotations.
Open Scope Z_scope.

(** Canonicalize.cpp 393-451: the second operand after the rewriting. [Undefined] stands for the errors
    that are reported. Unsqueeze at the axes past the rank puts ones at the end. *)
Definition unsqueezeEnd {A} (n : nat) (y : tensor A) : tensor A :=
  {| tShape := tShape y ++ repeat 1 n; tAt := fun idx => tAt y (firstn (length (tShape y)) idx) |}.
Definition broadcastAxis {A} (lhsRank : Z) (rhs : tensor A) (axis : Z) : outcome (tensor A) :=
  let rhsRank := Z.of_nat (length (tShape rhs)) in
  if lhsRank <? axis then Undefined
  else if lhsRank - axis <? rhsRank then Undefined
  else if rhsRank <? lhsRank - axis then Rewritten (unsqueezeEnd (Z.to_nat (lhsRank - axis - rhsRank)) rhs)
  else Rewritten rhs.

(** OpHelper.cpp 869-873, static types. *)
Definition isScalarTensor {A} (x : tensor A) : bool :=
  match tShape x with [] => true | [d] => d =? 1 | _ => false end.
(** Operands: a value and whether it is a constant, or an Expand of such a value; the shape of the
    Expand has a value and a type. *)
Record source (A : Type) := { sConst : bool; sValue : tensor A }.
Arguments sConst {A}. Arguments sValue {A}.
Record shapeOperand := { shValue : list Z; shType : option (list (option Z)) }.
Inductive operand (A : Type) := Plain (s : source A) | Expand (s : source A) (sh : shapeOperand).
Arguments Plain {A}. Arguments Expand {A}.
(** Canonicalize.cpp 479-493: the value returned and the variable expandShape. *)
Definition matchValue {A} (expandShape : option shapeOperand) (v : operand A) : option (tensor A) * option shapeOperand :=
  let accept (s : source A) := if sConst s && isScalarTensor (sValue s) then Some (sValue s) else None in
  match v with
  | Plain s => (accept s, expandShape)
  | Expand s sh => match expandShape with None => (accept s, Some sh) | Some _ => (None, expandShape) end
  end.
(** Canonicalize.cpp 466-513: the operands of the new binary operation and the shape of the Expand of
    its result. *)
Definition propagateExpand {A} (lhs rhs : operand A) : outcome (tensor A * tensor A * list Z) :=
  let (lhsConstant, e1) := matchValue None lhs in
  let (rhsConstant, e2) := matchValue e1 rhs in
  match e2, lhsConstant, rhsConstant with
  | Some sh, Some l, Some r =>
      match shType sh with
      | None => NoMatch
      | Some dims => match dims with [Some 0] => NoMatch | _ => Rewritten (l, r, shValue sh) end
      end
  | _, _, _ => NoMatch
  end.

(** Canonicalize.cpp 515-563: the operands of the new binary operation, and the shape and allowzero of
    the Reshape of its result. *)
Inductive reshapeOperand (A : Type) := Reshape (x : tensor A) (target : list Z) (allowzero : bool) | NotReshape (x : tensor A).
Arguments Reshape {A}. Arguments NotReshape {A}.
Definition propagateReshape {A} (lhs : reshapeOperand A) (rhs : tensor A) : outcome (tensor A * tensor A * list Z * bool) :=
  match lhs with
  | NotReshape _ => NoMatch
  | Reshape x target allowzero => if negb (isScalarTensor rhs) then NoMatch else Rewritten (x, rhs, target, allowzero)
  end.
