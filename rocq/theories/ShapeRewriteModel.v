(** Rewriting of shape computations (src/Dialect/ONNX/ONNXOps/Canonicalize.cpp 258-280, 1300-1474,
    1960-2039, 2111-2209, 2448-2552). *)
From Coq Require Import List ZArith Bool.
From Verif Require Import Util ShapeOpsModel ReshapeRewriteModel.
Import ListNotations.
Open Scope Z_scope.

Inductive outcome (A : Type) := NoMatch | Undefined | Rewritten (a : A).
Arguments NoMatch {A}. Arguments Undefined {A}. Arguments Rewritten {A}.

(** Canonicalize.cpp 1325-1352: the new shape of Unsqueeze(Expand(scalar, dims), axes). Negative axes
    are counted from the end of the old dims. The loop is that of Unsqueeze.cpp; fuel as there. *)
Definition unsqueezeOfExpand (oldDims axes : list Z) : option (list Z) :=
  let oldRank := Z.of_nat (length oldDims) in
  let axesI64 := map (fun a => if a <? 0 then a + oldRank else a) axes in
  unsqueezeLoop 1 oldDims (oldRank + Z.of_nat (length axes)) axesI64 (S (length oldDims + length axes + length oldDims)) 0 0.

(** mlir::ShapedType::kDynamic, the value of a dynamic dim in a type. *)
Definition kDynamic : Z := - 2 ^ 63.
Definition dimValue (d : option Z) : Z := match d with Some v => v | None => kDynamic end.
(** Canonicalize.cpp 1421-1466: the new shape of Slice(Expand(scalar, dims), ...). [startsSize]: the
    static dim of starts. *)
Fixpoint sliceNewDims (axes : list Z) (i : Z) (outType : list (option Z)) (expandDims : list Z) : outcome (list Z) :=
  match outType with
  | [] => Rewritten []
  | o :: r =>
      match (if existsb (Z.eqb i) axes then Some (dimValue o) else zget expandDims i) with
      | None => Undefined
      | Some d => match sliceNewDims axes (i + 1) r expandDims with Rewritten l => Rewritten (d :: l) | e => e end
      end
  end.
Fixpoint checkStatic (dataType : list (option Z)) (axes : list Z) : outcome unit :=
  match axes with
  | [] => Rewritten tt
  | a :: r => match zget dataType a with None => Undefined | Some None => NoMatch | Some (Some _) => checkStatic dataType r end
  end.
Definition sliceOfExpand (dataType outType : list (option Z)) (startsSize : option Z) (axes : option (list Z)) (expandDims : list Z) : outcome (list Z) :=
  let outputRank := Z.of_nat (length outType) in
  match startsSize with
  | None => NoMatch
  | Some axesSize =>
      let axesI64 := match axes with None => zrange axesSize | Some l => map (fun v => if 0 <=? v then v else v + outputRank) l end in
      match checkStatic dataType axesI64 with
      | Rewritten _ => sliceNewDims axesI64 0 outType expandDims
      | NoMatch => NoMatch
      | Undefined => Undefined
      end
  end.

(** Canonicalize.cpp 1963-2003: Dim(Reshape(data, Concat(dims)), axis). Each operand of the Concat
    is a dim. *)
Definition dimOfReshape (allowzero rank axis : Z) (dims : list entry) : outcome entry :=
  let dimAxis := if axis <? 0 then axis + rank else axis in
  if negb (allowzero =? 0) then NoMatch
  else if negb (Z.of_nat (length dims) =? rank) then NoMatch
  else match zget dims dimAxis with
       | None => Undefined
       | Some d => if isMinusOne d || isZero d then NoMatch else Rewritten d
       end.
(** Canonicalize.cpp 2009-2038: the axis of the data of the Transpose. *)
Definition dimOfTranspose (rank axis : Z) (perm : list Z) : outcome Z :=
  let dimAxis := if axis <? 0 then axis + rank else axis in
  match zget perm dimAxis with None => Undefined | Some a => Rewritten a end.

(** Operands of a Concat of dims: results of Dim, constants, others. *)
Inductive dimOperand := OfDim (v : Z) | OfConst (v : Z) | OfOther (v : Z).
Definition operandValue (o : dimOperand) : Z := match o with OfDim v => v | OfConst v => v | OfOther v => v end.
(** Canonicalize.cpp 261-280. *)
Definition isAllNegativeSmallIntegerConstant (l : list Z) : bool :=
  if (10 <? length l)%nat then false else forallb (fun v => negb (0 <? v)) l.
(** Canonicalize.cpp 2165-2187. *)
Fixpoint equalResults (concatOperands : list dimOperand) (i : Z) (constAttrValues : list Z) : outcome (list bool) :=
  match concatOperands with
  | [] => Rewritten []
  | o :: r =>
      let here := match o with
                  | OfDim _ => Rewritten false
                  | OfConst a => match zget constAttrValues i with None => Undefined | Some b => Rewritten (a =? b) end
                  | OfOther _ => NoMatch
                  end in
      match here with
      | Rewritten e => match equalResults r (i + 1) constAttrValues with Rewritten l => Rewritten (e :: l) | x => x end
      | NoMatch => NoMatch
      | Undefined => Undefined
      end
  end.
(** Canonicalize.cpp 2190-2203. *)
Fixpoint selectValues (results : list bool) (concatOperands : list dimOperand) (i : Z) (valueX : list Z) : outcome (list Z) :=
  match results, concatOperands with
  | e :: r, o :: s =>
      match (if e then zget valueX i else Some (operandValue o)) with
      | None => Undefined
      | Some v => match selectValues r s (i + 1) valueX with Rewritten l => Rewritten (v :: l) | x => x end
      end
  | _, _ => Rewritten []
  end.
(** Canonicalize.cpp 2115-2208: Where(Equal(Concat, constant), X, Concat). The operands of the second
    Concat are compared; those of the first are not read. *)
Definition removeWhereEqual (equalConcat : list dimOperand) (constAttrValues valueX : list Z) (whereConcat : list dimOperand) : outcome (list Z) :=
  if negb (isAllNegativeSmallIntegerConstant constAttrValues) then NoMatch
  else match equalResults whereConcat 0 constAttrValues with
       | Rewritten results => selectValues results whereConcat 0 valueX
       | NoMatch => NoMatch
       | Undefined => Undefined
       end.

(** Canonicalize.cpp 2481-2497: Slice(Concat(inputs)) with a one-element result. [isScalar]: from the
    type of the input; [start]: the literal of the shape helper. *)
Fixpoint scalarsUpTo (n : nat) (inputs : list (bool * list Z)) : outcome (list Z) :=
  match inputs with
  | [] => Undefined
  | (isScalar, v) :: r =>
      if negb isScalar then NoMatch
      else match n with O => Rewritten v | S n => scalarsUpTo n r end
  end.
Definition sliceOfConcat (start : option Z) (inputs : list (bool * list Z)) : outcome (list Z) :=
  match start with
  | None => Undefined
  | Some s => if s <? 0 then Undefined else scalarsUpTo (Z.to_nat s) inputs
  end.

(** Canonicalize.cpp 2516-2552. *)
Definition handleNegativePermute (rank : nat) (permAttr : option (list Z)) : outcome (list Z) :=
  match permAttr with
  | None => Rewritten (map Z.of_nat (rev (seq 0 rank)))
  | Some l =>
      if negb (length l =? rank)%nat then Undefined
      else if negb (existsb (fun p => p <? 0) l) then NoMatch
      else Rewritten (map (fun p => if p <? 0 then p + Z.of_nat rank else p) l)
  end.
