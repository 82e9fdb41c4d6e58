(** Model of the constant-propagation rewrite patterns that move, merge and
    remove constants in chains of elementwise operators:
    src/Dialect/ONNX/Transforms/ConstProp.td 305-412, 486-524, 592-706 and
    src/Dialect/ONNX/Transforms/ConstProp.cpp.
    Simplifications: a graph is taken as the tree it unfolds to, so HasOneUse
    (ConstProp.td 43) always holds and a rewrite of a shared value is one
    rewrite per use; all tensors have one integer element type. *)
From Coq Require Import ZArith List Bool Lia.
From Verif Require Import Util TensorSpec BroadcastSpec FoldSpec FoldModel RewriteSpec.
Import ListNotations.
Open Scope Z_scope.

(** ConstProp.td 50-52 IsNotAConstant. *)
Definition isConst (e : texpr) : bool :=
  match e with Const _ _ => true | _ => false end.

(** OpHelper.cpp 868-872 isScalarTensor (ConstProp.td 89-91 IsNotScalar). *)
Definition isScalar (T : sty) : bool :=
  match T with
  | Some [] => true
  | Some [Some d] => d =? 1
  | _ => false
  end.

(** Result type of an Add, Sub, Mul or Div created without a type:
    ONNXOps.td.inc 121-138 (and the same text for the other operators) with
    ONNXOps.cpp 47-66 getBroadcastedRankedType; MLIR's getBroadcastedShape,
    which is not in the repository: a dimension is dynamic if it is not
    determined to be static.  A result that is not static is unranked. *)
Definition buildDim (a b : option Z) : option (option Z) :=
  match a, b with
  | Some x, Some y => match bsize x y with Some r => Some (Some r) | None => None end
  | None, Some y => if 1 <? y then Some (Some y) else Some None
  | Some x, None => if 1 <? x then Some (Some x) else Some None
  | None, None => Some None
  end.

Definition isStatic (ds : list (option Z)) : bool :=
  forallb (fun d => match d with Some _ => true | None => false end) ds.

Definition buildType (T1 T2 : sty) : sty :=
  match T1, T2 with
  | Some a, Some b =>
      r <- zipLong buildDim (rev a) (rev b) ;;
      if isStatic r then Some (rev r) else None
  | _, _ => None
  end.

Definition build (o : binop) (e1 e2 : texpr) : texpr :=
  TBin o e1 e2 (buildType (ann e1) (ann e2)).

(** The shape of a static type; [None]: ShapedType::getShape of an unranked
    type or a dynamic dimension. *)
Definition getShape (T : sty) : option (list Z) :=
  match T with
  | None => None
  | Some ds => foldM (fun d s => v <- d ;; Some (s ++ [v])) ds []
  end.

(** [for (x : l) out.push_back(f(x))], where [f] may fail. *)
Fixpoint mapM {A B} (f : A -> option B) (l : list A) : option (list B) :=
  match l with
  | [] => Some []
  | a :: l' => b <- f a ;; r <- mapM f l' ;; Some (b :: r)
  end.

(** ConstProp.cpp 363-376 ConstPropElementwiseBinary and
    ElementsAttrBuilder.cpp 184-222 combine: element by element over the
    shape of the replaced value (that the splat shortcuts and the strides
    select these elements is proved in Elements* ). *)
Definition combine (o : binop) (t : ety) (s1 d1 s2 d2 : list Z) (T : sty) : option texpr :=
  s <- getShape T ;;
  d <- mapM (fun idx =>
         a <- elem s1 d1 (bindex s1 idx) ;;
         b <- elem s2 d2 (bindex s2 idx) ;; foldBin o t a b) (indices s) ;;
  Some (Const s d).

(** ConstProp.cpp 500-514 ConstPropElementwiseUnary. *)
Definition transform (o : unop) (t : ety) (s d : list Z) : option texpr :=
  d' <- mapM (foldUn o t) d ;; Some (Const s d').

(** ConstProp.cpp 80-94 satisfiesExpansionBound; all element types are the
    same, so sizes in elements compare like sizes in bytes.  [None]: cast or
    assertion fails. *)
Definition withinBound (bound : Z) (s1 s2 : list Z) (T : sty) : option bool :=
  if bound <? 0 then Some true
  else s <- getShape T ;; Some (size s <=? (size s1 + size s2) * bound).

(** OpHelper.cpp 608-616 isConstOf, ElementsAttrBuilder.cpp 141-170 allEqual:
    both sides are compared as values of the element type. *)
Definition constOf (t : ety) (n : Z) (data : list Z) : bool :=
  forallb (fun v => narrow t n =? narrow t v) data.

Definition styEqb (T1 T2 : sty) : bool :=
  if (list_eq_dec (fun a b : option Z => ltac:(decide equality; apply Z.eq_dec))
        match T1 with Some a => a | None => [] end
        match T2 with Some a => a | None => [] end)
  then match T1, T2 with Some _, Some _ | None, None => true | _, _ => false end
  else false.

(** The two operators with commutativity and associativity patterns. *)
Inductive assocOp := AAdd | AMul.
Definition opOf (o : assocOp) : binop := match o with AAdd => Add | AMul => Mul end.
(** The patterns that drop a neutral right operand: AddZerosOnRhs
    ConstProp.td 378-386, SubZerosOnRhs 403-411, MulOnesOnRhs 667-678,
    DivOnesOnRhs 692-703. *)
Inductive neutralOp := NAdd | NSub | NMul | NDiv.
Definition neutralBin (o : neutralOp) : binop :=
  match o with NAdd => Add | NSub => Sub | NMul => Mul | NDiv => Div end.
Definition neutralVal (o : neutralOp) : Z :=
  match o with NAdd | NSub => 0 | NMul | NDiv => 1 end.

Inductive pattern :=
| ConstCommutative1 (o : assocOp)
| ConstAssociative1 (o : assocOp)
| ConstAssociative2 (o : assocOp)
| ConstAssociative3 (o : assocOp)
| ConstAssociative4 (o : assocOp)
| ConstProp (o : binop)
| NeutralOnRhs (o : neutralOp)
| UnofConst (o : unop)
| SubConstToNeg.

Definition binEqb (a b : binop) : bool := if (ltac:(decide equality) : {a = b} + {a <> b}) then true else false.
Definition unEqb (a b : unop) : bool := if (ltac:(decide equality) : {a = b} + {a <> b}) then true else false.

Section Rewrite.
  Variable t : ety.
  Variable bound : Z.        (* onnx-const-prop-expansion-bound *)

  (** One pattern at the root of an expression; [None]: it does not match,
      or the compiler stops.  An operator created at the root keeps the type
      of the value it replaces, nested ones are typed by [build]. *)
  Definition rewriteRoot (p : pattern) (e : texpr) : option texpr :=
    match p, e with
    (* 309-315, 598-604: op(c, x) to op(x, c) *)
    | ConstCommutative1 o, TBin o' c x T =>
        if binEqb o' (opOf o) && isConst c && negb (isConst x)
        then Some (TBin o' x c T) else None
    (* 318-327, 607-616: op(op(x, c1), c2) to op(x, op(c1, c2)) *)
    | ConstAssociative1 o, TBin o1 (TBin o2 x c1 _) c2 T =>
        if binEqb o1 (opOf o) && binEqb o2 (opOf o) && isConst c1 && isConst c2 && negb (isConst x)
        then Some (TBin o1 x (build o2 c1 c2) T) else None
    (* 330-340, 619-629: op(op(x, c), y) to op(op(x, y), c) *)
    | ConstAssociative2 o, TBin o1 (TBin o2 x c _) y T =>
        if binEqb o1 (opOf o) && binEqb o2 (opOf o) && isConst c && negb (isConst x) && negb (isConst y)
           && negb (isScalar (ann x)) && negb (isScalar (ann c))
        then Some (TBin o1 (build o2 x y) c T) else None
    (* 343-353, 632-642: op(x, op(y, c)) to op(op(x, y), c) *)
    | ConstAssociative3 o, TBin o1 x (TBin o2 y c _) T =>
        if binEqb o1 (opOf o) && binEqb o2 (opOf o) && isConst c && negb (isConst x) && negb (isConst y)
           && negb (isScalar (ann y)) && negb (isScalar (ann c))
        then Some (TBin o1 (build o2 x y) c T) else None
    (* 355-364, 644-653: op(op(x, c1), op(y, c2)) to op(op(x, y), op(c1, c2)) *)
    | ConstAssociative4 o, TBin o1 (TBin o2 x c1 _) (TBin o3 y c2 _) T =>
        if binEqb o1 (opOf o) && binEqb o2 (opOf o) && binEqb o3 (opOf o) && isConst c1 && isConst c2
           && negb (isConst x) && negb (isConst y)
        then Some (TBin o1 (build o2 x y) (build o3 c1 c2) T) else None
    (* 367-375, 393-400, 656-664, 681-689, 709-: both operands constant *)
    | ConstProp o, TBin o' (Const s1 d1) (Const s2 d2) T =>
        if binEqb o' o then
          ok <- withinBound bound s1 s2 T ;;
          if ok then combine o t s1 d1 s2 d2 T else None
        else None
    | NeutralOnRhs o, TBin o' x (Const s d) T =>
        if binEqb o' (neutralBin o) && negb (isConst x) && styEqb T (ann x) && constOf t (neutralVal o) d
        then Some x else None
    (* 422-427, 486-491 *)
    | UnofConst o, TUn o' (Const s d) T =>
        if unEqb o' o then transform o t s d else None
    (* 519-524: x - c to x + (-c) *)
    | SubConstToNeg, TBin o' x (Const s d) T =>
        if binEqb o' Sub && negb (isConst x)
        then c <- transform Neg t s d ;; Some (TBin Add x c T) else None
    | _, _ => None
    end.

  (** A rewrite somewhere inside: [false] goes to the first operand. *)
  Fixpoint rewriteAt (path : list bool) (p : pattern) (e : texpr) : option texpr :=
    match path with
    | [] => rewriteRoot p e
    | d :: path' =>
        match e, d with
        | TUn o e1 T, false => e1' <- rewriteAt path' p e1 ;; Some (TUn o e1' T)
        | TBin o e1 e2 T, false => e1' <- rewriteAt path' p e1 ;; Some (TBin o e1' e2 T)
        | TBin o e1 e2 T, true => e2' <- rewriteAt path' p e2 ;; Some (TBin o e1 e2' T)
        | _, _ => None
        end
    end.

  (** A history of rewrites, in any order and at any places.  [None]: some
      rewrite of the history does not apply. *)
  Fixpoint rewrites (h : list (list bool * pattern)) (e : texpr) : option texpr :=
    match h with
    | [] => Some e
    | (path, p) :: h' => e' <- rewriteAt path p e ;; rewrites h' e'
    end.
End Rewrite.

(** ** Where the theorems restrict histories *)

(** The expression at a place. *)
Fixpoint subAt (path : list bool) (e : texpr) : option texpr :=
  match path with
  | [] => Some e
  | d :: path' =>
      match e, d with
      | TUn _ e1 _, false | TBin _ e1 _ _, false => subAt path' e1
      | TBin _ _ e2 _, true => subAt path' e2
      | _, _ => None
      end
  end.

(** Folding uses operators that work modulo a power of two only. *)
Definition modularPattern (p : pattern) : Prop :=
  match p with
  | ConstProp o => modularBin o = true
  | UnofConst o => modularUn o = true
  | _ => True
  end.

(** Neutral operands are only dropped from operations of ranked type. *)
Definition rankedRemoval (path : list bool) (p : pattern) (e : texpr) : Prop :=
  match p with
  | NeutralOnRhs _ => forall e', subAt path e = Some e' -> ann e' <> None
  | _ => True
  end.

Fixpoint rankedRemovals (t : ety) (bound : Z) (h : list (list bool * pattern)) (e : texpr) : Prop :=
  match h with
  | [] => True
  | (path, p) :: h' =>
      rankedRemoval path p e /\
      forall e', rewriteAt t bound path p e = Some e' -> rankedRemovals t bound h' e'
  end.
