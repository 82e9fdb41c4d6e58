(** Model of the index expressions of src/Dialect/Mlir/IndexExpr.cpp and
    IndexExprDetail.cpp (integer and predicate expressions; float index
    expressions are not modelled).

    Simplifications: integers are unbounded (no int64 overflow); MLIR's affine
    simplifier is the parameter [simp]; SSA values are expression trees over
    external values (leaves); an index_cast is the identity; IndexExpr objects are
    values, and the affine expression of a literal, dim or symbol is recomputed on
    demand instead of being cached in the object.  A failed assertion, an
    unreachable or a null dereference is [None]. *)
From Coq Require Import List ZArith Bool Arith.
From Verif Require Import Util FloatDivModel.
Import ListNotations.
Open Scope Z_scope.

(** MLIR AffineExpr. *)
Inductive aexp :=
| ADim (i : nat) | ASym (i : nat) | ACst (z : Z)
| AAdd (a b : aexp) | ASub (a b : aexp) | AMul (a b : aexp)
| AMod (a b : aexp) | AFloor (a b : aexp) | ACeil (a b : aexp).

(** MLIR semantics of affine expressions; mod and divisions need a positive right
    operand. *)
Fixpoint aeval (ds ss : list Z) (e : aexp) : option Z :=
  match e with
  | ADim i => nth_error ds i
  | ASym i => nth_error ss i
  | ACst z => Some z
  | AAdd a b => x <- aeval ds ss a ;; y <- aeval ds ss b ;; Some (x + y)
  | ASub a b => x <- aeval ds ss a ;; y <- aeval ds ss b ;; Some (x - y)
  | AMul a b => x <- aeval ds ss a ;; y <- aeval ds ss b ;; Some (x * y)
  | AMod a b => x <- aeval ds ss a ;; y <- aeval ds ss b ;; if 0 <? y then Some (x mod y) else None
  | AFloor a b => x <- aeval ds ss a ;; y <- aeval ds ss b ;; if 0 <? y then Some (x / y) else None
  | ACeil a b => x <- aeval ds ss a ;; y <- aeval ds ss b ;; if 0 <? y then Some (- ((- x) / y)) else None
  end.

Inductive cmpi := Eq_ | Ne_ | Slt | Sle | Sgt | Sge.

(** The SSA values index expressions create. *)
Inductive vexp :=
| VLeaf (n : nat)                               (* an external value of index type *)
| VIdx (z : Z)                                  (* arith.constant : index *)
| VBool (b : bool)                              (* arith.constant : i1 *)
| VInt (z : Z)                                  (* arith.constant : i64 *)
| VApply (ds ss : list nat) (a : aexp)          (* affine.apply *)
| VMinMax (isMin : bool) (ds ss : list nat) (l : list aexp)  (* affine.min / affine.max *)
| VAdd (a b : vexp) | VSub (a b : vexp) | VMul (a b : vexp)
| VFloor (a b : vexp) | VCeil (a b : vexp) | VRem (a b : vexp)
| VCmp (p : cmpi) (a b : vexp) | VSel (c a b : vexp) | VAnd (a b : vexp) | VOr (a b : vexp).

Definition b2z (b : bool) : Z := if b then 1 else 0.
Definition cmp_eval (p : cmpi) (x y : Z) : bool :=
  match p with
  | Eq_ => x =? y | Ne_ => negb (x =? y) | Slt => x <? y | Sle => x <=? y | Sgt => y <? x | Sge => y <=? x
  end.
Fixpoint mapO {A B} (f : A -> option B) (l : list A) : option (list B) :=
  match l with [] => Some [] | x :: r => y <- f x ;; ys <- mapO f r ;; Some (y :: ys) end.
Definition extreme (isMin : bool) (x y : Z) : Z := if isMin then Z.min x y else Z.max x y.

(** Run-time meaning of a value; [env] gives the external values. *)
Fixpoint veval (env : nat -> Z) (v : vexp) : option Z :=
  match v with
  | VLeaf n => Some (env n)
  | VIdx z => Some z
  | VBool b => Some (b2z b)
  | VInt z => Some z
  | VApply ds ss a => aeval (map env ds) (map env ss) a
  | VMinMax isMin ds ss l =>
      zs <- mapO (aeval (map env ds) (map env ss)) l ;;
      match zs with [] => None | z :: r => Some (fold_left (extreme isMin) r z) end
  | VAdd a b => x <- veval env a ;; y <- veval env b ;; Some (x + y)
  | VSub a b => x <- veval env a ;; y <- veval env b ;; Some (x - y)
  | VMul a b => x <- veval env a ;; y <- veval env b ;; Some (x * y)
  | VFloor a b => x <- veval env a ;; y <- veval env b ;; if y =? 0 then None else Some (x / y)
  | VCeil a b => x <- veval env a ;; y <- veval env b ;; if y =? 0 then None else Some (- ((- x) / y))
  | VRem a b => x <- veval env a ;; y <- veval env b ;; if y =? 0 then None else Some (Z.rem x y)
  | VCmp p a b => x <- veval env a ;; y <- veval env b ;; Some (b2z (cmp_eval p x y))
  | VSel c a b => k <- veval env c ;; x <- veval env a ;; y <- veval env b ;; Some (if k =? 0 then y else x)
  | VAnd a b => x <- veval env a ;; y <- veval env b ;; Some (Z.land x y)
  | VOr a b => x <- veval env a ;; y <- veval env b ;; Some (Z.lor x y)
  end.

(** IndexExprDetail.hpp: IndexExprKind, and the fields of IndexExprImpl. *)
Inductive ieKind := KAffine | KDim | KSymbol | KNonAffine | KPred | KQM.
Record IE := mkIE { literal : bool; kind : ieKind; intLit : Z; aff : option aexp; val : option vexp }.

(** IndexExprScope: the dims and symbols registered so far, and whether this is
    the shape inference pass (no code may be created). *)
Record scope := mkScope { dims : list nat; syms : list nat; si : bool }.

Definition M (A : Type) : Type := scope -> option (scope * A).
Definition ret {A} (a : A) : M A := fun s => Some (s, a).
Definition fail {A} : M A := fun _ => None.
Definition bind {A B} (m : M A) (f : A -> M B) : M B :=
  fun s => match m s with Some (s', a) => f a s' | None => None end.
Declare Scope ie_scope.
Notation "x <-- m ;; f" := (bind m (fun x => f)) (at level 61, m at next level, right associativity) : ie_scope.
Open Scope ie_scope.
Definition lift {A} (o : option A) : M A := match o with Some a => ret a | None => fail end.
Definition isSI : M bool := fun s => Some (s, si s).
Definition getScope : M scope := fun s => Some (s, s).
Fixpoint mapM {A B} (f : A -> M B) (l : list A) : M (list B) :=
  match l with [] => ret [] | x :: r => y <-- f x ;; ys <-- mapM f r ;; ret (y :: ys) end.

(** IndexExpr.cpp:110-118 [indexInList]. *)
Fixpoint indexInList (l : list nat) (v : nat) (i : nat) : option nat :=
  match l with [] => None | x :: r => if (x =? v)%nat then Some i else indexInList r v (S i) end.
(** IndexExpr.cpp:120-129 [addDim]; a dim must not already be a symbol. *)
Definition addDim (v : nat) : M nat := fun s =>
  match indexInList (syms s) v 0 with
  | Some _ => None
  | None => match indexInList (dims s) v 0 with
            | Some i => Some (s, i)
            | None => Some (mkScope (dims s ++ [v]) (syms s) (si s), length (dims s))
            end
  end.
(** IndexExpr.cpp:131-140 [addSymbol]. *)
Definition addSymbol (v : nat) : M nat := fun s =>
  match indexInList (dims s) v 0 with
  | Some _ => None
  | None => match indexInList (syms s) v 0 with
            | Some i => Some (s, i)
            | None => Some (mkScope (dims s) (syms s ++ [v]) (si s), length (syms s))
            end
  end.

Definition isQM (e : IE) : bool := match kind e with KQM => true | _ => false end.
Definition isPred (e : IE) : bool := match kind e with KPred => true | _ => false end.
(** IndexExprDetail.cpp:277-284 [isAffine]. *)
Definition isAffine (e : IE) : bool :=
  literal e || match kind e with KAffine | KDim | KSymbol => true | _ => false end.

(** IndexExprDetail.cpp:454-504 [getValue]; the null value of a question mark is
    [None] of the inner option. *)
Definition getValueOpt (e : IE) : M (option vexp) :=
  s <-- isSI ;;
  if s : bool then fail else
  match val e with
  | Some v => ret (Some v)
  | None =>
      if literal e then ret (Some (if isPred e then VBool (negb (intLit e =? 0)) else VIdx (intLit e)))
      else match aff e with
           | Some a => sc <-- getScope ;; ret (Some (VApply (dims sc) (syms sc) a))
           | None => if isQM e then ret None else fail
           end
  end.
(** Users dereference the value. *)
Definition getValue (e : IE) : M vexp := o <-- getValueOpt e ;; lift o.

(** IndexExprDetail.cpp:216-240 [init]: values are created eagerly outside shape
    inference. *)
Definition init (lit : bool) (k : ieKind) (z : Z) (a : option aexp) (v : option vexp) : M IE :=
  match v with
  | Some _ => ret (mkIE lit k z a v)
  | None =>
      s <-- isSI ;;
      if s : bool then ret (mkIE lit k z a None)
      else v' <-- getValueOpt (mkIE lit k z a None) ;; ret (mkIE lit k z a v')
  end.
(** IndexExpr.cpp:189-196 [deepCopy], IndexExprDetail.cpp:242-247 [copy]. *)
Definition deepCopy (e : IE) : M IE := init (literal e) (kind e) (intLit e) (aff e) (val e).

(** IndexExprDetail.cpp:61-65 and 84-90. *)
Definition questionmark : M IE := init false KQM (-1) None None.
Definition initAsLiteral (z : Z) (k : ieKind) : M IE := init true k z None None.

(** IndexExprDetail.cpp:107-123 [getIntegerLiteralFromValue]: any arith.constant
    counts as a literal, but only one of index type delivers its value. *)
Definition getIntegerLiteralFromValue (v : vexp) : option Z :=
  match v with
  | VIdx z => Some z
  | VBool _ | VInt _ => Some 0
  | _ => None
  end.
(** IndexExprDetail.cpp:143-199 [initAsKind]. *)
Definition initAsKind (v : vexp) (k : ieKind) : M IE :=
  match getIntegerLiteralFromValue v with
  | Some z => initAsLiteral z k
  | None =>
      s <-- isSI ;;
      if s : bool then questionmark else init false k 0 None (Some v)
  end.

(** IndexExprDetail.cpp:371-409 [getAffineExpr]. *)
Definition getAffineExpr (e : IE) : M aexp :=
  s <-- isSI ;;
  if (s : bool) || isPred e then fail else
  match aff e with
  | Some a => ret a
  | None =>
      if literal e then ret (ACst (intLit e))
      else match kind e, val e with
           | KSymbol, Some (VLeaf n) => i <-- addSymbol n ;; ret (ASym i)
           | KDim, Some (VLeaf n) => i <-- addDim n ;; ret (ADim i)
           | _, _ => fail
           end
  end.

Section Ops.
(** simplifyAffineExpr followed by the test for a constant. *)
Variable simp : aexp -> option Z.
(** compiled with NDEBUG: the argument of assert is not evaluated. *)
Variable ndebug : bool.

(** IndexExprDetail.cpp:201-214 [initAsAffineExpr]. *)
Definition initAsAffineExpr (a : aexp) : M IE :=
  match simp a with
  | Some c => initAsLiteral c KAffine
  | None => init false KAffine 0 (Some a) None
  end.

(** IndexExpr.cpp:554-559 [isIdentical], integers. *)
Definition isIdentical (e : IE) (z : Z) : bool := literal e && (intLit e =? z).

(** The definition of an affine.min or affine.max op, IndexExpr.cpp:599-604. *)
Definition minMaxOf (v : vexp) : option (bool * list aexp) :=
  match v with VMinMax isMin _ _ l => Some (isMin, l) | _ => None end.

(** IndexExpr.cpp:1143-1168 [select]. *)
Definition select (c t f : IE) : M IE :=
  if literal c then deepCopy (if intLit c =? 0 then f else t)
  else
    s <-- isSI ;;
    if s : bool then questionmark
    else
      vc <-- getValue c ;; vt <-- getValue t ;; vf <-- getValue f ;;
      initAsKind (VSel vc vt vf) KNonAffine.

(** IndexExpr.cpp:667-712 [compareOp], through [binaryOp] without neutral
    elements, affine function or propagation. *)
Definition compareOp (p : cmpi) (a b : IE) : M IE :=
  if literal a && literal b then initAsLiteral (b2z (cmp_eval p (intLit a) (intLit b))) KPred
  else
    s <-- isSI ;;
    if s : bool then questionmark
    else va <-- getValue a ;; vb <-- getValue b ;; initAsKind (VCmp p va vb) KPred.

(** IndexExpr.cpp:821-866 [reductionOp] with the functions of min (1170-1215) and
    max (1229-1274); the literal case updates the literal of the copy of the
    first operand in place (IndexExprDetail.cpp:510-526 [setLiteral]). *)
Definition litRed (isMin : bool) (res aa : IE) : IE :=
  if (if isMin then intLit aa <? intLit res else intLit res <? intLit aa)
  then mkIE (literal res) (kind res) (intLit aa) (aff res) (val res) else res.
Definition valueRed (isMin : bool) (res aa : IE) : M IE :=
  c <-- compareOp (if isMin then Slt else Sgt) aa res ;;
  sel <-- select c aa res ;;
  v <-- getValue sel ;;
  initAsKind v KNonAffine.
Fixpoint foldRed (f : IE -> IE -> M IE) (res : IE) (l : list IE) : M IE :=
  match l with [] => ret res | x :: r => res' <-- f res x ;; foldRed f res' r end.
Definition minmax (isMin : bool) (vals : list IE) : M IE :=
  match vals with
  | [] => fail
  | [x] => deepCopy x
  | x :: rest =>
      res <-- deepCopy x ;;
      if forallb literal vals then ret (fold_left (litRed isMin) rest res)
      else
        s <-- isSI ;;
        if s : bool then questionmark
        else if forallb isAffine vals then
          affs <-- mapM getAffineExpr vals ;;
          sc <-- getScope ;;
          initAsKind (VMinMax isMin (dims sc) (syms sc) affs) KNonAffine
        else foldRed (valueRed isMin) res rest
  end.

(** The terms of a min/max after pushing the operation into it, IndexExpr.cpp:618-628. *)
Definition propagated (affineFct : IE -> IE -> M IE) (l : list aexp) (onA : bool) (other : IE) : M (list IE) :=
  mapM (fun ax => old <-- initAsAffineExpr ax ;; if onA then affineFct old other else affineFct other old) l.

(** IndexExpr.cpp:564-636 [binaryOp]. *)
Definition binaryOp (a b : IE) (propagate affineWithLitB hasNeutralA hasNeutralB : bool) (neutral : Z)
    (litFct : Z -> Z -> option Z) (affineFct : IE -> IE -> M IE) (valueFct : vexp -> vexp -> vexp) : M IE :=
  let resIsLit := literal a && literal b in
  let resIsAffine := resIsLit || (isAffine a && isAffine b && (negb affineWithLitB || literal b)) in
  if resIsAffine && hasNeutralA && isIdentical a neutral then deepCopy b
  else if hasNeutralB && isIdentical b neutral then deepCopy a
  else if resIsLit then z <-- lift (litFct (intLit a) (intLit b)) ;; initAsLiteral z KAffine
  else
    s <-- isSI ;;
    if s : bool then questionmark
    else if resIsAffine then affineFct a b
    else
      va <-- getValue a ;;
      vb <-- getValue b ;;
      match (if propagate then match minMaxOf va, minMaxOf vb with
                               | Some mm, None => if isAffine b then Some (mm, true) else None
                               | None, Some mm => if isAffine a then Some (mm, false) else None
                               | _, _ => None
                               end else None) with
      | Some ((isMin, l), onA) =>
          if ndebug then fail   (* retrieveAffineMinMax is called inside assert, line 616 *)
          else
            terms <-- propagated affineFct l onA (if onA then b else a) ;;
            minmax isMin terms
      | None => initAsKind (valueFct va vb) KNonAffine
      end.

Definition affineBin (f : aexp -> aexp -> aexp) (a b : IE) : M IE :=
  x <-- getAffineExpr a ;; y <-- getAffineExpr b ;; initAsAffineExpr (f x y).

(** IndexExpr.cpp:872-892, 894-914, 916-940. *)
Definition ieAdd (a b : IE) : M IE := binaryOp a b true false true true 0 (fun x y => Some (x + y)) (affineBin AAdd) VAdd.
Definition ieSub (a b : IE) : M IE := binaryOp a b true false false true 0 (fun x y => Some (x - y)) (affineBin ASub) VSub.
Definition ieMul (a b : IE) : M IE :=
  if literal a then binaryOp b a false true true true 1 (fun x y => Some (x * y)) (affineBin AMul) VMul
  else binaryOp a b false true true true 1 (fun x y => Some (x * y)) (affineBin AMul) VMul.
(** Affine functions of floorDiv, ceilDiv (943-993) and % (996-1018): the right
    operand is a literal. *)
Definition affineDivLike (test : Z -> bool) (f : aexp -> aexp -> aexp) (g : vexp -> vexp -> vexp) (a b : IE) : M IE :=
  if literal b then
    if test (intLit b) then x <-- getAffineExpr a ;; initAsAffineExpr (f x (ACst (intLit b)))
    else va <-- getValue a ;; vb <-- getValue b ;; initAsKind (g va vb) KNonAffine
  else fail.
Definition ieFloorDiv (a b : IE) : M IE :=
  binaryOp a b false true false true 1 lit_floorDiv (affineDivLike (fun z => 1 <? z) AFloor VFloor) VFloor.
Definition ieCeilDiv (a b : IE) : M IE :=
  binaryOp a b false true false true 1 lit_ceilDiv (affineDivLike (fun z => 1 <? z) ACeil VCeil) VCeil.
(** llvm::mod asserts a positive divisor. *)
Definition lit_mod (x y : Z) : option Z := if 1 <=? y then Some (x mod y) else None.
Definition ieMod (a b : IE) : M IE :=
  binaryOp a b false true false false 1 lit_mod (affineDivLike (fun z => 0 <=? z) AMod VRem) VRem.

(** IndexExpr.cpp:1103-1141 [clamp]. *)
Definition ieClamp (v lo hi : IE) : M IE :=
  if literal v && literal lo && literal hi then
    ret (if intLit v <? intLit lo then lo else if intLit hi <? intLit v then hi else v)
  else
    s <-- isSI ;;
    if s : bool then questionmark
    else
      c1 <-- compareOp Slt v lo ;;
      r1 <-- select c1 lo v ;;
      c2 <-- compareOp Sgt r1 hi ;;
      select c2 hi r1.

(** IndexExpr.cpp:766-790 and 792-816 (& and |), 818-820 (!). *)
Definition ieAnd (a b : IE) : M IE :=
  if literal a then (if intLit a =? 0 then initAsLiteral 0 KPred else deepCopy b)
  else if literal b then (if intLit b =? 0 then initAsLiteral 0 KPred else deepCopy a)
  else if isQM a || isQM b then questionmark
  else if isPred a && isPred b then
    va <-- getValue a ;; vb <-- getValue b ;; initAsKind (VAnd va vb) KPred
  else fail.
Definition ieOr (a b : IE) : M IE :=
  if literal a then (if negb (intLit a =? 0) then initAsLiteral 1 KPred else deepCopy b)
  else if literal b then (if negb (intLit b =? 0) then initAsLiteral 1 KPred else deepCopy a)
  else if isQM a || isQM b then questionmark
  else if isPred a && isPred b then
    va <-- getValue a ;; vb <-- getValue b ;; initAsKind (VOr va vb) KPred
  else fail.
Definition ieNot (a : IE) : M IE := f <-- initAsLiteral 0 KPred ;; compareOp Eq_ a f.

(** A straight-line use of the API: each command appends its result to the
    registers; operands are register numbers. *)
Inductive cmd :=
| CLit (z : Z) | CDim (n : nat) | CSym (n : nat) | CVal (n : nat)
| CAdd (i j : nat) | CSub (i j : nat) | CMul (i j : nat)
| CFloor (i j : nat) | CCeil (i j : nat) | CMod (i j : nat)
| CMinMax (isMin : bool) (l : list nat)
| CClamp (v lo hi : nat)
| CCmp (p : cmpi) (i j : nat) | CSelect (c t f : nat)
| CAnd (i j : nat) | COr (i j : nat) | CNot (i : nat).

Definition reg (rs : list IE) (i : nat) : M IE := lift (nth_error rs i).
(** LiteralIndexExpr, DimIndexExpr, SymbolIndexExpr and NonAffineIndexExpr of an
    external value; the operators. *)
Definition exec (rs : list IE) (c : cmd) : M IE :=
  match c with
  | CLit z => initAsLiteral z KAffine
  | CDim n => initAsKind (VLeaf n) KDim
  | CSym n => initAsKind (VLeaf n) KSymbol
  | CVal n => initAsKind (VLeaf n) KNonAffine
  | CAdd i j => a <-- reg rs i ;; b <-- reg rs j ;; ieAdd a b
  | CSub i j => a <-- reg rs i ;; b <-- reg rs j ;; ieSub a b
  | CMul i j => a <-- reg rs i ;; b <-- reg rs j ;; ieMul a b
  | CFloor i j => a <-- reg rs i ;; b <-- reg rs j ;; ieFloorDiv a b
  | CCeil i j => a <-- reg rs i ;; b <-- reg rs j ;; ieCeilDiv a b
  | CMod i j => a <-- reg rs i ;; b <-- reg rs j ;; ieMod a b
  | CMinMax isMin l => es <-- mapM (reg rs) l ;; minmax isMin es
  | CClamp v lo hi => a <-- reg rs v ;; b <-- reg rs lo ;; c <-- reg rs hi ;; ieClamp a b c
  | CCmp p i j => a <-- reg rs i ;; b <-- reg rs j ;; compareOp p a b
  | CSelect c t f => a <-- reg rs c ;; b <-- reg rs t ;; d <-- reg rs f ;; select a b d
  | CAnd i j => a <-- reg rs i ;; b <-- reg rs j ;; ieAnd a b
  | COr i j => a <-- reg rs i ;; b <-- reg rs j ;; ieOr a b
  | CNot i => a <-- reg rs i ;; ieNot a
  end.
Fixpoint runCmds (rs : list IE) (cs : list cmd) : M (list IE) :=
  match cs with
  | [] => ret rs
  | c :: r => e <-- exec rs c ;; runCmds (rs ++ [e]) r
  end.
End Ops.
