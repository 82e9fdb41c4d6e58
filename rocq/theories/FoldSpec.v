(** Specification of integer arithmetic on tensor elements, as the ONNX
    operators define it, and of expressions built from constants.  Nothing
    here refers to the compiler. *)
From Coq Require Import ZArith List Bool Lia.
Import ListNotations.
Open Scope Z_scope.

(** Element types: booleans and the eight ONNX integer types. *)
Inductive ety := TBool | TInt (signed : bool) (width : Z).

Definition widthOK (w : Z) : Prop := w = 8 \/ w = 16 \/ w = 32 \/ w = 64.

Definition tyOK (t : ety) : Prop :=
  match t with TBool => True | TInt _ w => widthOK w end.

(** The values an element of the type can hold. *)
Definition inRange (t : ety) (v : Z) : Prop :=
  match t with
  | TBool => v = 0 \/ v = 1
  | TInt true w => - 2 ^ (w - 1) <= v < 2 ^ (w - 1)
  | TInt false w => 0 <= v < 2 ^ w
  end.

(** The value of the type that an integer wraps around to. *)
Definition wrap (t : ety) (v : Z) : Z :=
  match t with
  | TBool => if v =? 0 then 0 else 1
  | TInt true w => (v + 2 ^ (w - 1)) mod 2 ^ w - 2 ^ (w - 1)
  | TInt false w => v mod 2 ^ w
  end.

Inductive unop := Neg | BitNot | Abs | Relu | Not.
Inductive binop :=
| Add | Sub | Mul | Div | Mod | Min | Max | BitAnd | BitOr
| Equal | Less | Greater | LessEq | GreaterEq
| And | Or | Xor.

Definition b2z (b : bool) : Z := if b then 1 else 0.

(** What each operator computes over the unbounded integers.  [None]: the
    operator does not define a value (division by zero).  Mod takes the sign
    of the divisor (ONNX Mod with fmod=0). *)
Definition idealUn (o : unop) (a : Z) : Z :=
  match o with
  | Neg => - a
  | BitNot => Z.lnot a
  | Abs => Z.abs a
  | Relu => Z.max 0 a
  | Not => 1 - a
  end.

Definition idealBin (o : binop) (a b : Z) : option Z :=
  match o with
  | Add => Some (a + b)
  | Sub => Some (a - b)
  | Mul => Some (a * b)
  | Div => if b =? 0 then None else Some (Z.quot a b)
  | Mod => if b =? 0 then None else Some (Z.modulo a b)
  | Min => Some (Z.min a b)
  | Max => Some (Z.max a b)
  | BitAnd => Some (Z.land a b)
  | BitOr => Some (Z.lor a b)
  | Equal => Some (b2z (a =? b))
  | Less => Some (b2z (a <? b))
  | Greater => Some (b2z (b <? a))
  | LessEq => Some (b2z (a <=? b))
  | GreaterEq => Some (b2z (b <=? a))
  | And => Some (Z.min a b)
  | Or => Some (Z.max a b)
  | Xor => Some (b2z (negb (a =? b)))
  end.

(** Result types.  [None]: the operator is not defined on the type. *)
Definition tyUn (o : unop) (t : ety) : option ety :=
  match o, t with
  | Not, TBool => Some TBool
  | (Neg | BitNot | Abs | Relu), TInt s w => Some (TInt s w)
  | _, _ => None
  end.

Definition tyBin (o : binop) (t : ety) : option ety :=
  match o, t with
  | (And | Or | Xor | Equal), TBool => Some TBool
  | (Equal | Less | Greater | LessEq | GreaterEq), TInt _ _ => Some TBool
  | (Add | Sub | Mul | Div | Mod | Min | Max | BitAnd | BitOr), TInt s w =>
      Some (TInt s w)
  | _, _ => None
  end.

(** The operators in the element type: the ideal result, wrapped. *)
Definition elemUn (o : unop) (t : ety) (a : Z) : option Z :=
  match tyUn o t with
  | Some r => Some (wrap r (idealUn o a))
  | None => None
  end.

Definition elemBin (o : binop) (t : ety) (a b : Z) : option Z :=
  match tyBin o t, idealBin o a b with
  | Some r, Some v => Some (wrap r v)
  | _, _ => None
  end.

(** Constant expressions. *)
Inductive expr :=
| Lit (t : ety) (v : Z)
| Un (o : unop) (e : expr)
| Bin (o : binop) (e1 e2 : expr)
| Cast (t : ety) (e : expr).

Definition eqTy (a b : ety) : bool :=
  match a, b with
  | TBool, TBool => true
  | TInt s w, TInt s' w' => eqb s s' && (w =? w')
  | _, _ => false
  end.

Fixpoint typeOf (e : expr) : option ety :=
  match e with
  | Lit t _ => Some t
  | Un o e => match typeOf e with Some t => tyUn o t | None => None end
  | Bin o e1 e2 =>
      match typeOf e1, typeOf e2 with
      | Some t1, Some t2 => if eqTy t1 t2 then tyBin o t1 else None
      | _, _ => None
      end
  | Cast t e => match typeOf e with Some _ => Some t | None => None end
  end.

(** Literals are values of their types and all types are ONNX types. *)
Fixpoint wellFormed (e : expr) : Prop :=
  match e with
  | Lit t v => tyOK t /\ inRange t v
  | Un _ e => wellFormed e
  | Bin _ e1 e2 => wellFormed e1 /\ wellFormed e2
  | Cast t e => tyOK t /\ wellFormed e
  end.

(** The value of an expression in ONNX arithmetic: every operator result is
    a value of its element type. *)
Fixpoint meaning (e : expr) : option Z :=
  match e with
  | Lit _ v => Some v
  | Un o e =>
      match typeOf e, meaning e with
      | Some t, Some a => elemUn o t a
      | _, _ => None
      end
  | Bin o e1 e2 =>
      match typeOf e1, meaning e1, meaning e2 with
      | Some t, Some a, Some b => elemBin o t a b
      | _, _, _ => None
      end
  | Cast t e =>
      match meaning e with Some a => Some (wrap t a) | None => None end
  end.

(** The value of the same expression over the unbounded integers, where
    nothing ever wraps around (a cast to bool still asks for non-zero). *)
Fixpoint unbounded (e : expr) : option Z :=
  match e with
  | Lit _ v => Some v
  | Un o e =>
      match unbounded e with Some a => Some (idealUn o a) | None => None end
  | Bin o e1 e2 =>
      match unbounded e1, unbounded e2 with
      | Some a, Some b => idealBin o a b
      | _, _ => None
      end
  | Cast TBool e =>
      match unbounded e with Some a => Some (wrap TBool a) | None => None end
  | Cast (TInt _ _) e => unbounded e
  end.

(** The expression's unbounded value is a value of its own type. *)
Definition fits (e : expr) : Prop :=
  match typeOf e, unbounded e with
  | Some t, Some v => inRange t v
  | _, _ => False
  end.

(** The operators that only add, subtract, multiply or work bit by bit: the
    low bits of their results depend on the low bits of their operands
    only. *)
Definition modularUn (o : unop) : bool :=
  match o with Neg | BitNot | Not => true | Abs | Relu => false end.
Definition modularBin (o : binop) : bool :=
  match o with Add | Sub | Mul | BitAnd | BitOr => true | _ => false end.

Definition bitsOfTy (t : ety) : Z := match t with TBool => 1 | TInt _ w => w end.

(** A cast that keeps no more bits than its operand has. *)
Definition narrowing (t : ety) (e : expr) : bool :=
  match t, typeOf e with
  | TInt _ w, Some t' => w <=? bitsOfTy t'
  | _, _ => false
  end.

(** No operator that looks at the magnitude of an operand (division,
    comparison, widening cast, ...) is applied to a value that overflowed its
    element type.  Abs also asks for a magnitude of at most 2^53. *)
Fixpoint overflowSafe (e : expr) : Prop :=
  match e with
  | Lit _ _ => True
  | Un o e =>
      overflowSafe e /\ (modularUn o = true \/ fits e) /\
      (o = Abs -> exists v, unbounded e = Some v /\ Z.abs v <= 2 ^ 53)
  | Bin o e1 e2 =>
      overflowSafe e1 /\ overflowSafe e2 /\
      (modularBin o = true \/ (fits e1 /\ fits e2))
  | Cast t e => overflowSafe e /\ (narrowing t e = true \/ fits e)
  end.

(** All types in the expression are bool or 64-bit integers. *)
Fixpoint only64 (e : expr) : Prop :=
  match e with
  | Lit t _ => match t with TBool => True | TInt _ w => w = 64 end
  | Un o e => only64 e /\ o <> Abs
  | Bin _ e1 e2 => only64 e1 /\ only64 e2
  | Cast t e => match t with TBool => True | TInt _ w => w = 64 end /\ only64 e
  end.

(** Built from literals of one integer type with operators that work modulo
    a power of two. *)
Fixpoint modular (e : expr) : Prop :=
  match e with
  | Lit t _ => True
  | Un o e => modular e /\ modularUn o = true
  | Bin o e1 e2 => modular e1 /\ modular e2 /\ modularBin o = true
  | Cast _ _ => False
  end.

(** Clip: a missing bound does not constrain. *)
Definition clipped (x : Z) (lo hi : option Z) : Z :=
  let x := match lo with Some l => Z.max x l | None => x end in
  match hi with Some h => Z.min x h | None => x end.

(** The expression can be compiled and run: arithmetic is on signed integers
    or booleans (casts may be to and from any type), and no Div or Mod
    divides the smallest value by -1. *)
Fixpoint runnable (e : expr) : Prop :=
  match e with
  | Lit _ _ => True
  | Un _ e =>
      runnable e /\ (forall w, typeOf e <> Some (TInt false w))
  | Bin o e1 e2 =>
      runnable e1 /\ runnable e2 /\
      (forall w, typeOf e1 <> Some (TInt false w)) /\
      (o = Div \/ o = Mod ->
       forall w, typeOf e1 = Some (TInt true w) ->
       ~ (meaning e1 = Some (- 2 ^ (w - 1)) /\ meaning e2 = Some (-1)))
  | Cast _ e => runnable e
  end.
