(** Model of integer constant folding and of the code generated for the same
    integer operators.  Folding: src/Dialect/ONNX/Transforms/ConstProp.cpp
    and src/Dialect/ONNX/ElementsAttr; generated code:
    src/Conversion/ONNXToKrnl/Math/Elementwise.cpp and
    src/Dialect/Mlir/DialectBuilder.cpp (MathBuilder).  One element at a
    time: which elements meet which is modelled in Broadcast*. *)
From Coq Require Import ZArith List Bool Lia.
From Verif Require Import FoldSpec.
Import ListNotations.
Open Scope Z_scope.

(** ** Folding *)

(** WideNum.hpp 23-43 (union of int64_t and uint64_t): the integers a wide
    number of the element type can hold.  Booleans are read and written as
    bool, i.e. 0 or 1. *)
Definition min64 : Z := - 2 ^ 63.
Definition max64 : Z := 2 ^ 63 - 1.
Definition two64 : Z := 2 ^ 64.

(** int64_t arithmetic: overflow is undefined behaviour, [None]. *)
Definition i64 (v : Z) : option Z :=
  if (min64 <=? v) && (v <=? max64) then Some v else None.

(** uint64_t arithmetic wraps around. *)
Definition u64 (v : Z) : Z := v mod two64.

(** Conversion of an integer to double and back (round to nearest, ties to
    even, 53 bits), as in (double)val. *)
Definition roundAbs (a : Z) : Z :=
  let e := Z.max 0 (Z.log2 a - 52) in
  let q := a / 2 ^ e in
  let r := a mod 2 ^ e in
  let up := (2 ^ e <? 2 * r) || ((2 * r =? 2 ^ e) && Z.odd q) in
  (if up then q + 1 else q) * 2 ^ e.
Definition toDouble (v : Z) : Z := Z.sgn v * roundAbs (Z.abs v).

(** ConstProp.cpp 408-492 ElementWiseUnaryOpImpl at T = int64_t, uint64_t or
    bool: Neg 453-456, BitwiseNot 413-416, Abs 418-421 (through double),
    Relu 473-476, Not 458-461.  [None]: undefined behaviour or
    llvm_unreachable. *)
Definition foldUn (o : unop) (t : ety) (a : Z) : option Z :=
  match o, t with
  | Neg, TInt true _ => i64 (- a)
  | Neg, TInt false _ => Some (u64 (- a))
  | BitNot, TInt true _ => Some (Z.lnot a)
  | BitNot, TInt false _ => Some (u64 (Z.lnot a))
  | Abs, TInt true _ => i64 (Z.abs (toDouble a))
  | Abs, TInt false _ =>
      let d := Z.abs (toDouble a) in if d <? two64 then Some d else None
  | Relu, TInt _ _ => Some (if a <? 0 then 0 else a)
  | Not, TBool => Some (if a =? 0 then 1 else 0)
  | _, _ => None
  end.

(** ConstProp.cpp 220-344 ElementWiseBinaryOpImpl at T = int64_t, uint64_t or
    bool.  Div 240-251 returns lhs for a zero divisor; Mod 289-301 exists for
    int64_t only (for uint64_t the primary template's llvm_unreachable,
    220-223) and has no test for zero. *)
Definition foldBin (o : binop) (t : ety) (a b : Z) : option Z :=
  match o, t with
  | Add, TInt true _ => i64 (a + b)
  | Add, TInt false _ => Some (u64 (a + b))
  | Sub, TInt true _ => i64 (a - b)
  | Sub, TInt false _ => Some (u64 (a - b))
  | Mul, TInt true _ => i64 (a * b)
  | Mul, TInt false _ => Some (u64 (a * b))
  | Div, TInt true _ => if b =? 0 then Some a else i64 (Z.quot a b)
  | Div, TInt false _ => if b =? 0 then Some a else Some (Z.quot a b)
  | Mod, TInt true _ =>
      if b =? 0 then None
      else if (a =? min64) && (b =? -1) then None
      else
        let m := Z.rem a b in
        if negb (m =? 0) && xorb (a <? 0) (b <? 0) then i64 (m + b) else Some m
  | Mod, TInt false _ => None
  | Min, TInt _ _ => Some (if b <? a then b else a)
  | Max, TInt _ _ => Some (if a <? b then b else a)
  | BitAnd, TInt _ _ => Some (Z.land a b)
  | BitOr, TInt _ _ => Some (Z.lor a b)
  | Equal, _ => Some (b2z (a =? b))
  | Less, TInt _ _ => Some (b2z (a <? b))
  | Greater, TInt _ _ => Some (b2z (b <? a))
  | LessEq, TInt _ _ => Some (b2z (a <=? b))
  | GreaterEq, TInt _ _ => Some (b2z (b <=? a))
  | And, TBool => Some (b2z (negb (a =? 0) && negb (b =? 0)))
  | Or, TBool => Some (b2z (negb (a =? 0) || negb (b =? 0)))
  | Xor, TBool => Some (b2z (negb (a =? b)))
  | _, _ => None
  end.

(** ElementsAttrBuilder.cpp 369-424 castToIntElementType: to bool 375-380
    (non-zero); between integers of different signedness a conversion of the
    64-bit number 404-411 (wideCast, 356-360); otherwise the number is kept
    as it is 412-417 ("we delay any truncation").  [unsignedTy] is
    Type::isUnsignedInteger: bool is signless. *)
Definition unsignedTy (t : ety) : bool :=
  match t with TInt false _ => true | _ => false end.

Definition foldCast (from to : ety) (a : Z) : Z :=
  if eqTy from to then a
  else match to with
  | TBool => if a =? 0 then 0 else 1
  | TInt _ _ =>
      if eqb (unsignedTy to) (unsignedTy from) then a
      else if unsignedTy to then u64 a
      else (a + 2 ^ 63) mod two64 - 2 ^ 63
  end.

(** Folding a whole expression: every fold reads its operands as wide numbers
    (ElementsAttrBuilder.cpp 184-222 combine, 172-181 fromWideNums,
    DisposableElementsAttr.cpp 130-148, 256-264) and stores a wide number. *)
Fixpoint foldWide (e : expr) : option Z :=
  match e with
  | Lit _ v => Some v
  | Un o e =>
      match typeOf e, foldWide e with
      | Some t, Some a => foldUn o t a
      | _, _ => None
      end
  | Bin o e1 e2 =>
      match typeOf e1, foldWide e1, foldWide e2 with
      | Some t, Some a, Some b => foldBin o t a b
      | _, _, _ => None
      end
  | Cast t e =>
      match typeOf e, foldWide e with
      | Some t0, Some a => Some (foldCast t0 t a)
      | _, _ => None
      end
  end.

(** WideNum.hpp 62-87, 118-122 to/narrow (static_cast to the element's C++
    type, i.e. keep the low bits), used when the constant is finally read
    (DisposableElementsAttr.cpp 282-301 readRawBytes). *)
Definition narrow (t : ety) (a : Z) : Z :=
  match t with
  | TBool => if a =? 0 then 0 else 1
  | TInt true w =>
      let p := a mod 2 ^ w in if p <? 2 ^ (w - 1) then p else p - 2 ^ w
  | TInt false w => a mod 2 ^ w
  end.

(** The constant that replaces the expression. *)
Definition folded (e : expr) : option Z :=
  match typeOf e, foldWide e with
  | Some t, Some a => Some (narrow t a)
  | _, _ => None
  end.

(** Clip: ConstProp.td 849-862 rewrites it to Min(Max(x, min), max); a missing
    bound becomes APInt::getMinValue/getMaxValue of the width, ConstProp.cpp
    168-188 (getClipConstantOfType 149-166), i.e. all bits zero / all bits
    one.  The bounds are dense constants, so they are values of the type. *)
Definition clipMin (t : ety) (lo : option Z) : Z :=
  match lo with Some l => l | None => narrow t 0 end.
Definition clipMax (t : ety) (hi : option Z) : Z :=
  match hi with Some h => h | None => narrow t (2 ^ (bitsOfTy t) - 1) end.
Definition clipExpr (t : ety) (x : Z) (lo hi : option Z) : expr :=
  Bin Min (Bin Max (Lit t x) (Lit t (clipMin t lo))) (Lit t (clipMax t hi)).

(** ** Generated code *)

(** The arith dialect works on bit patterns 0 .. 2^w - 1. *)
Definition pat (w v : Z) : Z := v mod 2 ^ w.
Definition sint (w p : Z) : Z := if p <? 2 ^ (w - 1) then p else p - 2 ^ w.

(** arith.divsi / arith.remsi: zero divisor and overflow are undefined. *)
Definition divsi (w p q : Z) : option Z :=
  if q =? 0 then None
  else if (p =? 2 ^ (w - 1)) && (q =? 2 ^ w - 1) then None
  else Some (pat w (Z.quot (sint w p) (sint w q))).
Definition remsi (w p q : Z) : option Z :=
  if q =? 0 then None
  else if (p =? 2 ^ (w - 1)) && (q =? 2 ^ w - 1) then None
  else Some (pat w (Z.rem (sint w p) (sint w q))).
Definition slt (w p q : Z) : bool := sint w p <? sint w q.

(** Elementwise.cpp 1329-1344: the integer Mod lowering. *)
Definition lowerMod (w p q : Z) : option Z :=
  match remsi w p q with
  | None => None
  | Some r =>
      let adjusted := pat w (r + q) in
      let nonZero := negb (r =? 0) in
      let differ := xorb (slt w p 0) (slt w q 0) in
      Some (if nonZero && differ then adjusted else r)
  end.

(** Elementwise.hpp 163-597 (ScalarOp tables), ONNXToKrnlCommon.hpp 233-271
    (emitScalarOpFor), Elementwise.cpp: Neg 1132-1140 with MathBuilder::neg
    435-442, BitwiseNot 809-820, Relu 745-754, Not 1260-1268.  arith and math
    operations accept signless integers only, so an unsigned element type is
    rejected by the verifier: [None]. *)
Definition lowerUn (o : unop) (t : ety) (p : Z) : option Z :=
  match o, t with
  | Neg, TInt true w => Some (pat w (0 - p))
  | BitNot, TInt true w => Some (Z.lxor p (2 ^ w - 1))
  | Abs, TInt true w => Some (if slt w p 0 then pat w (0 - p) else p)
  | Relu, TInt true w => Some (if slt w 0 p then p else 0)
  | Not, TBool => Some (Z.lxor p 1)
  | _, _ => None
  end.

(** Same tables: Add/Sub/Mul -> addi/subi/muli, Div -> divsi (307-310), Mod
    above, Min/Max -> MathBuilder::min/max 462-484, BitwiseAnd/Or -> andi/ori,
    comparisons 1167-1221 -> MathBuilder::lt/le/gt/ge 592-618 on signless
    operands, Equal 1227-1254 -> eq. *)
Definition lowerBin (o : binop) (t : ety) (p q : Z) : option Z :=
  match o, t with
  | Add, TInt true w => Some (pat w (p + q))
  | Sub, TInt true w => Some (pat w (p - q))
  | Mul, TInt true w => Some (pat w (p * q))
  | Div, TInt true w => divsi w p q
  | Mod, TInt true w => lowerMod w p q
  | Min, TInt true w => Some (if slt w q p then q else p)
  | Max, TInt true w => Some (if slt w p q then q else p)
  | BitAnd, TInt true w => Some (Z.land p q)
  | BitOr, TInt true w => Some (Z.lor p q)
  | Equal, TInt true w => Some (b2z (p =? q))
  | Equal, TBool => Some (b2z (p =? q))
  | Less, TInt true w => Some (b2z (slt w p q))
  | Greater, TInt true w => Some (b2z (slt w q p))
  | LessEq, TInt true w => Some (b2z (negb (slt w q p)))
  | GreaterEq, TInt true w => Some (b2z (negb (slt w p q)))
  | And, TBool => Some (Z.land p q)
  | Or, TBool => Some (Z.lor p q)
  | Xor, TBool => Some (Z.lxor p q)
  | _, _ => None
  end.

(** DialectBuilder.cpp 866-1098 MathBuilder::cast, integer and boolean cases
    on scalars: bool source 986-997 (extui), bool destination 999-1013 (neq
    zero), unsigned source 1055-1079 (extui / trunci), signed source
    1080-1098 (extsi / trunci). *)
Definition lowerCast (from to : ety) (p : Z) : Z :=
  if eqTy from to then p
  else match from, to with
  | TBool, TInt _ w => p
  | TInt _ _, TBool => b2z (negb (p =? 0))
  | TInt false w, TInt _ w' => if w <? w' then p else pat w' p
  | TInt true w, TInt _ w' => if w <? w' then pat w' (sint w p) else pat w' p
  | TBool, TBool => p
  end.

(** The program compiled without folding, run on the literals. *)
Fixpoint run (e : expr) : option Z :=
  match e with
  | Lit t v => Some (pat (bitsOfTy t) v)
  | Un o e =>
      match typeOf e, run e with
      | Some t, Some p => lowerUn o t p
      | _, _ => None
      end
  | Bin o e1 e2 =>
      match typeOf e1, run e1, run e2 with
      | Some t, Some p, Some q => lowerBin o t p q
      | _, _, _ => None
      end
  | Cast t e =>
      match typeOf e, run e with
      | Some t0, Some p => Some (lowerCast t0 t p)
      | _, _ => None
      end
  end.

(** Reading an element of the result tensor. *)
Definition readElem (t : ety) (p : Z) : Z :=
  match t with
  | TBool => p
  | TInt true w => sint w p
  | TInt false w => p
  end.

Definition computed (e : expr) : option Z :=
  match typeOf e, run e with
  | Some t, Some p => Some (readElem t p)
  | _, _ => None
  end.

(** Elementwise.cpp 1414-1429: the Clip lowering. *)
Definition runClip (t : ety) (x : Z) (lo hi : option Z) : option Z :=
  match t with
  | TInt true w =>
      let m (a b : Z) := if slt w a b then b else a in
      let p := pat w x in
      let p := match lo with Some l => m (pat w l) p | None => p end in
      let p := match hi with
               | Some h => if slt w (pat w h) p then pat w h else p
               | None => p end in
      Some (sint w p)
  | _ => None
  end.
