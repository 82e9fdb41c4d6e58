(** Quantization at run time:
    /repo/src/Conversion/ONNXToKrnl/Quantization/QuantizeLinear.cpp, DynamicQuantizeLinear.cpp,
    /repo/src/Dialect/Mlir/DialectBuilder.cpp roundEvenEmulation, clip, cast,
    /repo/src/Conversion/ONNXToKrnl/Math/Elementwise.cpp DequantizeLinear.

    The rounding is modelled for any arithmetic and used with exact rationals and with
    floating-point numbers of any precision; the rest is modelled with exact rationals. The loop
    over the elements (SIMD or not) is the one of C43. NaN and infinities are not modelled. *)
From Coq Require Import List ZArith QArith Qminmax Qround Bool Reals.
From Flocq Require Import Core.
From Verif Require Import Util.
Import ListNotations.
Open Scope Z_scope.

Record arith := {
  T : Type; cst : Z -> T; half : T; floorT : T -> T; subT : T -> T -> T; addT : T -> T -> T; mulT : T -> T -> T;
  gtT : T -> T -> bool; eqT : T -> T -> bool
}.

(** Mlir/DialectBuilder.cpp 291-335. *)
Definition roundEvenEmulation (A : arith) (x : T A) : T A :=
  let one := cst A 1 in
  let two := cst A 2 in
  let y := floorT A x in
  let r := subT A x y in
  let y1 := if gtT A r (half A) then addT A y one else y in
  let y2 := mulT A (half A) y in
  let y2 := floorT A y2 in
  let y2 := mulT A y2 two in
  let rr := subT A y y2 in
  let y2 := if eqT A rr one then addT A y one else y in
  if eqT A r (half A) then y2 else y1.

Definition Qltb (a b : Q) : bool := negb (Qle_bool b a).
Definition exactQ : arith :=
  {| T := Q; cst := inject_Z; half := (1 # 2)%Q; floorT := fun x => inject_Z (Qfloor x); subT := Qminus; addT := Qplus; mulT := Qmult;
     gtT := fun a b => Qltb b a; eqT := Qeq_bool |}.
(** Floating-point numbers with [prec] bits and least exponent [emin]: operations round to nearest
    even (the results here are far from the largest number). *)
Definition rnd (emin prec : Z) (x : R) : R := round radix2 (FLT_exp emin prec) ZnearestE x.
Definition floats (emin prec : Z) : arith :=
  {| T := R; cst := IZR; half := (/ 2)%R; floorT := fun x => IZR (Zfloor x); subT := fun a b => rnd emin prec (a - b);
     addT := fun a b => rnd emin prec (a + b); mulT := fun a b => rnd emin prec (a * b);
     gtT := fun a b => Rlt_bool b a; eqT := Req_bool |}.

(** Mlir/DialectBuilder.cpp 355-360. *)
Definition clip (val lb ub : Q) : Q := Qmin (Qmax val lb) ub.

(** Mlir/DialectBuilder.cpp 951-967, 1024-1041, 1053-1100 cast of a float to an 8 bit integer: first
    to 32 bits, truncating towards zero ([None]: undefined outside of its range), then to 8 bits. *)
Definition toward0 (x : Q) : Z := if Qle_bool 0 x then Qfloor x else Qceiling x.
Definition castU8 (x : Q) : option Z :=
  let i := toward0 x in if (0 <=? i) && (i <? 2 ^ 32) then Some (i mod 256) else None.
Definition castI8 (x : Q) : option Z :=
  let i := toward0 x in if (- 2 ^ 31 <=? i) && (i <? 2 ^ 31) then Some ((i + 128) mod 256 - 128) else None.
Definition cast8 (unsigned : bool) : Q -> option Z := if unsigned then castU8 else castI8.

(** QuantizeLinear.cpp 28-152: the computation of one element. *)
Definition quantizeElement (useReciprocal unsigned : bool) (qMin qMax scale : Q) (zeroPoint : option Q) (x : Q) : option Z :=
  if Qeq_bool scale 0 then None
  else
    let scaleX := if useReciprocal then (x * (1 / scale))%Q else (x / scale)%Q in
    let roundX := roundEvenEmulation exactQ scaleX in
    let adjustX := match zeroPoint with Some z => (roundX + z)%Q | None => roundX end in
    let saturateX := clip adjustX qMin qMax in
    cast8 unsigned saturateX.

Fixpoint mapM {A B} (f : A -> option B) (l : list A) : option (list B) :=
  match l with [] => Some [] | a :: r => b <- f a ;; m <- mapM f r ;; Some (b :: m) end.

(** QuantizeLinear.cpp 198-240. [disable]: the option disableQuantZeroPoint. *)
Definition quantizeLinear (disable useReciprocal unsigned : bool) (scale : Q) (zeroPoint : option Z) (xs : list Q) : option (list Z) :=
  let qMax := if unsigned then 255%Q else 127%Q in
  let qMin := if unsigned then 0%Q else (-128)%Q in
  let zp := if disable then None else option_map inject_Z zeroPoint in
  mapM (quantizeElement useReciprocal unsigned qMin qMax scale zp) xs.

(** The same computation of one element with floating-point numbers. *)
Definition quantizeFloat (emin prec : Z) (useReciprocal unsigned : bool) (scale : R) (zeroPoint : option Z) (x : R) : Z :=
  let A := floats emin prec in
  let qMax := if unsigned then 255%R else 127%R in
  let qMin := if unsigned then 0%R else (-128)%R in
  let scaleX := if useReciprocal then rnd emin prec (x * rnd emin prec (1 / scale)) else rnd emin prec (x / scale) in
  let roundX := roundEvenEmulation A scaleX in
  let adjustX := match zeroPoint with Some z => addT A roundX (cst A z) | None => roundX end in
  let saturateX := Rmin (Rmax adjustX qMin) qMax in
  Ztrunc saturateX.

(** Math/Elementwise.cpp 1439-1461. *)
Definition dequantizeElement (disable : bool) (scale : Q) (zeroPoint : option Z) (y : Z) : Q :=
  let xFloat := inject_Z y in
  let sub := match zeroPoint with
             | Some z => if disable then xFloat else (xFloat - inject_Z z)%Q
             | None => xFloat end in
  (sub * scale)%Q.

(** DynamicQuantizeLinear.cpp 43-85. *)
Definition dynamicParameters (inputMin inputMax qMin qMax : Q) (wantZeroPoint : bool) : option (Q * Q * option Z) :=
  let inputMax := Qmax inputMax 0 in
  let inputMin := Qmin inputMin 0 in
  let xDiff := (inputMax - inputMin)%Q in
  let boundDiff := (qMax - qMin)%Q in
  let scale := (xDiff / boundDiff)%Q in
  if Qeq_bool scale 0 then None
  else
    let zeroPoint := if wantZeroPoint then
                       let interZeroPoint := (qMin - inputMin / scale)%Q in
                       let saturateZeroPoint := clip interZeroPoint qMin qMax in
                       roundEvenEmulation exactQ saturateZeroPoint
                     else 0%Q in
    Some (scale, zeroPoint, castU8 zeroPoint).

(** DynamicQuantizeLinear.cpp 100-156: the quantized elements, the scale and the zero point. The
    minimum and maximum of the elements are those of C61 and C62; [None] for no elements. *)
Definition reduceMin (xs : list Q) : option Q := match xs with [] => None | x :: r => Some (fold_left Qmin r x) end.
Definition reduceMax (xs : list Q) : option Q := match xs with [] => None | x :: r => Some (fold_left Qmax r x) end.
Definition dynamicQuantizeLinear (disable useReciprocal : bool) (xs : list Q) : option (list Z * Q * Z) :=
  xMin <- reduceMin xs ;;
  xMax <- reduceMax xs ;;
  let qMax := 255%Q in
  let qMin := 0%Q in
  let wantZeroPoint := negb disable in
  ps <- dynamicParameters xMin xMax qMin qMax wantZeroPoint ;;
  let '(scale, zeroPoint, zeroPointInt) := ps in
  zp <- zeroPointInt ;;
  ys <- mapM (quantizeElement useReciprocal true qMin qMax scale (if wantZeroPoint then Some zeroPoint else None)) xs ;;
  Some (ys, scale, zp).
