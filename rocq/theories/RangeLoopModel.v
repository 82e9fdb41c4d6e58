(** The loop emitted for Range: /repo/src/Conversion/ONNXToKrnl/Tensor/Range.cpp. *)
From Coq Require Import List ZArith Bool.
From Flocq Require Import Core BinarySingleNaN.
From Verif Require Import Util TensorSpec LoopModel.
Import ListNotations.
Open Scope Z_scope.

(** Range.cpp 153-178: one accumulator cell that starts at [start] and grows by [delta]
    after each store. *)
Definition rangeFill {T} (add : T -> T -> T) (start delta : T) (n : Z) : option (mem T) :=
  acc <- store (alloc [1]) [0] start ;;
  st <- iterate [n] (fun loopInd st =>
          result <- load (fst st) [0] ;;
          res <- store (snd st) loopInd result ;;
          acc' <- store (fst st) [0] (add result delta) ;;
          Some (acc', res)) (acc, alloc [n]) ;;
  Some (snd st).

(** Two's complement integers of [w] bits, held as their signed value. *)
Definition sint (w v : Z) : Z := (v + 2 ^ (w - 1)) mod 2 ^ w - 2 ^ (w - 1).
(** arith.ceildivsi: undefined for a zero divisor and for the quotient that does not fit. *)
Definition ceildivsi (w a b : Z) : option Z :=
  if b =? 0 then None else let q := - ((- a) / b) in if q <? 2 ^ (w - 1) then Some q else None.
(** Range.cpp 78-115 for integers: the dimension is that of the static type
    ([staticDim], computed as in ONNXRangeOpShapeHelper::computeShape,
    /repo/src/Dialect/ONNX/ONNXOps/Tensor/Range.cpp 28-79) or is computed at run time.
    Range.cpp 124-149: widths other than 16, 32 and 64 are not supported. *)
Definition rangeShapeInt (start limit delta : Z) : option Z := if delta =? 0 then None else Some (Z.max (- ((- (limit - start)) / delta)) 0).
Definition rangeLoopInt (w : Z) (isConstant : bool) (start limit delta : Z) : option (mem Z) :=
  if (w =? 16) || (w =? 32) || (w =? 64) then
    n <- (if isConstant then rangeShapeInt start limit delta
          else ceildivsi w (sint w (limit - start)) delta) ;;
    rangeFill (fun a b => sint w (a + b)) start delta n
  else None.

(** Range.cpp 88-97 for float32: the ceiling of the quotient converted to an unsigned 64-bit
    integer ([None] is the poison value of arith.fptoui). *)
Definition b32 : Type := binary_float 24 128.
#[local] Instance Hp24 : Prec_gt_0 24 := eq_refl.
#[local] Instance He24 : Prec_lt_emax 24 128 := eq_refl.
Definition sub32 : b32 -> b32 -> b32 := Bminus mode_NE.
Definition add32 : b32 -> b32 -> b32 := Bplus mode_NE.
Definition mul32 : b32 -> b32 -> b32 := Bmult mode_NE.
Definition div32 : b32 -> b32 -> b32 := Bdiv mode_NE.
Definition ofInt32 (z : Z) : b32 := binary_normalize 24 128 _ _ mode_NE z 0 false.
Definition ceilToUint64 (f : b32) : option Z :=
  match f with
  | B754_zero _ => Some 0
  | B754_finite s m e _ =>
      let z := if s then Zneg m else Zpos m in
      let c := if 0 <=? e then z * 2 ^ e else - ((- z) / 2 ^ (- e)) in
      if (0 <=? c) && (c <? 2 ^ 64) then Some c else None
  | _ => None
  end.
Definition rangeLoopFloat (start limit delta : b32) : option (mem b32) :=
  n <- ceilToUint64 (div32 (sub32 limit start) delta) ;;
  rangeFill add32 start delta n.
