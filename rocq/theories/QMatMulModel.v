(** Matrix products of quantized matrices:
    /repo/src/Conversion/ONNXToKrnl/Math/MatMulInteger.cpp, QLinearMatMul.cpp,
    /repo/src/Dialect/ONNX/Transforms/Recompose.cpp RecomposeQLinearMatMulFromQuantizeLinearPattern.

    Two matrices A (M x K) and B (K x N); the lowering emits ONNX operations, which are modelled
    element by element. Integer operations wrap around at 32 bits. The operations on f32 are
    modelled with exact rationals. [None]: the lowering fails, or the result is undefined. *)
From Coq Require Import List ZArith QArith Bool.
From Verif Require Import Util QuantModel QMatMulSpec.
Import ListNotations.
Open Scope Z_scope.

Definition wrap32 (x : Z) : Z := (x + 2 ^ 31) mod 2 ^ 32 - 2 ^ 31.
Definition wrap8 (x : Z) : Z := (x + 128) mod 256 - 128.

(** Broadcast of an operand of rank 0 or 1 against a matrix with [d] columns: the element for
    column j. *)
Definition byColumn {T} (d j : Z) (p : param T) : option T :=
  match p with
  | One x => Some x
  | Each [x] => Some x
  | Each l => if Z.of_nat (length l) =? d then nth_error l (Z.to_nat j) else None
  end.
(** Unsqueezed to [M x 1] when its length is not 1 (MatMulInteger.cpp 64-71, QLinearMatMul.cpp
    100-107): the element for row i and column k. *)
Definition unsqueezed {T} (M K i k : Z) (p : param T) : option T :=
  match p with
  | One x => Some x
  | Each l => if Z.of_nat (length l) =? 1 then byColumn K k p
              else if Z.of_nat (length l) =? M then nth_error l (Z.to_nat i) else None
  end.

(** onnx.MatMul on i32: the element (i, j). *)
Definition dot32 (K : Z) (f g : Z -> option Z) : option Z :=
  foldM (fun k acc => a <- f k ;; b <- g k ;; Some (wrap32 (acc + wrap32 (a * b)))) (zrange K) 0.

(** MatMulInteger.cpp 55-86. The casts of A, B and the zero points to i32 keep the value. *)
Definition matMulInteger (M K N : Z) (A B : Z -> Z -> Z) (aZeroPoint bZeroPoint : option (param Z)) (i j : Z) : option Z :=
  let AInt32 i k := match aZeroPoint with
                    | None => Some (A i k)
                    | Some p => z <- unsqueezed M K i k p ;; Some (wrap32 (A i k - z)) end in
  let BInt32 k j := match bZeroPoint with
                    | None => Some (B k j)
                    | Some p => z <- byColumn N j p ;; Some (wrap32 (B k j - z)) end in
  dot32 K (AInt32 i) (fun k => BInt32 k j).

(** ONNX/DialectBuilder.cpp 915-933 getOrCastToI8. *)
Definition getOrCastToI8 (unsigned : bool) (v : Z) : Z := if unsigned then wrap8 (v - 128) else v.
Definition mapParam {T U} (f : T -> U) (p : param T) : param U := match p with One x => One (f x) | Each l => Each (map f l) end.

(** onnx.Mul and onnx.Div of operands of rank 0 or 1. *)
Definition bin {T} (f : T -> T -> T) (p q : param T) : option (param T) :=
  match p, q with
  | One a, One b => Some (One (f a b))
  | One a, Each m => Some (Each (map (f a) m))
  | Each l, One b => Some (Each (map (fun a => f a b) l))
  | Each [a], Each m => Some (Each (map (f a) m))
  | Each l, Each [b] => Some (Each (map (fun a => f a b) l))
  | Each l, Each m => if (length l =? length m)%nat then Some (Each (map2 f l m)) else None
  end.

(** onnx.Cast of an integral f32 to i32; undefined outside of its range. *)
Definition castI32 (x : Q) : option Z :=
  let i := toward0 x in if (- 2 ^ 31 <=? i) && (i <? 2 ^ 31) then Some i else None.

(** QLinearMatMul.cpp 45-141. [ua], [ub], [uy]: whether A, B and the result are unsigned. The types
    of the zero points are those of A, B and the result; [None]: no zero point. *)
Definition qlinearMatMul (M K N : Z) (ua ub uy : bool) (A : Z -> Z -> Z) (aScale : param Q) (aZeroPoint : option (param Z))
    (B : Z -> Z -> Z) (bScale : param Q) (bZeroPoint : option (param Z)) (yScale : Q) (yZeroPoint : option Z) (i j : Z) : option Z :=
  aZeroPoint <- aZeroPoint ;;
  bZeroPoint <- bZeroPoint ;;
  yZeroPoint <- yZeroPoint ;;
  let aZeroPointI32 := mapParam (getOrCastToI8 ua) aZeroPoint in
  let AI32 i k := z <- unsqueezed M K i k aZeroPointI32 ;; Some (wrap32 (getOrCastToI8 ua (A i k) - z)) in
  let bZeroPointI32 := mapParam (getOrCastToI8 ub) bZeroPoint in
  let BI32 k j := z <- byColumn N j bZeroPointI32 ;; Some (wrap32 (getOrCastToI8 ub (B k j) - z)) in
  let yZeroPointI32 := getOrCastToI8 uy yZeroPoint in
  resI32 <- dot32 K (AI32 i) (fun k => BI32 k j) ;;
  if Qeq_bool yScale 0 then None
  else
    ab <- bin Qmult aScale bScale ;;
    scale <- bin Qdiv ab (One yScale) ;;
    s <- byColumn N j scale ;;
    let resF32 := (inject_Z resI32 * s)%Q in
    let roundToEven := roundEvenEmulation exactQ resF32 in
    resI32 <- castI32 roundToEven ;;
    let resI32 := wrap32 (resI32 + yZeroPointI32) in
    Some (if uy then (wrap8 (wrap32 (resI32 + 128))) mod 256 else wrap8 resI32).

(** Recompose.cpp 592-648: QuantizeLinear (MatMul (DequantizeLinear a) (DequantizeLinear b)) with
    scalar scales and zero points, before and after. *)
Fixpoint sumQ (l : list Q) : Q := match l with [] => 0%Q | x :: r => (x + sumQ r)%Q end.
Definition before (K : Z) (uy : bool) (A : Z -> Z -> Z) (aScale : Q) (aZeroPoint : option Z)
    (B : Z -> Z -> Z) (bScale : Q) (bZeroPoint : option Z) (outScale : Q) (outZeroPoint : option Z) (i j : Z) : option Z :=
  let matA i k := dequantizeElement false aScale aZeroPoint (A i k) in
  let matB k j := dequantizeElement false bScale bZeroPoint (B k j) in
  let x := sumQ (map (fun k => matA i k * matB k j)%Q (zrange K)) in
  ys <- quantizeLinear false false uy outScale outZeroPoint [x] ;; hd_error ys.
Definition recomposed (M K N : Z) (ua ub uy : bool) (A : Z -> Z -> Z) (aScale : Q) (aZeroPoint : option Z)
    (B : Z -> Z -> Z) (bScale : Q) (bZeroPoint : option Z) (outScale : Q) (outZeroPoint : option Z) (i j : Z) : option Z :=
  qlinearMatMul M K N ua ub uy A (One aScale) (option_map One aZeroPoint) B (One bScale) (option_map One bZeroPoint) outScale outZeroPoint i j.
