(** The quantization of the ONNX operators QuantizeLinear, DequantizeLinear and
    DynamicQuantizeLinear, with exact arithmetic. *)
From Coq Require Import List ZArith QArith Qabs Qminmax Reals.
Import ListNotations.

(** [n] is [x] rounded to the nearest integer, to the even one when two are nearest. *)
Definition rounded (x : Q) (n : Z) : Prop :=
  (Qabs (x - inject_Z n) <= 1 # 2 /\ (Qabs (x - inject_Z n) == 1 # 2 -> Z.even n = true))%Q.
Definition roundedR (x : R) (n : Z) : Prop :=
  (Rabs (x - IZR n) <= / 2 /\ (Rabs (x - IZR n) = / 2 -> Z.even n = true))%R.

(** The nearest value of the quantized type. *)
Definition saturate (lo hi n : Z) : Z := Z.max lo (Z.min hi n).

(** QuantizeLinear: y = saturate (round (x / scale) + zero point). *)
Definition quantized (lo hi : Z) (scale : Q) (zp : Z) (x : Q) (y : Z) : Prop :=
  exists n, rounded (x / scale) n /\ y = saturate lo hi (n + zp).
(** DequantizeLinear: (y - zero point) * scale. *)
Definition dequantized (scale : Q) (zp y : Z) : Q := (inject_Z (y - zp) * scale)%Q.

(** DynamicQuantizeLinear: the range of the data, extended to contain 0, is mapped to 0..255. *)
Definition isMin (xs : list Q) (m : Q) : Prop := ((exists x, In x (0 :: xs) /\ m == x) /\ forall x, In x (0 :: xs) -> m <= x)%Q.
Definition isMax (xs : list Q) (m : Q) : Prop := ((exists x, In x (0 :: xs) /\ m == x) /\ forall x, In x (0 :: xs) -> x <= m)%Q.
Definition dynamicScale (xs : list Q) (scale : Q) : Prop :=
  exists lo hi, isMin xs lo /\ isMax xs hi /\ (scale == (hi - lo) / 255)%Q.
Definition dynamicZeroPoint (xs : list Q) (scale : Q) (zp : Z) : Prop :=
  exists lo n, isMin xs lo /\ rounded (0 - lo / scale) n /\ zp = saturate 0 255 n.
