(** The ONNX operators MatMulInteger and QLinearMatMul on matrices, with exact arithmetic. *)
From Coq Require Import List ZArith QArith.
From Verif Require Import QuantSpec.
Import ListNotations.
Open Scope Z_scope.

(** sum of f 0 .. f (n-1) *)
Fixpoint total (n : nat) (f : Z -> Z) : Z := match n with O => 0 | S m => total m f + f (Z.of_nat m) end.

(** An operand given once for a whole matrix, or once for each of its rows (or columns). *)
Inductive param (T : Type) := One (x : T) | Each (l : list T).
Arguments One {T}. Arguments Each {T}.
(** Its value for row (or column) i: a vector of length 1 counts as one value. *)
Definition valueAt {T} (p : param T) (i : Z) (v : T) : Prop :=
  match p with One x => v = x | Each [x] => v = x | Each l => nth_error l (Z.to_nat i) = Some v end.
(** The vector has an entry for each of n rows (or columns). *)
Definition fits {T} (p : param T) (n : Z) : Prop :=
  match p with One _ => True | Each l => length l = 1%nat \/ Z.of_nat (length l) = n end.

(** Entry (i, j) of (A - za) (B - zb): the zero point of A by row, the one of B by column. *)
Definition product (K : Z) (A B : Z -> Z -> Z) (za zb : param Z) (i j v : Z) : Prop :=
  exists a b, valueAt za i a /\ valueAt zb j b /\ v = total (Z.to_nat K) (fun k => (A i k - a) * (B k j - b)).

(** Entry (i, j) of QLinearMatMul: the scale of A by row, the one of B by column. *)
Definition qproduct (lo hi K : Z) (A B : Z -> Z -> Z) (sa : param Q) (za : param Z) (sb : param Q) (zb : param Z) (sy : Q) (zy : Z)
    (i j y : Z) : Prop :=
  exists v a b, product K A B za zb i j v /\ valueAt sa i a /\ valueAt sb j b /\
    exists n, rounded (inject_Z v * a * b / sy) n /\ y = saturate lo hi (n + zy).
