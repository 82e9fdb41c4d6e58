(** CumSum, from the ONNX operator definition: along the axis, every element becomes the
    sum of the elements up to it; with exclusive = 1 without itself; with reverse = 1 the
    sum runs from the end. *)
From Coq Require Import List ZArith Bool.
From Verif Require Import Util TensorSpec.
Import ListNotations.
Open Scope Z_scope.

(** Does position [j] of the axis count towards position [i]? *)
Definition counts (exclusive reverse : bool) (i j : Z) : bool :=
  if reverse then (if exclusive then i <? j else i <=? j) else (if exclusive then j <? i else j <=? i).

Section Spec.
Context {T : Type} (add : T -> T -> T) (zero : T).
(** The element at [idx] of the cumulative sum of [x] (of shape [s]) along axis [a]. *)
Definition cumsum_elem (exclusive reverse : bool) (s : shape) (a : nat) (x : index -> T) (idx : index) : T :=
  fold_right add zero (map (fun j => x (upd a j idx)) (filter (counts exclusive reverse (nth a idx 0)) (zrange (nth a s 0)))).
End Spec.

(** A commutative monoid: exact addition, or addition modulo a power of two. *)
Record summable {T} (add : T -> T -> T) (zero : T) : Prop := {
  sum_assoc : forall a b c, add a (add b c) = add (add a b) c;
  sum_comm : forall a b, add a b = add b a;
  sum_zero : forall a, add a zero = a }.
