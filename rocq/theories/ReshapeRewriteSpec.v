(** Reshape and MatMul, for the rewriting of Reshape operations. Reshape with allowzero = 0 is
    [reshapes_to] of ShapeOpsSpec. *)
From Coq Require Import List ZArith.
From Verif Require Import Util TensorSpec.
Import ListNotations.
Open Scope Z_scope.

(** Reshape with allowzero = 1: 0 is a dim like others, -1 is found from the number of elements. *)
Definition reshapes_to_allowing_zero (data sh out : list Z) : Prop :=
  length out = length sh /\ (forall i v, nth_error sh i = Some v -> 0 <= v -> nth_error out i = Some v) /\ prodZ out = prodZ data.

(** The row-major buffers of A (shape pre ++ [K]), B (shape [K; N]) and their product C. *)
Definition isProduct {T} (add mul : T -> T -> T) (zero : T) (pre : list Z) (K N : Z) (A B C : list T) : Prop :=
  is_data (pre ++ [K]) A /\ is_data [K; N] B /\ is_data (pre ++ [N]) C /\
  forall p j, valid pre p -> 0 <= j < N -> exists as_ bs,
    length as_ = Z.to_nat K /\ length bs = Z.to_nat K /\
    (forall k, 0 <= k < K -> elem (pre ++ [K]) A (p ++ [k]) = zget as_ k /\ elem [K; N] B [k; j] = zget bs k) /\
    elem (pre ++ [N]) C (p ++ [j]) = Some (fold_left (fun acc ab => add acc (mul (fst ab) (snd ab))) (combine as_ bs) zero).
