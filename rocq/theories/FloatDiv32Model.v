(** The division computed in binary32 by the ONNX operations Cast, Div, Ceil and Cast. *)
From Coq Require Import ZArith Bool.
From Flocq Require Import Core BinarySingleNaN.
From Verif Require Import FloatDivModel.
Open Scope Z_scope.

Definition b32 : Type := binary_float 24 128.
Lemma Hp24 : Prec_gt_0 24. Proof. reflexivity. Qed.
Lemma He24 : Prec_lt_emax 24 128. Proof. reflexivity. Qed.
#[export] Existing Instances Hp24 He24.

(** Cast of an integer to f32: rounds to nearest even. *)
Definition of_int32 (a : Z) : b32 := binary_normalize 24 128 _ _ mode_NE a 0 false.
(** Ceil of an f32 and its conversion to int64; [None]: the conversion is undefined. *)
Definition ceil_int32 (f : b32) : option Z :=
  match f with
  | B754_zero _ => Some 0
  | B754_finite s m e _ =>
      let z := if s then Zneg m else Zpos m in
      int64_range (if 0 <=? e then z * 2 ^ e else - ((- z) / 2 ^ (- e)))
  | _ => None
  end.
(** /repo/src/Dialect/ONNX/ONNXOps/Canonicalize.cpp 1000-1005. *)
Definition ceilDiv32 (a b : Z) : option Z := ceil_int32 (Bdiv mode_NE (of_int32 a) (of_int32 b)).
