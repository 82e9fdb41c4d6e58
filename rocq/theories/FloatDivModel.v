(** Compile-time floorDiv / ceilDiv of literal index expressions, computed in
    binary64 (src/Dialect/Mlir/IndexExpr.cpp). *)
From Coq Require Import ZArith Bool.
From Flocq Require Import Core BinarySingleNaN.
Open Scope Z_scope.

Definition b64 : Type := binary_float 53 1024.
Lemma Hp53 : Prec_gt_0 53. Proof. reflexivity. Qed.
Lemma He53 : Prec_lt_emax 53 1024. Proof. reflexivity. Qed.
#[export] Existing Instances Hp53 He53.

(** [1.0 * aa.getLiteral()], IndexExpr.cpp:946: the conversion of an int64 to
    double rounds to nearest even; the product with 1.0 is exact. *)
Definition of_int (a : Z) : b64 := binary_normalize 53 1024 _ _ mode_NE a 0 false.

(** Integer part (down or up) of a finite double and its conversion to int64;
    [None] when the conversion is undefined behaviour (NaN, infinity, out of
    range). *)
Definition int64_range (z : Z) : option Z := if (- 2 ^ 63 <=? z) && (z <? 2 ^ 63) then Some z else None.
Definition floor_int (f : b64) : option Z :=
  match f with
  | B754_zero _ => Some 0
  | B754_finite s m e _ =>
      let z := if s then Zneg m else Zpos m in
      int64_range (if 0 <=? e then z * 2 ^ e else z / 2 ^ (- e))
  | _ => None
  end.
Definition ceil_int (f : b64) : option Z :=
  match f with
  | B754_zero _ => Some 0
  | B754_finite s m e _ =>
      let z := if s then Zneg m else Zpos m in
      int64_range (if 0 <=? e then z * 2 ^ e else - ((- z) / 2 ^ (- e)))
  | _ => None
  end.

(** IndexExpr.cpp:944-948, litFct of [floorDiv]. *)
Definition lit_floorDiv (a b : Z) : option Z := floor_int (Bdiv mode_NE (of_int a) (of_int b)).
(** IndexExpr.cpp:972-975, litFct of [ceilDiv]. *)
Definition lit_ceilDiv (a b : Z) : option Z := ceil_int (Bdiv mode_NE (of_int a) (of_int b)).
