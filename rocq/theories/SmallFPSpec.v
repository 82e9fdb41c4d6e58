(** Specification of floating-point conversions, in terms of Flocq's IEEE formats. *)
From Coq Require Import ZArith Bool Reals.
From Flocq Require Import Core BinarySingleNaN Binary Bits.
Open Scope Z_scope.

(** IEEE half precision (10 + 5 bits) and bfloat16 (7 + 8 bits). *)
Definition half := binary_float 11 16.
Definition half_of_bits : Z -> half := binary_float_of_bits 10 5 eq_refl eq_refl eq_refl.
Definition bfloat16 := binary_float 8 128.
Definition bfloat16_of_bits : Z -> bfloat16 := binary_float_of_bits 7 8 eq_refl eq_refl eq_refl.

(** [y] is the conversion of [x] to the format of precision p' and exponents up to
    e', rounding to nearest, ties to even: the sign is kept, a NaN gives a NaN, an
    infinity the same infinity, and a number its rounding, or the infinity of its sign
    if the rounding exceeds the format. *)
Definition nearest_even (p' e' : Z) (x : R) : R := round radix2 (FLT_exp (3 - e' - p') p') ZnearestE x.
Definition converts_to {p e p' e' : Z} (x : binary_float p e) (y : binary_float p' e') : Prop :=
  Bsign p' e' y = Bsign p e x /\
  match x with
  | B754_nan _ _ _ _ _ => is_nan p' e' y = true
  | B754_infinity _ _ s => y = B754_infinity p' e' s
  | _ => let r := nearest_even p' e' (B2R p e x) in
         if Rlt_bool (Rabs r) (bpow radix2 e') then is_finite p' e' y = true /\ B2R p' e' y = r
         else y = B754_infinity p' e' (Bsign p e x)
  end.
(** Conversion to a wider format: the same number. *)
Definition same_number {p e p' e' : Z} (x : binary_float p e) (y : binary_float p' e') : Prop :=
  Bsign p' e' y = Bsign p e x /\
  match x with
  | B754_nan _ _ _ _ _ => is_nan p' e' y = true
  | B754_infinity _ _ s => y = B754_infinity p' e' s
  | _ => is_finite p' e' y = true /\ B2R p' e' y = B2R p e x
  end.
