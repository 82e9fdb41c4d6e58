(** Conversions between float and the 16-bit formats
    (src/Support/SmallFPConversion.c) and the runtime helpers built on them
    (src/Runtime/OMTensor.inc).  A word is an integer; floats are Flocq's binary32
    and binary64; arithmetic is IEEE, round to nearest even. *)
From Coq Require Import ZArith Bool.
From Flocq Require Import Core BinarySingleNaN Binary Bits.
Open Scope Z_scope.

Definition u16 (z : Z) : Z := z mod 2 ^ 16.
Definition u32 (z : Z) : Z := z mod 2 ^ 32.
Definition fmul (a b : binary32) : binary32 := b32_mult mode_NE a b.

(** SmallFPConversion.c:65-84, the macros. *)
Definition f32_sig_bits := 23.
Definition f32_exp_max := 255.
Definition f32_exp_bias := 127.
Definition f32_sign := 2 ^ 31.
Definition f32_inf := Z.shiftl f32_exp_max f32_sig_bits.
Definition f16_sig_bits := 10.
Definition f16_exp_max := 31.
Definition f16_exp_bias := 15.
Definition f16_sign := 2 ^ 15.
Definition f16_inf := Z.shiftl f16_exp_max f16_sig_bits.
Definition f16_qnan := Z.lor f16_inf (Z.shiftr f16_inf 1).
Definition sig_diff := f32_sig_bits - f16_sig_bits.
Definition bit_diff := 16.

(** SmallFPConversion.c:86-101 (the portable branch; the F16C and ARM branches call
    the hardware). The result is the bit pattern of the float. *)
Definition f16_to_f32 (h : Z) : Z :=
  let bias_mul := Z.shiftl (2 * f32_exp_bias - f16_exp_bias) f32_sig_bits in
  let sign := Z.land h f16_sign in
  let bits := Z.lxor h sign in
  let is_norm := bits <? f16_inf in
  let bits := Z.lor (u32 (Z.shiftl sign bit_diff)) (u32 (Z.shiftl bits sig_diff)) in
  let val := bits_of_b32 (fmul (b32_of_bits bits) (b32_of_bits bias_mul)) in
  Z.lor val (if is_norm then 0 else f32_inf).

(** SmallFPConversion.c:103-141; the argument is the bit pattern of the float.  The
    payload of a NaN product is Flocq's choice; the code does not use it. *)
Definition f32_to_f16 (f : Z) : Z :=
  let bias_mul := b32_of_bits (Z.shiftl f16_exp_bias f32_sig_bits) in
  let sign := Z.land f f32_sign in
  let bits := Z.lxor f sign in
  let is_nan := f32_inf <? bits in
  let min_norm := Z.shiftl (f32_exp_bias - f16_exp_bias + 1) f32_sig_bits in
  let sub_rnd := b32_of_bits (Z.shiftl (f16_exp_bias - sig_diff) f32_sig_bits) in
  let sub_mul := b32_of_bits (Z.shiftl (f32_exp_bias + sig_diff) f32_sig_bits) in
  let is_sub := bits <? min_norm in
  let norm_f32 := b32_of_bits bits in
  let subn_f32 := fmul norm_f32 sub_rnd in
  let subn_f32 := fmul subn_f32 sub_mul in
  let norm_f32 := fmul norm_f32 bias_mul in
  let bits := bits_of_b32 norm_f32 in
  let bits := u32 (bits + Z.land (Z.shiftr bits sig_diff) 1) in
  let bits := u32 (bits + (Z.shiftl 1 (sig_diff - 1) - 1)) in
  let bits := if is_sub then bits_of_b32 subn_f32 else bits in
  let bits := Z.shiftr bits sig_diff in
  let bits := if f16_inf <? bits then f16_inf else bits in
  let bits := if is_nan then f16_qnan else bits in
  u16 (Z.lor bits (Z.shiftr sign bit_diff)).

(** SmallFPConversion.c:148-152. *)
Definition bf16_to_f32 (h : Z) : Z := u32 (Z.shiftl h 16).

(** SmallFPConversion.c:154-163. *)
Definition f32_to_bf16 (f : Z) : Z :=
  let isnan := is_nan 24 128 (b32_of_bits f) in
  let u := u32 (f + (32767 + (if Z.land f (Z.ones 17) =? 98304 then 65536 else 0))) in
  let h := u16 (Z.shiftr u 16) in
  if (Z.land h (Z.ones 15) =? 32640) && isnan then u16 (h + 64)
  else if (Z.land h (Z.ones 15) =? 0) && isnan then u16 (h - 1)
  else h.

(** The C conversion of a double to float (an argument of type double passed to a
    float parameter): nearest even; a NaN becomes some NaN. *)
Definition double_to_float (d : binary64) : binary32 :=
  match d with
  | B754_zero _ _ s => B754_zero _ _ s
  | B754_infinity _ _ s => B754_infinity _ _ s
  | B754_nan _ _ s pl _ => B754_nan 24 128 s 4194304 eq_refl
  | B754_finite _ _ s m e _ =>
      binary_normalize 24 128 (eq_refl : Prec_gt_0 24) (eq_refl : Prec_lt_emax 24 128)
        mode_NE (if s then Zneg m else Zpos m) e s
  end.
(** OMTensor.inc:66-70. *)
Definition truncsfhf2 (f : Z) : Z := f32_to_f16 f.
Definition extendhfsf2 (h : Z) : Z := f16_to_f32 h.
Definition truncdfhf2 (d : Z) : Z := f32_to_f16 (bits_of_b32 (double_to_float (b64_of_bits d))).
