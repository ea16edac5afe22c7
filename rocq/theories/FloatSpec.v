(** The 16-bit formats and correct rounding, in terms of Flocq's IEEE formats. *)
From Coq Require Import ZArith Reals Bool.
From Flocq Require Import Core IEEE754.Binary IEEE754.Bits.
Open Scope Z_scope.

(** bfloat16: 8 bits of precision, exponents up to 128; half: 11 and 16. *)
Definition bf16 (x : Z) : binary_float 8 128 := binary_float_of_bits 7 8 eq_refl eq_refl eq_refl x.
Definition fp16 (x : Z) : binary_float 11 16 := binary_float_of_bits 10 5 eq_refl eq_refl eq_refl x.
(** Both are NaN, or both the same infinity, or the same number with the same
    sign. *)
Definition same_value {p e p' e'} (x : binary_float p e) (y : binary_float p' e') : Prop :=
  is_nan p e x = is_nan p' e' y
  /\ (is_nan p e x = false -> is_finite p e x = is_finite p' e' y /\ Bsign p e x = Bsign p' e' y /\ B2R p e x = B2R p' e' y).
(** [y] is [f] rounded to nearest, ties to even, in the format of [y] with
    gradual underflow; too large values give infinity; NaN gives NaN. *)
Definition rounded {prec emax} (f : binary32) (y : binary_float prec emax) : Prop :=
  if is_nan 24 128 f then is_nan prec emax y = true
  else
    is_nan prec emax y = false /\ Bsign prec emax y = Bsign 24 128 f
    /\ let r := round radix2 (FLT_exp (3 - emax - prec) prec) ZnearestE (B2R 24 128 f) in
       if is_finite 24 128 f && Rlt_bool (Rabs r) (bpow radix2 emax)
       then is_finite prec emax y = true /\ B2R prec emax y = r
       else is_finite prec emax y = false.
(** [x <= y] on numbers that are not NaN, with the infinities at the ends. *)
Definition below {p e} (x y : binary_float p e) : Prop :=
  if is_finite p e x
  then if is_finite p e y then (B2R p e x <= B2R p e y)%R else Bsign p e y = false
  else if is_finite p e y then Bsign p e x = true
  else if Bsign p e x then True else Bsign p e y = false.
