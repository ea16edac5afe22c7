(** What the printed text of a floating-point number tells. *)
From Coq Require Import ZArith Reals List Bool.
From Flocq Require Import IEEE754.Binary IEEE754.Bits.
Import ListNotations.

(** Two numbers with the same sign, at most a millionth apart; or the same infinity; or NaN
    both. *)
Definition alike (x y : binary32) : Prop :=
  Bsign 24 128 x = Bsign 24 128 y /\
  (is_finite 24 128 x = true /\ is_finite 24 128 y = true /\ (Rabs (B2R 24 128 x - B2R 24 128 y) <= / 1000000)%R
   \/ is_finite 24 128 x = false /\ is_finite 24 128 y = false /\ is_nan 24 128 x = is_nan 24 128 y).
