(* Vocabulary for rotary embedding on the GPU. *)
From Coq Require Import List Arith ZArith Reals.
From Verif Require Import RopeModel.
Import ListNotations.

(* The cosine (k = 0) or sine (k = 1) of the angle at each position, for both
   elements j and j + headDim / 2 of a pair, when pair i turns by f i per position. *)
Definition turns (headDim : nat) (f : nat -> R) (idx : list nat) : R :=
  match idx with
  | [pos; j; k] => let a := (INR pos * f (j mod (headDim / 2))%nat)%R in if (k =? 0)%nat then cos a else sin a
  | _ => 0%R
  end.

(* The sizes a launch accepts: a head has 2 to 2^32 elements; there is a position,
   and at most 2^31 - 1 of them. *)
Definition table_launchable (headDim ctx : nat) : Prop :=
  (2 <= Z.of_nat headDim <= 2 ^ 32)%Z /\ (0 < Z.of_nat ctx <= 2 ^ 31 - 1)%Z.
(* Some elements, less than 2^32, in sequences of at most 65535 * 512 positions. *)
Definition heads_launchable (B H S D : nat) : Prop :=
  (0 < Z.of_nat B * Z.of_nat H * Z.of_nat S * Z.of_nat D < 2 ^ 32)%Z /\ (Z.of_nat S <= 65535 * 512)%Z.
