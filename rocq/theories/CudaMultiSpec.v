(** Vocabulary for drawing categories on the device. *)
From Coq Require Import List Arith ZArith Bool Reals.
From Flocq Require Import Core IEEE754.BinarySingleNaN IEEE754.Binary IEEE754.Bits.
From Verif Require Import MultiSpec.
Import ListNotations.
Open Scope R_scope.

(** What curand_uniform returns: above zero, at most one. *)
Definition in_unit_right (u : binary32) : Prop := is_finite 24 128 u = true /\ bpow radix2 (-33) <= val u <= 1.
(** A weight whose product with such a number is not rounded to zero: finite, and zero
    or from 2^-116 to 2^103 (excluded). *)
Definition plain (w : binary32) : Prop := is_finite 24 128 w = true /\ (val w = 0 \/ bpow radix2 (-116) <= val w < bpow radix2 103).
(** Draw [s] is the category in whose part of the cumulated weights the random number
    [u s], scaled by the total weight, falls; the right end of a part belongs to it. *)
Definition draws_by_weight_right (replacement : bool) (k n : nat) (W : nat -> binary32) (u : nat -> binary32) (draws : nat -> nat) : Prop :=
  forall s, (s < k)%nat -> let w := weights_at replacement W draws s in
    fsum w (draws s) < rnd32 (val (u s) * fsum w n) <= fsum w (S (draws s)).

Definition zero32 : binary32 := B754_zero 24 128 false.
(** A cumulated sum that can be used to draw from the weights l: its entries are finite,
    at least each of the weights they include, and not changed by a weight of zero. *)
Definition usable_on (scan : list binary32 -> list binary32) (l : list binary32) : Prop :=
  length (scan l) = length l /\
  forall i, (i < length l)%nat -> let entry := fun i => nth i (scan l) zero32 in
    is_finite 24 128 (entry i) = true /\
    (forall j, (j <= i)%nat -> val (nth j l zero32) <= val (entry i)) /\
    (val (nth i l zero32) = 0 -> val (entry i) = match i with O => 0 | S i' => val (entry i') end).
(** One that has the values of the sum from the left. *)
Definition from_left_on (scan : list binary32 -> list binary32) (l : list binary32) : Prop :=
  length (scan l) = length l /\
  forall i, (i < length l)%nat -> let entry := nth i (scan l) zero32 in
    is_finite 24 128 entry = true /\ val entry = fsum (fun j => val (nth j l zero32)) (S i).
(** [a] is the sum of the list, with the additions made in some order. *)
Inductive sums_to : list binary32 -> binary32 -> Prop :=
| sums_one x : sums_to [x] x
| sums_two l1 l2 a b : sums_to l1 a -> sums_to l2 b -> sums_to (l1 ++ l2) (b32_plus mode_NE a b).
(** A cumulated sum that is free in the order of its additions. *)
Definition any_order (scan : list binary32 -> list binary32) : Prop :=
  forall l, length (scan l) = length l /\ forall i, (i < length l)%nat -> sums_to (firstn (S i) l) (nth i (scan l) zero32).
(** Whole numbers, at least zero, with a sum of at most 2^24. *)
Definition counts (l : list binary32) : Prop :=
  exists zs, Forall2 (fun w z => is_finite 24 128 w = true /\ val w = IZR z /\ (0 <= z)%Z) l zs /\ (fold_right Z.add 0 zs <= 2 ^ 24)%Z.
