(** Vocabulary for drawing categories. *)
From Coq Require Import List Arith Bool Reals.
From Flocq Require Import Core IEEE754.Binary IEEE754.Bits.
Import ListNotations.
Open Scope R_scope.

(** The real number a float stands for. *)
Definition val (w : binary32) : R := B2R 24 128 w.
(** An ordinary weight: finite, and zero or between 2^-126 (the least normal
    number, excluded) and 2^103 (excluded). *)
Definition ordinary (w : binary32) : Prop :=
  is_finite 24 128 w = true /\ (val w = 0 \/ bpow radix2 (-126) < val w < bpow radix2 103).
(** What the random generator returns. *)
Definition in_unit (u : binary32) : Prop := is_finite 24 128 u = true /\ 0 <= val u < 1.
(** The categories of positive weight among the first [n]. *)
Definition drawable (n : nat) (W : nat -> binary32) : list nat := filter (fun i => Rlt_bool 0 (val (W i))) (seq 0 n).
(** There is something left to draw in each of [k] draws. *)
Definition enough (replacement : bool) (k n : nat) (W : nat -> binary32) : Prop :=
  k = 0%nat \/ (if replacement then 1 <= length (drawable n W) else k <= length (drawable n W))%nat.
(** [draws] are valid results for the weights [W]. *)
Definition valid_draws (replacement : bool) (k n : nat) (W : nat -> binary32) (draws : nat -> nat) : Prop :=
  (forall s, s < k -> draws s < n)%nat /\ (forall s, (s < k)%nat -> 0 < val (W (draws s))) /\
  (replacement = false -> forall s s', (s < k -> s' < k -> draws s = draws s' -> s = s')%nat).
(** Sums of weights as single precision computes them, from the left. *)
Definition rnd32 (x : R) : R := round radix2 (FLT_exp (-149) 24) ZnearestE x.
Definition fsum (w : nat -> R) (i : nat) : R := fold_left (fun acc j => rnd32 (acc + w j)) (seq 0 i) 0.
(** The weights at draw [s]: without replacement, what was drawn before has none. *)
Definition weights_at (replacement : bool) (W : nat -> binary32) (draws : nat -> nat) (s : nat) : nat -> R :=
  fun i => if negb replacement && existsb (fun s' => draws s' =? i)%nat (seq 0 s) then 0 else val (W i).
(** Draw [s] is the category in whose part of the cumulated weights the random
    number [u s], scaled by the total weight, falls. *)
Definition draws_by_weight (replacement : bool) (k n : nat) (W : nat -> binary32) (u : nat -> binary32) (draws : nat -> nat) : Prop :=
  forall s, (s < k)%nat -> let w := weights_at replacement W draws s in
    fsum w (draws s) <= rnd32 (val (u s) * fsum w n) < fsum w (S (draws s)).
