(* Vocabulary for the CUDA minima and maxima. *)
From Coq Require Import List Arith ZArith Bool.
Import ListNotations.

(* v is the greatest element of l, and i a position where it occurs. *)
Definition some_max {A} (lt : A -> A -> bool) (l : list A) (v : A) (i : nat) : Prop :=
  nth_error l i = Some v /\ forall j x, nth_error l j = Some x -> lt v x = false.

(* v is the greatest element of l, and i the last position where it occurs. *)
Definition last_max {A} (lt : A -> A -> bool) (l : list A) (v : A) (i : nat) : Prop :=
  nth_error l i = Some v /\ forall j x, nth_error l j = Some x -> lt v x = false /\ (i < j -> lt x v = true).
