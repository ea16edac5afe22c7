(** Vocabulary for softmax. *)
From Coq Require Import ZArith List Bool Arith Reals.
From Verif Require Import ShapeModel ShapeSpec TensorModel TensorSpec ReduceModel ReduceSpec.
Import ListNotations.
Open Scope R_scope.

(** The sum of [G] over the line along dimension [k] (of size [n]) through [idx]. *)
Definition line_sum (G : list nat -> R) (k n : nat) (idx : list nat) : R :=
  sum (K := Rring) (fun j => G (with_coord true k idx j)) (seq 0 n).
(** Elements at [idx] relative to all elements of its line. *)
Definition softmax_at (F : list nat -> R) (k n : nat) (idx : list nat) : R := exp (F idx) / line_sum (fun i => exp (F i)) k n idx.
(** [c] is the same all along dimension [k]. *)
Definition constant_along (k : nat) (c : list nat -> R) : Prop := forall idx j, c (with_coord true k idx j) = c idx.
