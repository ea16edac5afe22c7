(** Vocabulary for row normalisation. *)
From Coq Require Import List Bool Arith Reals.
From Verif Require Import ShapeModel ShapeSpec TensorModel TensorSpec ReduceModel ReduceSpec.
Import ListNotations.
Open Scope R_scope.

(** The row through [idx]: all indices that differ from it in the last coordinate. *)
Definition row_of (n : nat) (idx : list nat) : list (list nat) := map (fun j => removelast idx ++ [j]) (seq 0 n).
Definition row_mean (F : list nat -> R) (n : nat) (idx : list nat) : R := average F (row_of n idx).
Definition row_var (F : list nat -> R) (n : nat) (idx : list nat) : R := variance false F (row_of n idx).
Definition row_mean_square (F : list nat -> R) (n : nat) (idx : list nat) : R := average (fun i => F i * F i) (row_of n idx).
(** Optional per-feature scale and shift. *)
Definition scaled (w : option (list nat -> R)) (j : nat) (x : R) : R := match w with None => x | Some w => x * w [j] end.
Definition shifted (b : option (list nat -> R)) (j : nat) (x : R) : R := match b with None => x | Some b => x + b [j] end.
Definition vector_of (n : nat) (w : option (list nat -> R)) : option (tensor R) := option_map (tensor_of [n]) w.
