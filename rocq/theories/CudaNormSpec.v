(* Vocabulary for row normalisation on the GPU. *)
From Coq Require Import List Arith ZArith Reals.
From Verif Require Import ShapeModel ShapeSpec GpuModel GpuSpec CudaSpec.
Import ListNotations.

(* How many rows a tensor has: one for every choice of all coordinates but the last. *)
Definition rows (sh : list nat) : nat := size (removelast sh).
(* One block per row is within what CUDA accepts. *)
Definition rows_launchable (sh : list nat) : Prop := (0 < Z.of_nat (rows sh) <= 2 ^ 31 - 1)%Z.

(* An optional vector of n numbers in storage other than out. *)
Definition vector_in (m : addr -> cell R) (out n : nat) (q : option nat) (f : option (list nat -> R)) : Prop :=
  match q, f with
  | None, None => True
  | Some q, Some f => q <> out /\ has m q [n] f
  | _, _ => False
  end.
