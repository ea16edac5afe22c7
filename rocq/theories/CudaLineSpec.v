(* Vocabulary for the CUDA kernels that give each line or row to one block or more. *)
From Coq Require Import List Arith ZArith.
From Verif Require Import ShapeModel ShapeSpec TensorModel TensorSpec GpuModel GpuSpec CudaSpec.
Import ListNotations.

(* How many elements one index of the dimensions before and after dimension k has. *)
Definition before (sh : list nat) (k : nat) : nat := size (firstn k sh).
Definition after (sh : list nat) (k : nat) : nat := size (skipn (S k) sh).

(* Blocks per line of the gradient kernels: one up to 1024 elements, then one for
   every 1024 elements begun, but at most 16. *)
Definition blocks_per_line (n : nat) : nat := if n <=? 1024 then 1 else Nat.min 16 ((n + 1023) / 1024).

(* The grid of r blocks per line is within the limits of CUDA devices: 65535
   blocks along y and z, 2^31-1 in all here, and at least one.  Along y go the
   dimensions after k; those before it go along x for lines of at most 1024
   elements, along y or z for longer lines. *)
Definition launchable (sh : list nat) (k r : nat) : Prop :=
  (Z.of_nat (after sh k) <= 65535)%Z /\ (1024 < nth k sh 0 -> (Z.of_nat (before sh k) <= 65535)%Z) /\
  (0 < Z.of_nat (r * before sh k * after sh k) <= 2 ^ 31 - 1)%Z.
