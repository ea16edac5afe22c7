(* Tensors in device memory. *)
From Coq Require Import List Arith ZArith Bool.
From Verif Require Import ShapeModel ShapeSpec TensorModel TensorSpec GpuModel GpuSpec.
Import ListNotations.

(* Buffer p holds the tensor of shape sh with elements F, row by row. *)
Definition has {V} (m : addr -> cell V) (p : nat) (sh : list nat) (F : list nat -> V) : Prop :=
  holds m p (map F (indices sh)).

(* Whatever the schedule, the launch changes nothing but buffer out, and leaves
   there the tensor of shape sh with elements F. *)
Definition computes {V} (l : launch V) (m : addr -> cell V) (out : nat) (sh : list nat) (F : list nat -> V) : Prop :=
  always l m (fun m' => has m' out sh F /\ same_but out m m').

(* The number of elements of a shape. *)
Definition size (sh : list nat) : nat := length (indices sh).

(* A memory given by its buffers; None is an uninitialised element. *)
Definition mem_of {V} (bufs : list (list (option V))) : addr -> cell V :=
  fun a => if (snd a <? 0)%Z then None else nth_error (nth (fst a) bufs []) (Z.to_nat (snd a)).
