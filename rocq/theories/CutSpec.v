(** Vocabulary for cutting and joining. *)
From Coq Require Import ZArith List Bool Arith.
From Verif Require Import ShapeModel ShapeSpec TensorModel TensorSpec CutModel.
Import ListNotations.

(** The tensor [s] lies inside its storage. *)
Definition in_storage {A} (s : sten A) : Prop :=
  (0 <= soff s /\ soff s + numelZ (sshape s) <= Z.of_nat (length (sstore s)))%Z.
(** [s] (fresh or a view) is a tensor of shape [sh] with elements [F]. *)
Definition holds {A} (s : sten A) (sh : list nat) (F : list nat -> A) : Prop :=
  in_storage s /\ contents s = Some (tensor_of sh F).

(** Coordinate [dim] moved by [k]. *)
Definition shift (dim k : nat) (idx : list nat) : list nat := set_nth idx dim (nth dim idx 0 + k).
(** The elements of the piece of length [len] that starts at [start]. *)
Definition piece_shape (sh : list nat) (dim len : nat) : list nat := set_nth sh dim len.
Definition piece {A} (dim start : nat) (F : list nat -> A) : list nat -> A := fun idx => F (shift dim start idx).
(** Start of the [i]-th section. *)
Definition start_of (secs : list nat) (i : nat) : nat := list_sum (firstn i secs).
(** [ps] are the consecutive pieces of [F] of the given lengths. *)
Definition are_pieces {A} (ps : list (sten A)) (sh : list nat) (F : list nat -> A) (dim : nat) (secs : list nat) : Prop :=
  length ps = length secs
  /\ forall i p, nth_error ps i = Some p ->
       holds p (piece_shape sh dim (nth i secs 0)) (piece dim (start_of secs i) F).
(** ceil(d/n), and the piece sizes of chunk. *)
Definition ceil_div (d n : nat) : nat := (d + n - 1) / n.
Definition chunk_sizes (d n : nat) : list nat :=
  let s := ceil_div d (Nat.min n d) in repeat s (d / s) ++ (if d mod s =? 0 then [] else [d mod s]).
(** A dimension argument names dimension [k]. *)
Definition dim_is (rank : nat) (d : Z) (k : nat) : Prop :=
  k < rank /\ (d = Z.of_nat k \/ d = Z.of_nat k - Z.of_nat rank)%Z.
