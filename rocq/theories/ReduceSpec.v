(** Vocabulary for reductions. *)
From Coq Require Import ZArith List Bool Arith Reals.
From Verif Require Import ShapeModel ShapeSpec TensorModel TensorSpec BcastSpec CutSpec ReduceModel.
Import ListNotations.

(** [ax] marks exactly the dimensions named in [dims] (negative ones count from
    the end), all of which exist. *)
Definition axes_named (rank : nat) (dims : list Z) (ax : list bool) : Prop :=
  length ax = rank /\ (forall d, In d dims -> exists k, dim_is rank d k)
  /\ forall k, nth k ax false = true <-> exists d, In d dims /\ dim_is rank d k.
(** The input indices that are reduced into output index [ridx]: those whose
    unmarked coordinates are the ones of [ridx]. *)
Definition group (ax : list bool) (keepDims : bool) (sh ridx : list nat) : list (list nat) :=
  filter (fun idx => same_idx (reduced_idx ax keepDims idx) ridx) (indices sh).

Definition average {I} (F : I -> R) (l : list I) : R := (sum (K := Rring) F l / INR (length l))%R.
(** Variance of a finite population, or with Bessel's correction. *)
Definition variance {I} (unbiased : bool) (F : I -> R) (l : list I) : R :=
  (sum (K := Rring) (fun i => (F i - average F l) * (F i - average F l))%R l
   / (if unbiased then INR (length l) - 1 else INR (length l)))%R.

(** Strict total order given by a boolean comparison. *)
Definition total_order {A} (lt : A -> A -> bool) : Prop :=
  (forall x, lt x x = false) /\ (forall x y z, lt x y = true -> lt y z = true -> lt x z = true)
  /\ (forall x y, lt x y = false -> lt y x = false -> x = y).
(** [v] is the greatest element of [l], and [i] the first position where it
    occurs.  For the least element take the reversed order. *)
Definition first_max {A} (lt : A -> A -> bool) (l : list A) (v : A) (i : nat) : Prop :=
  nth_error l i = Some v
  /\ forall j x, nth_error l j = Some x -> lt v x = false /\ (j < i -> lt x v = true).
Definition flip {A} (lt : A -> A -> bool) : A -> A -> bool := fun a b => lt b a.
(** The elements with coordinate 0, 1, .. in dimension [k] and the coordinates
    of [ridx] in the others. *)
Definition with_coord (keepDims : bool) (k : nat) (ridx : list nat) (j : nat) : list nat :=
  if keepDims then set_nth ridx k j else firstn k ridx ++ j :: skipn k ridx.
Definition line {A} (F : list nat -> A) (keepDims : bool) (k n : nat) (ridx : list nat) : list A :=
  map (fun j => F (with_coord keepDims k ridx j)) (seq 0 n).
Definition without_dim (keepDims : bool) (k : nat) (sh : list nat) : list nat :=
  if keepDims then set_nth sh k 1 else firstn k sh ++ skipn (S k) sh.
