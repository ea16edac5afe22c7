(** Vocabulary for sorting: the contract of the C++ library's sorting functions. *)
From Coq Require Import List Bool Arith Permutation.
Import ListNotations.

(** [cmp] is a strict weak ordering of the elements satisfying [P]: what the
    sorting functions demand of a comparison (C++17 [alg.sorting]). *)
Definition strict_weak {A} (P : A -> Prop) (cmp : A -> A -> bool) : Prop :=
  (forall x, P x -> cmp x x = false)
  /\ (forall x y z, P x -> P y -> P z -> cmp x y = true -> cmp y z = true -> cmp x z = true)
  /\ (forall x y z, P x -> P y -> P z -> cmp x y = false -> cmp y x = false -> cmp y z = false -> cmp z y = false -> cmp x z = false).
(** No element before position [k] is preceded (in the order) by a later one. *)
Definition ordered_upto {A} (cmp : A -> A -> bool) (k : nat) (l : list A) : Prop :=
  forall i j x y, i < j -> i < k -> nth_error l i = Some x -> nth_error l j = Some y -> cmp y x = false.
(** std::sort (C++17 [sort]) and std::partial_sort ([partial.sort]). *)
Definition sort_contract {A} (ssort : (A -> A -> bool) -> list A -> list A) : Prop :=
  forall cmp l, strict_weak (fun x => In x l) cmp -> Permutation (ssort cmp l) l /\ ordered_upto cmp (length l) (ssort cmp l).
Definition partial_sort_contract {A} (psort : (A -> A -> bool) -> nat -> list A -> list A) : Prop :=
  forall cmp k l, k <= length l -> strict_weak (fun x => In x l) cmp -> Permutation (psort cmp k l) l /\ ordered_upto cmp k (psort cmp k l).

(** A sorting function that meets the contract. *)
Fixpoint insert_sorted {A} (cmp : A -> A -> bool) (x : A) (l : list A) : list A :=
  match l with [] => [x] | y :: r => if cmp y x then y :: insert_sorted cmp x r else x :: l end.
Definition insertion_sort {A} (cmp : A -> A -> bool) (l : list A) : list A := fold_right (insert_sorted cmp) [] l.
