(* Vocabulary for stable sorting. *)
From Coq Require Import List Bool Arith Permutation.
From Verif Require Import SampleSpec.
Import ListNotations.

(* Neither comes before the other. *)
Definition equivalent {A} (cmp : A -> A -> bool) (x y : A) : bool := negb (cmp x y) && negb (cmp y x).
(* thrust::stable_sort_by_key: sorted, and equivalent elements stay in the order they
   had.  (thrust::sort_by_key promises sort_contract only.) *)
Definition stable_contract {A} (ssort : (A -> A -> bool) -> list A -> list A) : Prop :=
  sort_contract ssort /\
  forall cmp l x, strict_weak (fun x => In x l) cmp -> In x l -> filter (equivalent cmp x) (ssort cmp l) = filter (equivalent cmp x) l.
