(** What making communicators should give. *)
From Coq Require Import List Bool ZArith.
From Verif Require Import CommModel.
Import ListNotations.

(** The devices of a list, each at its first place. *)
Fixpoint firsts (l : list nat) : list nat := match l with [] => [] | d :: r => d :: filter (fun x => negb (x =? d)%nat) (firsts r) end.
(** The ids of a rank's communicators, in the order of their making. *)
Definition ids (r : rk) : list Z := map snd (made r).
Definition devices (r : rk) : list nat := map fst (made r).
(** The n-th communicators of two ranks, where both have one, are the same. *)
Definition sameComms (s : state) : Prop :=
  forall i j a b n x y, nth_error (rks s) i = Some a -> nth_error (rks s) j = Some b -> nth_error (ids a) n = Some x -> nth_error (ids b) n = Some y -> x = y.
(** Nobody shares a communicator with itself. *)
Definition distinctComms (s : state) : Prop := forall i a, nth_error (rks s) i = Some a -> NoDup (ids a).
(** No rank can go on. *)
Definition quiet (kind : storeKind) (s : state) : Prop := forall i, step kind s i = None.
(** Every rank has done all it was asked. *)
Definition finished (asks : list (list nat)) (s : state) : Prop :=
  exists shared, Forall2 (fun l r => todo r = [] /\ ph r = Idle /\ devices r = firsts l /\ ids r = shared) asks (rks s).
