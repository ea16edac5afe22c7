(** The log: executions without waiting, and the calls of all threads. *)
From Coq Require Import ZArith List Bool Arith.
From Verif Require Import PrintModel.
Import ListNotations.
Open Scope nat_scope.

(** Every thread named moves. *)
Fixpoint moves (s : state) (sched : list nat) : option state := match sched with [] => Some s | i :: r => match step s i with Some s' => moves s' r | None => None end end.
(** The number of calls of the threads below [n]. *)
Fixpoint allCalls (n : nat) (calls : nat -> list (level * text)) : nat := match n with O => O | S n => List.length (calls n) + allCalls n calls end.
