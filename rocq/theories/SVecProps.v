(** C42: SmallVector behaves like a list. *)
From Coq Require Import List Bool Arith Lia.
From Verif Require Import SVecModel SVecSpec SVecProofs SVecProofs2.
Import ListNotations.

(** Every program over any number of vectors that stays within the contract of
    the list version runs without undefined behaviour, gives the same answers,
    leaves the same contents, and holds no memory once all vectors are gone; for
    every element type and every inline capacity of at least one.  Missing:
    arguments that refer into the vector being changed (refuted below). *)
Theorem svec_like_list_partial : forall (A : Type) (dflt : A) (eqb : A -> A -> bool) (N : nat), 0 < N ->
  forall prog m outs, sexecs dflt eqb none prog = Some (m, outs) ->
  exists s, execs dflt eqb N start prog = Some (s, outs) /\
    (forall v l, m v = Some l -> contents s v = Some l) /\
    ((forall v, m v = None) -> forall h, heap s h = None).
Proof.
  intros A dflt eqb N HN prog m outs H.
  destruct (execs_ok dflt eqb N HN prog start none m outs (rel_start N) H) as (s & E & R).
  exists s. split; [exact E|]. split.
  - intros v l Hv. exact (contents_ok N s m v l R Hv).
  - exact (no_leak N s m R).
Qed.

Definition demo : list (@cmd nat) :=
  [CNewList 0 [1; 2]; CPush 0 (Lit 3); CInsert 0 1 (Lit 9); CCopyNew 1 0; CMoveNew 2 0; CResize 2 6; CPush 1 (Ref 2 1);
   CGet 2 1; CSize 0; CEq 1 2; CMove 1 2; CSize 1; CGet 1 3; CResize 1 2; CCopy 0 1; CEq 0 1; CDelete 0; CDelete 1; CDelete 2].
Example svec_demo : option_map snd (sexecs 0 Nat.eqb none demo)
  = Some [ONone; ONone; ONone; ONone; ONone; ONone; ONone; OVal 9; ONat 0; OBool false; ONone; ONat 6; OVal 3; ONone; ONone; OBool true; ONone; ONone; ONone].
Proof. vm_compute. reflexivity. Qed.
Example svec_demo_run : option_map snd (execs 0 Nat.eqb 3 start demo) = option_map snd (sexecs 0 Nat.eqb none demo).
Proof. vm_compute. reflexivity. Qed.

(** push_back of an element of the same vector, when it is full: the element has
    been moved away or freed before it is read. *)
Theorem svec_push_alias_refuted : execs 0 Nat.eqb 2 start [CNewList 0 [10; 20]; CPush 0 (Ref 0 0)] = None /\
  execs 0 Nat.eqb 2 start [CNewList 0 [10; 20; 30]; CPush 0 (Ref 0 0)] = None.
Proof. split; vm_compute; reflexivity. Qed.
(** insert of an element of the same vector inserts a different one. *)
Theorem svec_insert_alias_refuted : exists s, execs 0 Nat.eqb 5 start [CNewList 0 [1; 2; 3]; CInsert 0 0 (Ref 0 1)] = Some (s, [ONone; ONone]) /\
  contents s 0 = Some [1; 1; 2; 3] /\ [1; 1; 2; 3] <> [nth 1 [1; 2; 3] 0; 1; 2; 3].
Proof. eexists. split; [vm_compute; reflexivity|]. split; [vm_compute; reflexivity|discriminate]. Qed.
Theorem svec_resize_alias_refuted : execs 0 Nat.eqb 2 start [CNewList 0 [10; 20]; CResizeFill 0 3 (Ref 0 0)] = None.
Proof. vm_compute. reflexivity. Qed.
(** Without inline storage nothing can be added. *)
Theorem svec_no_inline_refuted : execs 0 Nat.eqb 0 start [CNew 0; CPush 0 (Lit 1)] = None.
Proof. vm_compute. reflexivity. Qed.

Print Assumptions svec_like_list_partial.
Print Assumptions svec_push_alias_refuted.
Print Assumptions svec_insert_alias_refuted.
Print Assumptions svec_resize_alias_refuted.
Print Assumptions svec_no_inline_refuted.
