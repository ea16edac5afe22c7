(** C12: in-place writes never show through another tensor. *)
From Coq Require Import List Bool Arith ZArith.
From Verif Require Import TensorModel CowModel CowSpec CowProofs.
Import ListNotations.

(** Whatever is created, copied, cloned, sliced, dropped and written, every
    handle reads what it would read if each tensor owned its elements.  Missing
    from C12: the operations that write without copy-on-write, see below. *)
Theorem shared_storage_is_invisible_partial {A} : forall (ops : list (op A)) h,
  Forall isolated ops -> observe (run ops) h = value (vrun ops) h.
Proof. exact (@run_observe A). Qed.
Definition history : list (op Z) :=
  [OCreate 0 [1; 2; 3; 4]%Z; OClone 0 1; OSlice 0 2 1 2; OCopy 1 3; OSlice 2 4 1 1; OWrite 2 [20; 30]%Z; OWrite 3 [9; 8; 7; 6]%Z; OEmpty 5 2; OSlice 5 6 0 1; OWrite 6 [5]%Z; ODrop 0].
Example ex_history : Forall isolated history /\
  map (observe (run history)) (seq 0 7)
  = [None; Some (map Some [9; 8; 7; 6]%Z); Some (map Some [20; 30]%Z); Some (map Some [9; 8; 7; 6]%Z); Some [Some 3%Z]; Some [None; None]; Some [Some 5%Z]].
Proof. split; [repeat constructor|vm_compute; reflexivity]. Qed.

(** In particular a write through one tensor is not seen through another one ... *)
Theorem write_not_seen_elsewhere_partial {A} : forall (ops : list (op A)) h k d,
  Forall isolated ops -> names (vrun ops) h <> names (vrun ops) k ->
  observe (run (ops ++ [OWrite h d])) k = observe (run ops) k.
Proof. exact (@write_other A). Qed.
Example ex_write_elsewhere : let ops := [OCreate 0 [1; 2]%Z; OClone 0 1] in
  Forall isolated ops /\ names (vrun ops) 0 <> names (vrun ops) 1 /\ observe (run (ops ++ [OWrite 1 [5; 6]%Z])) 0 = Some [Some 1; Some 2]%Z.
Proof. split; [repeat constructor|]. split; [discriminate|reflexivity]. Qed.
(** ... and is seen through every handle of the same tensor. *)
Theorem write_seen_by_copies {A} : forall (ops : list (op A)) h k d l,
  Forall isolated ops -> names (vrun ops) h = names (vrun ops) k -> observe (run ops) h = Some l -> length d = length l ->
  observe (run (ops ++ [OWrite h d])) k = Some (map Some d).
Proof. exact (@write_seen A). Qed.
Example ex_write_copies : let ops := [OCreate 0 [1; 2]%Z; OCopy 0 1] in
  Forall isolated ops /\ names (vrun ops) 0 = names (vrun ops) 1 /\ observe (run ops) 0 = Some [Some 1; Some 2]%Z.
Proof. split; [repeat constructor|]. split; reflexivity. Qed.

(** copy_ (and the two other operations without copy-on-write) shows through a
    clone: b = a.clone(); b.copy_(src) overwrites a. *)
Theorem copy_isolated_refuted : exists (ops : list (op Z)) h k d,
  Forall isolated ops /\ names (vrun ops) h <> names (vrun ops) k /\
  observe (run (ops ++ [OWriteShared h d])) k <> observe (run ops) k.
Proof.
  exists [OCreate 0 [1; 2]%Z; OClone 0 1], 1, 0, [5; 6]%Z. split; [repeat constructor|]. split; [discriminate|]. vm_compute. discriminate.
Qed.

Print Assumptions shared_storage_is_invisible_partial.
Print Assumptions write_not_seen_elsewhere_partial.
Print Assumptions write_seen_by_copies.
Print Assumptions copy_isolated_refuted.
