(** C95: the ranks of a group agree on their communicators. *)
From Coq Require Import List Bool ZArith Lia.
From Verif Require Import CommModel CommSpec CommProofs.
Import ListNotations.
Open Scope Z_scope.

(** With a TCP store that nobody has used: at every moment of every schedule the n-th
    communicators of any two ranks are the same one, and no communicator is used
    twice; whatever the ranks ask for. *)
Theorem comm_ids_agree_partial asks id sched s : exec TcpKind (start fresh id asks) sched = Some s -> sameComms s /\ distinctComms s.
Proof. intros E. destruct (inv_exec _ _ _ _ _ _ (inv_start id asks) E) as (c & I). exact (inv_same _ _ _ _ I). Qed.
(** If the ranks ask for equally many different devices, then whatever the schedule,
    when nobody can go on everybody has finished, with a communicator for each
    device it asked for; and the schedule has to end. *)
Theorem comm_all_finish_partial asks id sched s m : Forall (fun l => List.length (firsts l) = m) asks -> exec TcpKind (start fresh id asks) sched = Some s ->
  (quiet TcpKind s -> finished asks s) /\ (List.length sched <= 3 * List.length (concat asks))%nat.
Proof.
  intros M E. split.
  - intros Q. destruct (inv_exec _ _ _ _ _ _ (inv_start id asks) E) as (c & I). exact (quiet_done _ _ _ _ _ I M Q).
  - apply exec_less in E. rewrite total_start in E. lia.
Qed.
Print Assumptions comm_ids_agree_partial.
Print Assumptions comm_all_finish_partial.
(** Two ranks, two devices, one of them asked for twice; rank 1 is already looking for
    the second id when rank 0 has not yet made it. *)
Definition asks2 : list (list nat) := [[0; 1; 0]; [0; 0; 1]]%nat.
Example comm_example : Forall (fun l => List.length (firsts l) = 2%nat) asks2 /\
  exists s, exec TcpKind (start fresh 7 asks2) [1; 0; 1; 1; 1; 1; 0; 0; 1; 0; 0; 1]%nat = Some s /\ finished asks2 s /\ quiet TcpKind s /\ map ids (rks s) = [[7; 8]; [7; 8]].
Proof.
  split; [repeat constructor|]. eexists. split; [vm_compute; reflexivity|]. split; [exists [7; 8]; repeat constructor|]. split; [|reflexivity]. intros [|[|[|i]]]; reflexivity.
Qed.
(** With ranks that ask for different numbers of devices somebody waits for ever. *)
Example comm_unequal_waits : exists s, exec TcpKind (start fresh 7 [[0]; [0; 1]]%nat) [0; 1; 1; 0; 1; 1]%nat = Some s /\ quiet TcpKind s /\ ~ finished [[0]; [0; 1]]%nat s.
Proof.
  eexists. split; [vm_compute; reflexivity|]. split; [intros [|[|[|i]]]; reflexivity|]. intros [sh F]. inversion F as [|? ? ? ? _ F2]; subst. inversion F2 as [|? ? ? ? (_ & H & _) _]; subst. discriminate H.
Qed.

(** With a file store it fails in two ways.  The key's file is there before the id is in
    it: a rank that looks in between reads no id and locks its own mutex for ever,
    and the others wait. *)
Theorem comm_file_store_refuted : exists s, exec FileKind (start fresh 7 [[0]; [0]]%nat) [1; 0; 1; 0]%nat = Some s /\ quiet FileKind s /\ ~ finished [[0]; [0]]%nat s /\ map ph (rks s) = [Joining 7; Dead].
Proof.
  eexists. split; [vm_compute; reflexivity|]. split; [intros [|[|[|i]]]; reflexivity|]. split; [|reflexivity]. intros [sh F]. inversion F as [|? ? ? ? (_ & H & _) _]; subst. discriminate H.
Qed.
Print Assumptions comm_file_store_refuted.
(** And nobody removes the files: in a directory used before, a rank takes the id of the
    earlier group for the new one, and both wait for ever. *)
Theorem comm_file_store_reused_refuted : exists s0 s, exec FileKind (start fresh 7 [[0]; [0]]%nat) [0; 0; 1; 1; 0; 1]%nat = Some s0 /\ finished [[0]; [0]]%nat s0 /\
  exec FileKind (start (kv s0) (nextId s0) [[0]; [0]]%nat) [1; 1; 0; 0]%nat = Some s /\ quiet FileKind s /\ ~ sameComms s.
Proof.
  eexists. eexists. split; [vm_compute; reflexivity|]. split; [exists [7]; repeat constructor|]. split; [vm_compute; reflexivity|]. split; [intros [|[|[|i]]]; reflexivity|].
  intros H. specialize (H 0%nat 1%nat _ _ 0%nat 8 7 eq_refl eq_refl eq_refl eq_refl). discriminate H.
Qed.
Print Assumptions comm_file_store_reused_refuted.
