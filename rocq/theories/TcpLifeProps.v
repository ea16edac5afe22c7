(** C100: the life of a TCP store. *)
From Coq Require Import List Arith ZArith Bool Lia.
From Verif Require Import TcpLifeModel TcpLifeSpec TcpLifeProofs TcpLifeProofs2.
Import ListNotations.

(** ** Construction *)

(** The constructor runs to its end exactly when the server, if it is to be one,
    can listen, one of ten attempts to connect succeeds, the registration is
    confirmed and the workers, if it is to wait for them, come. *)
Theorem construct_succeeds : forall isServer waitWorkers numWorkers e,
  snd (construct isServer waitWorkers numWorkers e) = true <->
  (isServer = true -> canListen e = true) /\ canSocket e = true /\ canResolve e = true /\
  (exists k, k < 10 /\ nth k (connects e) false = true) /\ canRegister e = true /\
  (isServer = true -> waitWorkers = true -> (0 < numWorkers)%Z -> workersCome e = true).
Proof. exact construct_iff. Qed.
(** Then calls give what the server answers, and the destructor does not throw. *)
Theorem construct_usable_partial : forall isServer waitWorkers numWorkers e s V (d v : V),
  construct isServer waitWorkers numWorkers e = (s, true) -> call s d (Some v) = Returns v /\ destroy s = Returns tt.
Proof.
  intros isS ww n e s V d v E. apply construct_good in E as [E1 E2]. unfold call, destroy. rewrite E1, E2. destruct isS; auto.
Qed.
(** A server that cannot listen: the object is there, and every use of it, its
    destruction too, crashes. *)
Theorem construct_no_listen_refuted : forall waitWorkers numWorkers e V (d : V) r, canListen e = false ->
  exists s, fst (construct true waitWorkers numWorkers e) = s /\ call s d r = Crash /\ destroy s = Crash.
Proof. intros ww n e V d r H. unfold construct. rewrite H. cbn. eexists. split; [reflexivity|]. auto. Qed.
(** A failed call cannot be told from one that succeeds with the default value;
    and a store that never connected answers every call with it. *)
Theorem failed_call_silent_refuted : forall isServer waitWorkers numWorkers e s V (d : V),
  (construct isServer waitWorkers numWorkers e = (s, true) -> call s d None = call s d (Some d)) /\
  (canListen e = true -> connect e = false -> forall r, call (fst (construct isServer waitWorkers numWorkers e)) d r = Returns d).
Proof.
  intros isS ww n e s V d. split.
  - intros E. apply construct_good in E as [E1 _]. unfold call. rewrite E1. reflexivity.
  - intros HL HC r. unfold construct. rewrite HL, HC, andb_false_r. reflexivity.
Qed.

(** ** Start-up *)

(** The wait for the workers returns true only at a moment at which so many are
    registered, and false only after the timeout, at a moment at which they are not. *)
Theorem workers_registered : forall num ls s b, (0 < num)%Z -> srun num ls sinit = Some s -> who s = WDone b ->
  exists ls1 ls2, ls = ls1 ++ Wait :: ls2 /\ if b then (num <= registered ls1)%Z else (registered ls1 < num)%Z /\ In Timeout ls1.
Proof.
  intros num ls s b Hn E W. destruct (done_when num ls b Hn s E W) as (l1 & l2 & s1 & -> & E1 & H). exists l1, l2. split; auto.
  destruct b; auto. destruct H as [H1 H2]. split; auto. apply (late_after num l1 s1 E1 H2).
Qed.
(** No wake-up is lost: while it sleeps although enough are registered, a
    registration is on its way that will wake it. *)
Theorem workers_wake : forall num ls s, srun num ls sinit = Some s -> (num <= registered ls)%Z -> who s = WAsleep ->
  exists i r, nth_error (regs s) i = Some r /\ (num <= current r)%Z /\
    (confirmed r = true -> exists s', sdo num (Finish i) s = Some s' /\ who s' = WWoken).
Proof.
  intros num ls s E H W. destruct (asleep_due num ls s E) as (i & r & N & D); [rewrite W; reflexivity|exact H|]. exists i, r. split; [exact N|]. split; [exact D|].
  intros C. destruct r as [c k]. cbn in C, D. subst k. cbn [sdo]. rewrite N. rewrite (proj2 (Z.leb_le _ _) D). rewrite W. eexists. split; reflexivity.
Qed.
Theorem workers_not_asleep : forall num ls s, srun num ls sinit = Some s -> (num <= registered ls)%Z -> regs s = [] -> who s <> WAsleep.
Proof. intros num ls s E H R W. destruct (workers_wake num ls s E H W) as (i & r & N & _). rewrite R in N. destruct i; discriminate N. Qed.
(** Workers that are gone without unregistering still count. *)
Theorem workers_present_refuted : exists ls s, srun 1 ls sinit = Some s /\ who s = WDone true /\ present ls = 0%Z /\ (forall ls1 ls2, ls = ls1 ++ Wait :: ls2 -> present ls1 = 0%Z).
Proof.
  exists [Register; Confirm 0; Finish 0; Vanish; Wait]. eexists. split; [vm_compute; reflexivity|]. split; [reflexivity|]. split; [reflexivity|]. intros l1 l2 E.
  do 4 (destruct l1 as [|? l1]; [discriminate E|]; injection E as <- E). destruct l1 as [|? l1]; [reflexivity|]. injection E as <- E. destruct l1; discriminate E.
Qed.

(** ** Connections *)

(** Whatever clients, server and the rest of the process do, as long as no
    connection is reset: a thread takes requests only from the connection it was
    started for, the server closes no connection of a client that is still there
    and has sent no unknown command, and no file of the program. *)
Theorem connections_own_partial : forall ls w, calm ls -> run ls init = To w ->
  (forall t c, In (EServe t c) (log w) -> exists f p, nth_error (threads w) t = Some (Thread f c p)) /\
  (forall c, In (EClose c) (log w) -> ~ good w c) /\ (forall f, ~ In (EFile f) (log w)).
Proof.
  intros ls w C E. pose proof (run_inv ls C w E) as I. repeat split.
  - intros t c H. exact (i9 w I _ H).
  - intros c H. apply (i9 w I _ H).
  - intros f H. exact (i9 w I _ H).
Qed.
(** Such a client is waiting to be accepted, or one thread serves it, and no other
    thread is for it. *)
Theorem connections_served_partial : forall ls w c, calm ls -> run ls init = To w -> good w c ->
  In c (queue w) \/ (exists f, lp w = LGot f c \/ lp w = LInserted f c \/ lp w = LStuck f c) \/
  exists t, serves w t c /\ forall t' f p, nth_error (threads w) t' = Some (Thread f c p) -> t' = t.
Proof.
  intros ls w c C E G. pose proof (run_inv ls C w E) as I.
  assert (K : In c (known w)) by (apply (i4 w I); apply nth_error_Some; unfold good in G; congruence). unfold known in K. rewrite !in_app_iff in K. destruct K as [K|[K|K]]; [auto| |].
  - right. left. destruct (lp w); cbn in K; try destruct K as [<-|[]]; try destruct K; eauto.
  - right. right. apply in_map_iff in K as ([f c' p] & Ec & K). cbn in Ec. subst c'. apply In_nth_error in K as [t K]. exists t.
    assert (P : p = Serving) by (destruct p; auto; exfalso; apply (i7 w I _ _ _ _ K); auto; discriminate). subst p. split.
    + exists f. split; [exact K|]. apply (i1 w I). right. exists t, Serving. split; [exact K|discriminate].
    + intros t' f' p' H. apply (one_thread w t' t _ _ _ _ _ I H K).
Qed.
(** Descriptors do not leak: one that is a connection has the accept loop or a
    thread that will close it. *)
Theorem connections_kept_partial : forall ls w f c, calm ls -> run ls init = To w -> look w f = Some (OConn c) ->
  lp w = LGot f c \/ lp w = LInserted f c \/ lp w = LStuck f c \/ exists t p, nth_error (threads w) t = Some (Thread f c p) /\ p <> Ended.
Proof.
  intros ls w f c C E L. pose proof (run_inv ls C w E) as I. apply (i2 w I) in L. destruct L as [L|L]; [|auto].
  destruct (lp w); cbn in L; try destruct L as [L|[]]; try injection L as -> ->; try destruct L; auto.
Qed.
(** After a reset, descriptors are closed twice: a thread takes the requests of a
    later client, closes the connection of one, or a file of the program. *)
Theorem reset_serves_other_refuted : exists ls w, run ls init = To w /\ In (EServe 0 1) (log w) /\ nth_error (threads w) 0 = Some (Thread 0 0 Serving).
Proof. exists [CConnect; Accept; Insert; Spawn; CReset 0; MonIn; MonVisit; MonOut; CConnect; Accept; Serve 0]. eexists. split; [vm_compute; reflexivity|]. cbn. auto. Qed.
Theorem reset_closes_other_refuted : exists ls w, run ls init = To w /\ In (EClose 1) (log w) /\ good w 1.
Proof.
  exists [CConnect; Accept; Insert; Spawn; CReset 0; Leave 0; MonIn; MonVisit; MonOut; CConnect; Accept; Insert; Spawn; Erase 0; End 0].
  eexists. split; [vm_compute; reflexivity|]. cbn. split; [auto|reflexivity].
Qed.
Theorem reset_closes_file_refuted : exists ls w f, run ls init = To w /\ In (EFile f) (log w).
Proof. exists [CConnect; Accept; Insert; Spawn; CReset 0; Leave 0; MonIn; MonVisit; MonOut; OpenFile; Erase 0; End 0]. do 2 eexists. split; [vm_compute; reflexivity|]. cbn. eauto. Qed.

(** ** Destruction *)

(** Until the store is destroyed its memory is there. *)
Theorem memory_there_partial : forall ls, ~ In Destroy ls -> run ls init <> Freed.
Proof.
  intros ls H. assert (Q : forall w, freed w = false -> run ls w <> Freed); [|apply Q; reflexivity].
  induction ls as [|l ls IH]; intros w F; cbn [run]; [discriminate|]. destruct (step l w) as [| |w1] eqn:E; [discriminate|destruct (step_not_freed l w F E)|].
  apply IH; [intros X; apply H; right; exact X|]. apply (step_keeps l w w1); auto. intros ->. apply H. left. reflexivity.
Qed.
(** Whenever it is destroyed, its threads go on: the next step of the monitor uses
    freed memory. *)
Theorem destroy_refuted : forall w, freed w = false -> exists w' l, step Destroy w = To w' /\ In l [MonIn; MonVisit; MonOut] /\ step l w' = Freed.
Proof.
  intros [tb cs q l a m ts fr lg] F. cbn in F. subst fr. exists (World tb cs q l a m ts true lg). destruct m as [|[|f fs]].
  - exists MonIn. split; [reflexivity|]. split; [cbn; auto|reflexivity].
  - exists MonOut. split; [reflexivity|]. split; [cbn; auto|reflexivity].
  - exists MonVisit. split; [reflexivity|]. split; [cbn; auto|]. cbn [step mon]. destruct (isSocketConnected _ f); reflexivity.
Qed.

(** ** The hypotheses can be met *)

Example construct_case : construct true true 2 (Sys true true true [false; false; true] true true) = (Store (Some true) (Some (true, true)), true)
  /\ construct false true 2 (Sys false true true [true] true false) = (Store None (Some (true, true)), true).
Proof. split; reflexivity. Qed.
Example workers_case : exists s, srun 2 [Wait; Sleep; Register; Confirm 0; Register; Finish 0] sinit = Some s /\ who s = WAsleep /\ registered [Wait; Sleep; Register; Confirm 0; Register; Finish 0] = 2%Z
  /\ exists s', srun 2 [Confirm 0; Finish 0; Wait; Unregister] s = Some s' /\ who s' = WDone true.
Proof. eexists. split; [vm_compute; reflexivity|]. split; [vm_compute; reflexivity|]. split; [vm_compute; reflexivity|]. eexists. split; [vm_compute; reflexivity|reflexivity]. Qed.
Example connections_case : let ls := [CConnect; CConnect; Accept; Insert; Spawn; OpenFile; Accept; MonIn; Serve 0; CClose 0; MonVisit; MonOut; Insert; Spawn; Leave 0; Serve 1; Erase 0; End 0; CConnect; Accept; Insert; Spawn; Serve 2; CRude 1; Leave 1] in
  calm ls /\ exists w, run ls init = To w /\ good w 2 /\ log w = [EServe 0 0; EServe 1 1; EClose 0; EServe 2 2] /\ tab w = [Some (OConn 2); Some OFile; Some (OConn 1)].
Proof.
  cbv zeta. split.
  - split; [|intros c]; cbn [In]; intuition discriminate.
  - eexists. split; [vm_compute; reflexivity|]. repeat split; reflexivity.
Qed.

Print Assumptions construct_succeeds.
Print Assumptions construct_usable_partial.
Print Assumptions construct_no_listen_refuted.
Print Assumptions failed_call_silent_refuted.
Print Assumptions workers_registered.
Print Assumptions workers_wake.
Print Assumptions workers_not_asleep.
Print Assumptions workers_present_refuted.
Print Assumptions connections_own_partial.
Print Assumptions connections_served_partial.
Print Assumptions connections_kept_partial.
Print Assumptions reset_serves_other_refuted.
Print Assumptions reset_closes_other_refuted.
Print Assumptions reset_closes_file_refuted.
Print Assumptions memory_there_partial.
Print Assumptions destroy_refuted.
