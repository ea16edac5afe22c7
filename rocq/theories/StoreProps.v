(** C35, C37, C38: the TCP store's server. *)
From Coq Require Import ZArith List Bool Arith Lia ZifyBool ZifyNat Permutation.
From Verif Require Import StoreModel StoreSpec StoreProofs StoreProofs2 StoreProofs3.
Import ListNotations.
Open Scope Z_scope.

Definition ka : key := [97].
Definition kb : key := [98].

(** ** C35 *)
(** Whatever the clients and the scheduler do, the observed invocations and
    answers are those of one map used by one client at a time. *)
Theorem store_linearizable_partial : forall acts s tr, run init acts = Some (s, tr) -> linearizable tr.
Proof. exact store_linearizable. Qed.
(** A key changed by additions only counts: in the order the operations take
    effect, every addition answers the running total. *)
Theorem store_add_totals_partial : forall acts s tr k, run init acts = Some (s, tr) ->
  (forall c o, In (EInv c o) tr -> touches k o -> exists n, o = OAdd k n) ->
  exists l, visible l = tr /\ (forall c, exists p, phases c l p) /\ (exists m, seq_run (fun _ => None) (points l) m) /\
    results k (points l) = map RInt (totals 0 (amounts k (points l))).
Proof. exact add_totals. Qed.
(** Clients adding one get distinct numbers from 1 on; once all are answered, the
    numbers are exactly 1, 2, ..., how many they are. *)
Theorem store_adders_distinct_partial : forall acts s tr k, run init acts = Some (s, tr) -> (forall c o, In (EInv c o) tr -> touches k o -> o = OAdd k 1) ->
  NoDup (answers k tr) /\ (forall r, In r (answers k tr) -> exists z, r = RInt z /\ 1 <= z <= Z.of_nat (invoked k tr)) /\
  (length (answers k tr) = invoked k tr -> Permutation (answers k tr) (map (fun i => RInt (Z.of_nat i)) (seq 1 (invoked k tr)))).
Proof. exact adders. Qed.
(** A received request is executed, except an addition to what is not a number in
    range or leads out of the range. *)
Theorem store_executes_partial : forall s c o, thr s c = Got o ->
  (forall k n, o = OAdd k n -> exists z, in64 z = true /\ in64 (z + n) = true /\ ((find (kv s) k = None \/ find (kv s) k = Some []) /\ z = 0 \/ exists v, find (kv s) k = Some v /\ reads_as v z)) ->
  exists s', act s (AExec c) = Some (s', []).
Proof. exact exec_ok. Qed.
(** Counters never bring the server down before 2^63 / A steps. *)
Theorem store_counter_executes : forall acts s tr k A c n, run init acts = Some (s, tr) -> 0 <= A ->
  (forall c o, In (AInvoke c o) acts -> touches k o -> exists n, o = OAdd k n /\ Z.abs n <= A) -> A * Z.of_nat (S (length acts)) < 2 ^ 63 ->
  thr s c = Got (OAdd k n) -> exists s', act s (AExec c) = Some (s', []).
Proof. exact counter_runs. Qed.
(** Adding to a value that is not a number ends the server: no answer, for anyone. *)
Theorem store_add_text_refuted : exists acts s tr, run init acts = Some (s, tr) /\ thr s 1%nat = Got (OAdd ka 1) /\ act s (AExec 1) = None.
Proof. exists [AInvoke 0 (OSet ka [120]); AExec 0; ARespond 0; AInvoke 1 (OAdd ka 1)]. do 2 eexists. split; [reflexivity|]. split; reflexivity. Qed.
(** So does a sum out of range. *)
Theorem store_add_overflow_refuted : exists acts s tr, run init acts = Some (s, tr) /\ thr s 1%nat = Got (OAdd ka 1) /\ act s (AExec 1) = None.
Proof. exists [AInvoke 0 (OAdd ka (2 ^ 63 - 1)); AExec 0; ARespond 0; AInvoke 1 (OAdd ka 1)]. do 2 eexists. split; [reflexivity|]. split; reflexivity. Qed.
(** Three clients, two adding, one deleting another key and counting. *)
Example store_nonvacuous :
  option_map snd (run init [AInvoke 0 (OAdd ka 1); AInvoke 1 (OAdd ka 1); AExec 1; AInvoke 2 (OSet kb []); AExec 0; AExec 2; ARespond 0; ARespond 2; AInvoke 2 (ODelete kb); ARespond 1; AExec 2; ARespond 2; AInvoke 0 ONumKeys; AExec 0; ARespond 0])
  = Some [EInv 0 (OAdd ka 1); EInv 1 (OAdd ka 1); EInv 2 (OSet kb []); ERes 0 (OAdd ka 1) (RInt 2); ERes 2 (OSet kb []) RDone; EInv 2 (ODelete kb); ERes 1 (OAdd ka 1) (RInt 1); ERes 2 (ODelete kb) (RBool true); EInv 0 ONumKeys; ERes 0 ONumKeys (RInt 1)].
Proof. vm_compute. reflexivity. Qed.
(** The specification is not satisfied by everything: an answer that skips. *)
Example not_linearizable : ~ linearizable [EInv 0 (OAdd ka 1); ERes 0 (OAdd ka 1) (RInt 2)].
Proof.
  intros (l & HV & HP & m & HS). destruct (seq_totals ka (points l) m HS) as [HR _].
  - intros o r HI HT. destruct (points_invoked l HP o r HI) as [c Hc]. rewrite HV in Hc. cbn in Hc. destruct Hc as [Hc|[Hc|[]]]; [|discriminate]. injection Hc as <- <-. eauto.
  - destruct (answers_points ka l HP) as (pend & wt & HPm & _ & _ & _ & _ & HN). rewrite HV in *. change (answers ka _) with [RInt 2] in HPm. change (invoked ka _) with 1%nat in HN.
    assert (HI : In (RInt 2) (results ka (points l))) by (eapply Permutation_in; [apply Permutation_sym; exact HPm|left; reflexivity]).
    assert (H1 : Forall (fun n => n = 1) (amounts ka (points l))).
    { apply Forall_forall. intros n Hn. apply amounts_in in Hn. destruct Hn as [r Hn]. destruct (points_invoked l HP _ _ Hn) as [c Hc]. rewrite HV in Hc. destruct Hc as [Hc|[Hc|[]]]; [|discriminate]. injection Hc as _ <-. reflexivity. }
    rewrite totals_one in HR by auto. rewrite <- results_len in HR. rewrite HR in HI. apply in_map_iff in HI. destruct HI as (z & E & HI). injection E as ->. apply in_map_iff in HI. destruct HI as (i & E & HI). apply in_seq in HI. lia.
Qed.

(** ** C37 *)
(** As long as nobody deletes a key a blocked client waits for, no client sleeps
    while all its keys are there. *)
Theorem store_no_sleep_partial : forall s c o m, reach s -> thr s c = Sleep o m -> exists k, In k (waitsFor o) /\ find (kv s) k = None.
Proof. intros s c o m H. apply (wi_sleep s (reach_wake s H)). Qed.
(** A blocked client with all its keys there is about to check, and then has its
    answer: the value, or success. *)
Theorem store_wakes_partial : forall s c o m, reach s -> isBlocked (thr s c) o m -> (forall k, In k (waitsFor o) -> find (kv s) k <> None) ->
  exists s', act s (ACheck c) = Some (s', []) /\
    match o with
    | OGet k => exists v, find (kv s) k = Some v /\ thr s' c = Done o (RValue v)
    | _ => thr s' c = Done o (RBool true)
    end.
Proof.
  intros s c o m HR HB HK. assert (E : ready s o = true) by (unfold ready; apply all_present_ok; exact HK). cbn [act].
  assert (G : exists s', Some (recheck s c o m, @nil event) = Some (s', []) /\ match o with OGet k => exists v, find (kv s) k = Some v /\ thr s' c = Done o (RValue v) | _ => thr s' c = Done o (RBool true) end).
  { eexists. split; [reflexivity|]. unfold recheck. rewrite E. unfold finish. cbn [thr withThr]. destruct o; cbn [waitsFor] in *; rewrite setThr_same; auto. destruct (find (kv s) k) as [v|] eqn:EF; [eauto|]. exfalso. apply (HK k); [left; auto|auto]. }
  destruct HB as [HB|[HB|HB]]; rewrite HB; auto. exfalso. destruct (wi_sleep s (reach_wake s HR) c o m HB) as (k & H1 & H2). apply (HK k); auto.
Qed.
(** Set, delete and set again around a waiter's check leave it asleep although the
    key is there, with nobody to wake it. *)
Theorem store_lost_wakeup_refuted : 
  option_map (fun p => (thr (fst p) 0%nat, find (kv (fst p)) ka, cvs (fst p)))
    (run init [AInvoke 0 (OWait [ka]); AExec 0; AInvoke 1 (OSet ka [1]); AExec 1; ARespond 1; AInvoke 1 (ODelete ka); AExec 1; ARespond 1; ACheck 0; AInvoke 1 (OSet ka [2]); AExec 1; ARespond 1])
  = Some (Sleep (OWait [ka]) [ka], Some [2], []).
Proof. vm_compute. reflexivity. Qed.
(** The same when the waiter was already asleep, with a get. *)
Theorem store_lost_wakeup_get_refuted : 
  option_map (fun p => (thr (fst p) 0%nat, find (kv (fst p)) ka, cvs (fst p)))
    (run init [AInvoke 0 (OGet ka); AExec 0; ACheck 0; AInvoke 1 (OSet ka [1]); AExec 1; ARespond 1; AInvoke 1 (ODelete ka); AExec 1; ARespond 1; ACheck 0; AInvoke 1 (OSet ka [2]); AExec 1; ARespond 1])
  = Some (Sleep (OGet ka) [ka], Some [2], []).
Proof. vm_compute. reflexivity. Qed.
(** Two keys, two setters; the waiter is woken. *)
Example store_wake_nonvacuous :
  option_map snd (run init [AInvoke 0 (OWait [ka; kb]); AExec 0; ACheck 0; AInvoke 1 (OSet ka [1]); AExec 1; ACheck 0; ARespond 1; AInvoke 2 (OAdd kb 4); AExec 2; ACheck 0; ARespond 0])
  = Some [EInv 0 (OWait [ka; kb]); EInv 1 (OSet ka [1]); ERes 1 (OSet ka [1]) RDone; EInv 2 (OAdd kb 4); ERes 0 (OWait [ka; kb]) (RBool true)].
Proof. vm_compute. reflexivity. Qed.
(** A state with a blocked client whose key has come. *)
Example store_wake_reach : exists s, reach s /\ isBlocked (thr s 0%nat) (OGet ka) [ka] /\ find (kv s) ka = Some [7].
Proof.
  eexists. split.
  - eapply reach_act with (a := AExec 1); [eapply reach_act with (a := AInvoke 1 (OSet ka [7])); [eapply reach_act with (a := ACheck 0); [eapply reach_act with (a := AExec 0); [eapply reach_act with (a := AInvoke 0 (OGet ka)); [exact reach_init|reflexivity|]|reflexivity|]|reflexivity|]|reflexivity|]|reflexivity|];
      intros c o m k HB HI HN; cbn in *; auto; congruence.
  - split; [right; right; reflexivity|reflexivity].
Qed.

(** ** C38 *)
(** Up to 129 connections are accepted. *)
Theorem accept_partial : forall n, (n <= 129)%nat -> acceptMany n 0 = Some n.
Proof. intros n H. rewrite accept_ok by lia. f_equal. lia. Qed.
(** With every further one the accepting thread waits for a lock it holds. *)
Theorem accept_refuted : forall n, (129 < n)%nat -> acceptMany n 0 = None.
Proof. intros n H. apply accept_stuck; lia. Qed.
Example accept_nonvacuous : acceptMany 129 0 = Some 129%nat /\ acceptMany 130 0 = None. Proof. split; reflexivity. Qed.

Print Assumptions store_linearizable_partial.
Print Assumptions store_add_totals_partial.
Print Assumptions store_adders_distinct_partial.
Print Assumptions store_executes_partial.
Print Assumptions store_counter_executes.
Print Assumptions store_no_sleep_partial.
Print Assumptions store_wakes_partial.
Print Assumptions accept_partial.
