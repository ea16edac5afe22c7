(** Collectives that run beside the computation (C90), data-parallel training with
    them (C91), and the barrier (C92). *)
From Coq Require Import List Bool Arith Lia Reals Permutation.
From Verif Require Import CollModel CollSpec StreamModel StreamSpec StreamProofs2 StreamProofs5 StreamProofs6 StreamDdpModel StreamDdpSpec StreamDdpProofs StreamProofs7.
Import ListNotations.

(** * C90 *)
(** Scripts that wait for a collective before they touch its buffers: whenever
    everything has come to an end, under whatever schedule of the processes and
    of the streams on the devices, every memory holds and every script has read
    what it would have if each call were over before the next one began. *)
Theorem overlap_same_partial : forall V (sem : collOp -> nat -> list V -> V -> V) pms sch rs,
  (forall p, In p (map fst pms) -> waitsFirst p) -> exec sem sch (start pms) = Some rs -> Forall done1 rs ->
  exists n ds, (forall p, In p (map fst pms) -> length (colls p) = n) /\ oneByOne sem n (begin pms) = Some ds /\ Forall2 sameResult rs ds.
Proof. intros. eapply finished_same; eauto. Qed.
(** If they also make the same collective calls in the same order, nothing is ever
    stuck: every beginning of a run can be brought to its end. *)
Theorem overlap_never_stuck : forall V (sem : collOp -> nat -> list V -> V -> V) pms sch rs,
  (forall p, In p (map fst pms) -> waitsFirst p) -> sameCalls (map fst pms) -> exec sem sch (start pms) = Some rs ->
  (Forall done1 rs \/ exists a rs', step sem a rs = Some rs') /\ exists sch' rs', exec sem (sch ++ sch') (start pms) = Some rs' /\ Forall done1 rs'.
Proof. intros V sem pms sch rs W S E. split; [exact (progress sem pms sch rs W S E)|exact (completes sem pms sch rs W S E)]. Qed.
(** And no run is longer than the scripts allow. *)
Theorem overlap_runs_end : forall V (sem : collOp -> nat -> list V -> V -> V) pms sch rs,
  exec sem sch (start pms) = Some rs -> length sch <= sum (map (fun pm => calls (fst pm)) pms).
Proof. intros. eapply run_bound; eauto. Qed.
(** An allReduce that is waited for and then read: every rank sees the reduction
    of all ranks' numbers, whatever the schedule. *)
Theorem async_all_reduce : forall op a ms n sch rs, op <> UNUSED -> ms <> [] -> (forall m, In m ms -> length (m a) = n) ->
  exec ncclSem sch (start (map (fun m => (reducing op a, m)) ms)) = Some rs -> Forall done1 rs ->
  exists b, length b = n /\ (forall i, i < n -> reduction op (map (fun m => nth i (m a) 0%R) ms) (nth i b 0%R)) /\
  Forall2 (fun m r => seen r = [b] /\ forall x, memory r x = if x =? a then b else m x) ms rs.
Proof. exact reducing_all. Qed.

(** Two ranks for the examples: numbers are added up. *)
Definition addUp (op : collOp) (i : nat) (sent : list nat) (old : nat) : nat := list_sum sent.
Definition ones : nat -> nat := fun _ => 1.
Definition doneb (r : rank nat) : bool := match prog r, compute r, comm r with [], [], [] => true | _, _, _ => false end.
Lemma by_running sch pms x : (match exec addUp sch (start pms) with Some rs => (forallb doneb rs, map seen rs) | None => (false, []) end) = (true, x) ->
  exists sch rs, exec addUp sch (start pms) = Some rs /\ Forall done1 rs /\ map seen rs = x.
Proof.
  intros E. exists sch. destruct (exec addUp sch (start pms)) as [rs|]; [|discriminate]. injection E as D S. exists rs. split; [reflexivity|]. split; [|exact S].
  apply Forall_forall. intros r I. rewrite forallb_forall in D. specialize (D r I). unfold doneb in D. unfold done1. destruct (prog r), (compute r), (comm r); try discriminate. auto.
Qed.
(** reduceScatter sends a tensor of its own, which is given back when the call
    returns.  The script below only makes a new tensor in that memory (kernel on
    address 7) before it waits: one by one rank 0 reads 2, but there is a run in
    which it reads 101. *)
Definition scattering : list (hcmd nat) := reduceScatterCalls list_sum SUM [0] 7 1 ++ [HKernel (mkK [] 7 (fun _ => 100)); HWait 0; HRead 1].
Theorem reduce_scatter_refuted :
  (exists ds, oneByOne addUp 1 (begin [(scattering, ones); (scattering, ones)]) = Some ds /\ map snd ds = [[2]; [2]]) /\
  exists sch rs, exec addUp sch (start [(scattering, ones); (scattering, ones)]) = Some rs /\ Forall done1 rs /\ map seen rs = [[101]; [101]].
Proof.
  split; [eexists; split; reflexivity|].
  apply (by_running ([Host 0; Host 0; Host 0; Host 0; Host 1; Host 1; Host 1; Host 1] ++ [Compute 0; Compute 0; Compute 0; Compute 1; Compute 1; Comm 0; Comm 1; Meet; Comm 0; Comm 1; Compute 0; Compute 1; Compute 1; Host 0; Host 1])). vm_compute. reflexivity.
Qed.
(** Such a script does not wait first. *)
Theorem reduce_scatter_not_waiting : ~ waitsFirst scattering.
Proof.
  intros [W _]. specialize (W [HKernel (mkK [0] 7 list_sum)] (mkC (CReduceScatter SUM) 7 1) [] (HKernel (mkK [] 7 (fun _ => 100))) [HWait 0; HRead 1] eq_refl). cbn in W. apply W. auto.
Qed.
(** A read without a wait sees the old value in some runs. *)
Theorem no_wait_refuted : exists sch rs, exec addUp sch (start [([HColl (mkC (CAllReduce SUM) 0 0); HRead 0], ones); ([HColl (mkC (CAllReduce SUM) 0 0); HRead 0], ones)]) = Some rs /\ Forall done1 rs /\ map seen rs = [[1]; [2]].
Proof.
  apply (by_running [Host 0; Compute 0; Host 0; Host 1; Compute 1; Comm 0; Comm 1; Meet; Comm 0; Comm 1; Host 1]). vm_compute. reflexivity.
Qed.
(** The hypotheses are met: two ranks compute, start two collectives, compute on
    while they run, wait for them in the other order, and read. *)
Definition overlapping (k : nat) : list (hcmd nat) :=
  [HKernel (mkK [] 0 (fun _ => k)); HColl (mkC (CAllReduce SUM) 0 0); HKernel (mkK [1] 1 (fun l => k + list_sum l)); HColl (mkC (CAllReduce SUM) 1 2);
   HKernel (mkK [1] 3 list_sum); HWait 1; HKernel (mkK [2; 3] 3 list_sum); HWait 0; HRead 0; HRead 3].
Example overlapping_ok : waitsFirst (overlapping 5) /\ waitsFirst (overlapping 6) /\ sameCalls [overlapping 5; overlapping 6].
Proof.
  split; [eapply check_sound; reflexivity|]. split; [eapply check_sound; reflexivity|]. intros p q [<-|[<-|[]]] [<-|[<-|[]]]; reflexivity.
Qed.
Example overlapping_result : option_map (map snd) (oneByOne addUp 2 (begin [(overlapping 5, ones); (overlapping 6, ones)])) = Some [[11; 19]; [11; 20]].
Proof. reflexivity. Qed.

(** * C91 *)
(** Processes that train with the wrapper, each with buckets of its own and any
    hooks order, in as many buckets and iterations: every run can be brought to
    its end, and there it is as if each call were over before the next. *)
Theorem ddp_overlap : forall V (sem : collOp -> nat -> list V -> V -> V) n k jobs pms sch rs, Forall2 (follows n k) jobs (map fst pms) -> exec sem sch (start pms) = Some rs ->
  (exists sch' rs', exec sem (sch ++ sch') (start pms) = Some rs' /\ Forall done1 rs') /\
  (Forall done1 rs -> jobs <> [] -> exists ds, oneByOne sem (n * k) (begin pms) = Some ds /\ Forall2 sameResult rs ds).
Proof. intros V sem n k jobs pms sch rs F E. eapply ddp_same; eauto. Qed.
(** Such a process never fails, and its script waits before it touches a buffer:
    one allReduce for every bucket in every iteration. *)
Theorem ddp_script : forall V (rd : reducer V) its, ownBuffers rd -> (forall it, In it its -> iteration rd it) ->
  exists p, follows (length its) (length (sizes rd)) (rd, its) p /\ waitsFirst p /\ map cop (colls p) = repeat (CAllReduce SUM) (length its * length (sizes rd)).
Proof. intros V rd its O I. destruct (follows_exists rd its O I) as (p & F). exists p. split; [exact F|]. exact (follows_waits _ _ _ _ F). Qed.
(** A pass in which some bucket is not completed leaves works behind that are
    forgotten: the next pass writes into a buffer that is still being reduced. *)
Definition two : reducer nat := mkRed [1; 1] (fun b => b) (fun b p => 10 + b) (fun _ _ l => hd 0 l) (fun _ l => hd 0 l) (fun _ _ l => hd 0 l).
Theorem ddp_incomplete_pass_refuted : exists p st, training two (prepare two 0) (trainingRun [[TReady 0 0]; [TReady 0 0; TReady 1 0]]) = Some (p, st) /\ ~ waitsFirst p.
Proof.
  destruct (training two (prepare two 0) (trainingRun [[TReady 0 0]; [TReady 0 0; TReady 1 0]])) as [[p st]|] eqn:E; [|vm_compute in E; discriminate].
  exists p, st. split; [reflexivity|]. intros [W _]. vm_compute in E. injection E as E _. subst p.
  specialize (W [HKernel (mkK [10; 0] 0 (fun l => hd 0 l))] (mkC (CAllReduce SUM) 0 0) [] (HKernel (mkK [10; 0] 0 (fun l => hd 0 l))) _ eq_refl). cbn in W. apply W. auto.
Qed.
(** The hypotheses are met: two buckets, the second of two parameters; the hooks
    come in different orders in the two iterations. *)
Definition three : reducer nat := mkRed [1; 2] (fun b => b) (fun b p => 10 + 2 * b + p) (fun _ p l => hd 0 l + nth 1 l 0) (fun _ l => hd 0 l) (fun _ _ l => hd 0 l).
Example three_ok : ownBuffers three /\ forall it, In it [[TKernel (mkK [20] 13 (fun l => hd 0 l)); TReady 1 1; TReady 0 0; TKernel (mkK [20] 12 (fun l => hd 0 l)); TReady 1 0; TRead 10]; [TReady 1 0; TReady 1 1; TReady 0 0]] -> iteration three it.
Proof.
  split.
  - split; [|split].
    + intros n [<-|[<-|[]]]; lia.
    + cbn. auto.
    + cbn. intros; lia.
  - intros it [<-|[<-|[]]]; (split; [|split; [|split]]); cbn.
    + eapply perm_trans; [apply perm_swap|]. apply perm_skip, perm_swap.
    + intros k b [E|[E|[E|[E|[E|[E|[]]]]]]] H; try discriminate; injection E as <-; cbn; lia.
    + intros a b [E|[E|[E|[E|[E|[E|[]]]]]]] H; try discriminate; injection E as <-; lia.
    + intros [E|[E|[E|[E|[E|[E|[]]]]]]]; discriminate.
    + eapply perm_trans; [apply perm_skip, perm_swap|]. eapply perm_trans; [apply perm_swap|]. apply Permutation_refl.
    + intros k b [E|[E|[E|[]]]] H; discriminate.
    + intros a b [E|[E|[E|[]]]] H; discriminate.
    + intros [E|[E|[E|[]]]]; discriminate.
Qed.

(** * C92 *)
(** A rank that has gone past [work.wait()] and has then read a tensor (any) knows
    that every rank has started that collective. *)
Theorem waited_and_read_partial : forall V (sem : collOp -> nat -> list V -> V -> V) pms sch rs i p r x w y a z,
  exec sem sch (start pms) = Some rs -> nth_error (map fst pms) i = Some p -> nth_error rs i = Some r -> p = (x ++ HWait w :: y ++ HRead a :: z) ++ prog r ->
  forall j q s, nth_error (map fst pms) j = Some q -> nth_error rs j = Some s -> w < length (colls q) - length (colls (prog s)).
Proof. exact (fun V sem => waited_everywhere sem). Qed.
(** The barrier by itself holds nobody back: the first rank is past it while the
    second has done nothing. *)
Theorem barrier_refuted : forall V (sem : collOp -> nat -> list V -> V -> V) zero t p q m m',
  exists rs r s, exec sem [Host 0; Host 0; Host 0] (start [(barrierCalls zero t 0 ++ p, m); (q, m')]) = Some rs /\ nth_error rs 0 = Some r /\ nth_error rs 1 = Some s /\ prog r = p /\ s = start1 q m'.
Proof.
  intros V sem zero t p q m m'. pose (e := exec sem [Host 0; Host 0; Host 0] (start [(barrierCalls zero t 0 ++ p, m); (q, m')])). change (exec sem _ _) with e.
  assert (E : e = match e with Some (r :: _) => Some [r; start1 q m'] | _ => None end) by (vm_compute; reflexivity).
  assert (P : match e with Some (r :: _) => prog r = p | _ => False end) by (vm_compute; reflexivity).
  destruct e as [[|r rs]|]; try contradiction. injection E as ->. exists [r; start1 q m'], r, (start1 q m'). repeat split. exact P.
Qed.
(** The hypotheses are met: a run in which rank 0 is past a barrier and a read. *)
Example barrier_and_read : exists sch rs, exec addUp sch (start [(barrierCalls 0 7 0 ++ [HRead 3], ones); (barrierCalls 0 7 0, ones)]) = Some rs /\ Forall done1 rs /\ map seen rs = [[1]; []].
Proof.
  apply (by_running [Host 0; Host 0; Host 0; Compute 0; Compute 0; Comm 0; Host 1; Host 1; Host 1; Compute 1; Compute 1; Comm 1; Meet; Comm 0; Compute 0; Comm 1; Compute 1; Host 0]). vm_compute. reflexivity.
Qed.
Print Assumptions overlap_same_partial.
Print Assumptions overlap_never_stuck.
Print Assumptions overlap_runs_end.
Print Assumptions async_all_reduce.
Print Assumptions reduce_scatter_refuted.
Print Assumptions reduce_scatter_not_waiting.
Print Assumptions no_wait_refuted.
Print Assumptions ddp_overlap.
Print Assumptions ddp_script.
Print Assumptions ddp_incomplete_pass_refuted.
Print Assumptions waited_and_read_partial.
Print Assumptions barrier_refuted.
