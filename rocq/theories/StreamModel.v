(** Collectives running beside the computation: src/Distributed/BackendNCCL.h
    (the template [collective]), WorkNCCL.cpp and the CUDA streams and events of
    src/Utils/CUDAUtils.h.  Every rank is one process with one device, which has
    a compute stream and a communication stream; the communicator exists already
    (creating it is not modelled).  What a stream, an event and a collective do
    is taken from the CUDA and NCCL documentation.  A tensor is an address, its
    elements one value of the type [V]; the script is a list of commands, so its
    control flow is fixed in advance. *)
From Coq Require Import List Bool Arith.
From Verif Require Import CollModel.
Import ListNotations.

(** A kernel launch: it reads some tensors and writes one.  CUDAUtils.h:262-264
    (CUDA_LAUNCH_KERNEL); what it computes is arbitrary. *)
Record kernel (V : Type) := mkK { kin : list nat; kout : nat; kfun : list V -> V }.
Arguments mkK {V}. Arguments kin {V}. Arguments kout {V}. Arguments kfun {V}.
(** The collectives of BackendNCCL.cpp:13-79 with the arguments that must agree
    between the ranks. *)
Inductive collOp := CBroadcast (root : nat) | CAllReduce (op : reduceOpType) | CReduce (op : reduceOpType) (root : nat) | CAllGather | CReduceScatter (op : reduceOpType).
(** Model only. *)
Definition reduceOpType_eq_dec (a b : reduceOpType) : {a = b} + {a <> b}. Proof. decide equality. Defined.
(** Model only. *)
Definition collOp_eq_dec (a b : collOp) : {a = b} + {a <> b}. Proof. decide equality; auto using Nat.eq_dec, reduceOpType_eq_dec. Defined.
(** One rank's part of a collective: the buffer it sends and the one it receives
    into (the same for those in place).  BackendNCCL.h:125 [collective(input,
    output, ...)]. *)
Record coll := mkC { cop : collOp; cin : nat; cout : nat }.

(** What the script does.  [HColl]: a collective is started, the work handles are
    numbered in the order of the calls; [HWait w]: [work->wait()] without a
    timeout; [HRead a]: [toList], [item] and the other ways to see a tensor's
    elements (Tensor/Storage.cpp:64-70).  Model only: the calls themselves. *)
Inductive hcmd (V : Type) := HKernel (k : kernel V) | HColl (c : coll) | HWait (w : nat) | HRead (a : nat).
Arguments HKernel {V}. Arguments HColl {V}. Arguments HWait {V}. Arguments HRead {V}.
(** What a stream holds: kernels, NCCL operations, cudaEventRecord and
    cudaStreamWaitEvent.  CUDA. *)
Inductive item (V : Type) := SKernel (k : kernel V) | SColl (c : coll) | SRecord (e : nat) | SWait (e : nat).
Arguments SKernel {V}. Arguments SColl {V}. Arguments SRecord {V}. Arguments SWait {V}.

(** A rank: the rest of its script; the two streams, first item first; how many
    events there are; the events already recorded (the call) and already reached
    by their stream; the events of the works in order; the memory of the device;
    the values the script has read.  BackendNCCL.h:110-121, CUDAUtils.cpp:46. *)
Record rank (V : Type) := mkR { prog : list (hcmd V); compute : list (item V); comm : list (item V); nextEv : nat;
  recorded : list nat; fired : list nat; works : list nat; memory : nat -> V; seen : list V }.
Arguments mkR {V}. Arguments prog {V}. Arguments compute {V}. Arguments comm {V}. Arguments nextEv {V}.
Arguments recorded {V}. Arguments fired {V}. Arguments works {V}. Arguments memory {V}. Arguments seen {V}.

(** Model only: the memory after a write. *)
Definition upd {V} (m : nat -> V) (a : nat) (v : V) : nat -> V := fun b => if b =? a then v else m b.
(** Model only: a list of events contains one. *)
Definition has (l : list nat) (e : nat) : bool := existsb (Nat.eqb e) l.
(** Model only: changes of one field. *)
Definition withProg {V} (r : rank V) (p : list (hcmd V)) : rank V := mkR p (compute r) (comm r) (nextEv r) (recorded r) (fired r) (works r) (memory r) (seen r).
(** Model only. *)
Definition enqueueC {V} (r : rank V) (x : item V) : rank V := mkR (prog r) (compute r ++ [x]) (comm r) (nextEv r) (recorded r) (fired r) (works r) (memory r) (seen r).
(** Model only. *)
Definition enqueueN {V} (r : rank V) (x : item V) : rank V := mkR (prog r) (compute r) (comm r ++ [x]) (nextEv r) (recorded r) (fired r) (works r) (memory r) (seen r).
(** CUDAUtils.h:187-190, a new event. *)
Definition newEvent {V} (r : rank V) : nat * rank V := (nextEv r, mkR (prog r) (compute r) (comm r) (S (nextEv r)) (recorded r) (fired r) (works r) (memory r) (seen r)).
(** Model only: the record call has been made. *)
Definition markRecorded {V} (r : rank V) (e : nat) : rank V := mkR (prog r) (compute r) (comm r) (nextEv r) (e :: recorded r) (fired r) (works r) (memory r) (seen r).
(** CUDAUtils.h:212-216, [record] on the compute or the communication stream. *)
Definition recordC {V} (r : rank V) (e : nat) : rank V := markRecorded (enqueueC r (SRecord e)) e.
(** CUDAUtils.h:212-216. *)
Definition recordN {V} (r : rank V) (e : nat) : rank V := markRecorded (enqueueN r (SRecord e)) e.
(** CUDAUtils.h:218-222, [block]: cudaStreamWaitEvent does nothing when the event
    has never been recorded. *)
Definition blockC {V} (r : rank V) (e : nat) : rank V := if has (recorded r) e then enqueueC r (SWait e) else r.
(** CUDAUtils.h:218-222. *)
Definition blockN {V} (r : rank V) (e : nat) : rank V := if has (recorded r) e then enqueueN r (SWait e) else r.
(** CUDAUtils.cpp:80-94, [ncclStream.waitStream(computeStream)]. *)
Definition waitStream {V} (r : rank V) : rank V := let '(e, r) := newEvent r in blockN (recordC r e) e.
(** BackendNCCL.h:144-151, 165-169: the new work, whose handle goes to the script. *)
Definition addWork {V} (r : rank V) (e : nat) : rank V := mkR (prog r) (compute r) (comm r) (nextEv r) (recorded r) (fired r) (works r ++ [e]) (memory r) (seen r).
(** BackendNCCL.h:124-170, [collective].  The undefined input, the errors of NCCL
    and the creation of the communicator are left out. *)
Definition startColl {V} (r : rank V) (c : coll) : rank V :=
  let r := waitStream r in
  let '(e, r) := newEvent r in
  let r := enqueueN r (SColl c) in
  addWork (recordN r e) e.
(** WorkNCCL.cpp:24-48, [wait] without a timeout: only [synchronize].  [None]: no
    such handle. *)
Definition wait {V} (r : rank V) (w : nat) : option (rank V) := match nth_error (works r) w with Some e => Some (blockC r e) | None => None end.
(** Tensor/Storage.cpp:64-70: the copy is put on the compute stream and the host
    waits until that stream is empty; [None]: it has to wait. *)
Definition hostRead {V} (r : rank V) (a : nat) : option (rank V) :=
  match compute r with
  | [] => Some (mkR (prog r) [] (comm r) (nextEv r) (recorded r) (fired r) (works r) (memory r) (seen r ++ [memory r a]))
  | _ => None
  end.
(** The script goes on by one call.  Model only. *)
Definition hostStep {V} (r : rank V) : option (rank V) :=
  match prog r with
  | [] => None
  | c :: p =>
    let r := withProg r p in
    match c with
    | HKernel k => Some (enqueueC r (SKernel k))
    | HColl c => Some (startColl r c)
    | HWait w => wait r w
    | HRead a => hostRead r a
    end
  end.

(** What a kernel does to the memory.  Model only. *)
Definition runKernel {V} (k : kernel V) (m : nat -> V) : nat -> V := upd m (kout k) (kfun k (map m (kin k))).
(** The first item of the compute stream is worked on; [None]: it has to wait (or
    is a collective, which is never put there).  CUDA. *)
Definition computeStep {V} (r : rank V) : option (rank V) :=
  match compute r with
  | SKernel k :: q => Some (mkR (prog r) q (comm r) (nextEv r) (recorded r) (fired r) (works r) (runKernel k (memory r)) (seen r))
  | SRecord e :: q => Some (mkR (prog r) q (comm r) (nextEv r) (recorded r) (e :: fired r) (works r) (memory r) (seen r))
  | SWait e :: q => if has (fired r) e then Some (mkR (prog r) q (comm r) (nextEv r) (recorded r) (fired r) (works r) (memory r) (seen r)) else None
  | _ => None
  end.
(** The same for the communication stream; its collectives need all ranks.  CUDA. *)
Definition commStep {V} (r : rank V) : option (rank V) :=
  match comm r with
  | SRecord e :: q => Some (mkR (prog r) (compute r) q (nextEv r) (recorded r) (e :: fired r) (works r) (memory r) (seen r))
  | SWait e :: q => if has (fired r) e then Some (mkR (prog r) (compute r) q (nextEv r) (recorded r) (fired r) (works r) (memory r) (seen r)) else None
  | _ => None
  end.

(** A collective finishes when it is first in the communication stream of every
    rank: the value rank [i] receives is [sem op i sent old], where [sent] are the
    buffers sent by all ranks and [old] is what was in the receiving buffer.
    [None]: some rank is not there, or the calls do not match.  NCCL. *)
Definition atColl {V} (r : rank V) : option coll := match comm r with SColl c :: _ => Some c | _ => None end.
(** NCCL: the collective that all ranks are at. *)
Fixpoint allAt {V} (rs : list (rank V)) : option (list coll) :=
  match rs with
  | [] => Some []
  | r :: rs => match atColl r, allAt rs with Some c, Some cs => Some (c :: cs) | _, _ => None end
  end.
(** NCCL: the calls match. *)
Definition sameOp (cs : list coll) : bool := match cs with [] => false | c :: r => forallb (fun d => if collOp_eq_dec (cop d) (cop c) then true else false) r end.
(** NCCL: rank [i] has received. *)
Definition received {V} (sem : collOp -> nat -> list V -> V -> V) (sent : list V) (i : nat) (r : rank V) (c : coll) : rank V :=
  mkR (prog r) (compute r) (tl (comm r)) (nextEv r) (recorded r) (fired r) (works r)
      (upd (memory r) (cout c) (sem (cop c) i sent (memory r (cout c)))) (seen r).
(** Model only: all ranks, numbered from [i]. *)
Fixpoint receiveAll {V} (sem : collOp -> nat -> list V -> V -> V) (sent : list V) (i : nat) (rs : list (rank V)) (cs : list coll) : list (rank V) :=
  match rs, cs with r :: rs, c :: cs => received sem sent i r c :: receiveAll sem sent (S i) rs cs | _, _ => [] end.
(** NCCL. *)
Definition rendezvous {V} (sem : collOp -> nat -> list V -> V -> V) (rs : list (rank V)) : option (list (rank V)) :=
  match allAt rs with
  | Some cs => if sameOp cs then Some (receiveAll sem (map (fun rc => memory (fst rc) (cin (snd rc))) (combine rs cs)) 0 rs cs) else None
  | None => None
  end.

(** Who goes on next: a script, a stream of a rank, or all communication streams
    together.  A schedule is a list of these.  Model only. *)
Inductive action := Host (i : nat) | Compute (i : nat) | Comm (i : nat) | Meet.
(** Model only: one rank moves. *)
Fixpoint onRank {V} (f : rank V -> option (rank V)) (i : nat) (rs : list (rank V)) {struct rs} : option (list (rank V)) :=
  match rs, i with
  | [], _ => None
  | r :: rs, 0 => match f r with Some r' => Some (r' :: rs) | None => None end
  | r :: rs, S i => match onRank f i rs with Some rs' => Some (r :: rs') | None => None end
  end.
(** Model only. *)
Definition step {V} (sem : collOp -> nat -> list V -> V -> V) (a : action) (rs : list (rank V)) : option (list (rank V)) :=
  match a with
  | Host i => onRank hostStep i rs
  | Compute i => onRank computeStep i rs
  | Comm i => onRank commStep i rs
  | Meet => rendezvous sem rs
  end.
(** Model only: a schedule is followed; [None]: it asks for something that has to wait. *)
Fixpoint exec {V} (sem : collOp -> nat -> list V -> V -> V) (sch : list action) (rs : list (rank V)) : option (list (rank V)) :=
  match sch with [] => Some rs | a :: sch => match step sem a rs with Some rs' => exec sem sch rs' | None => None end end.
(** Model only: the beginning. *)
Definition start1 {V} (p : list (hcmd V)) (m : nat -> V) : rank V := mkR p [] [] 0 [] [] [] m [].
(** Model only. *)
Definition start {V} (pms : list (list (hcmd V) * (nat -> V))) : list (rank V) := map (fun pm => start1 (fst pm) (snd pm)) pms.
(** Model only: nothing is left to do. *)
Definition done1 {V} (r : rank V) : Prop := prog r = [] /\ compute r = [] /\ comm r = [].

(** * Calls built from these *)
(** BackendNCCL.cpp:104-119 and DistributedProcessGroup.h:105-117, [barrier(false,
    ids)]: [t] is the new tensor {1}, [w] the handle the collective gets.  The
    operation is started as an ALL_REDUCE, so [isBarrierOp_] is false
    (BackendNCCL.h:148) and WorkNCCL.cpp:36-39 is not reached. *)
Definition barrierCalls {V} (zero : V) (t w : nat) : list (hcmd V) := [HKernel (mkK [] t (fun _ => zero)); HColl (mkC (CAllReduce SUM) t t); HWait w].
(** BackendNCCL.cpp:64-79, [reduceScatter]: [op::stack] makes the new tensor [t]
    from the inputs; it is given back to the allocator when the function returns. *)
Definition reduceScatterCalls {V} (stack : list V -> V) (op : reduceOpType) (ins : list nat) (t out : nat) : list (hcmd V) :=
  [HKernel (mkK ins t stack); HColl (mkC (CReduceScatter op) t out)].
