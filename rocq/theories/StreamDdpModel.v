(** The calls that the reducer of data-parallel training puts into a script
    (src/Distributed/Reducer.cpp), for the streams of StreamModel.  The flat
    buffer of a bucket and the gradient of a parameter are addresses; what the
    copies and the division compute is given from outside. *)
From Coq Require Import List Bool Arith.
From Verif Require Import CollModel StreamModel.
Import ListNotations.

(** How many parameters each bucket has, where things are, and the kernels of
    [narrow(...).copy_(grad)], [flatBuffer /= worldSize] and
    [grad.copy_(slice)].  Reducer.h:35-46; Reducer.cpp:109, 173, 219-231. *)
Record reducer (V : Type) := mkRed { sizes : list nat; flat : nat -> nat; gradOf : nat -> nat -> nat;
  copyIn : nat -> nat -> list V -> V; divide : nat -> list V -> V; copyOut : nat -> nat -> list V -> V }.
Arguments mkRed {V}. Arguments sizes {V}. Arguments flat {V}. Arguments gradOf {V}. Arguments copyIn {V}. Arguments divide {V}. Arguments copyOut {V}.
(** Reducer.h:40-45, 63: [readyCount], [reduceStarted] and [work] of every bucket,
    [bucketReadyCnt_], and how many collectives the process has started. *)
Record rstate := mkRS { ready : list nat; begun : list bool; work : list (option nat); bucketsReady : nat; nextWork : nat }.
(** Model only: [v[i] = x]. *)
Fixpoint put {A} (l : list A) (i : nat) (x : A) : list A := match l, i with [], _ => [] | _ :: l, 0 => x :: l | y :: l, S i => y :: put l i x end.
(** Reducer.cpp:134-141, [prepareForBackward]: every work is forgotten. *)
Definition prepare {V} (rd : reducer V) (n : nat) : rstate := mkRS (map (fun _ => 0) (sizes rd)) (map (fun _ => false) (sizes rd)) (map (fun _ => None) (sizes rd)) 0 n.
(** Reducer.cpp:165-178: for one bucket, wait, divide, copy back. *)
Definition collect {V} (rd : reducer V) (st : rstate) (b : nat) : list (hcmd V) :=
  match nth b (work st) None with
  | Some w => HWait w :: HKernel (mkK [flat rd b] (flat rd b) (divide rd b))
              :: map (fun p => HKernel (mkK [flat rd b; gradOf rd b p] (gradOf rd b p) (copyOut rd b p))) (seq 0 (nth b (sizes rd) 0))
  | None => []
  end.
(** Reducer.cpp:160-179, [checkAllBucketsReady]. *)
Definition checkAll {V} (rd : reducer V) (st : rstate) : list (hcmd V) * rstate :=
  if bucketsReady st <? length (sizes rd) then ([], st)
  else (flat_map (collect rd st) (seq 0 (length (sizes rd))), mkRS (ready st) (begun st) (map (fun _ => None) (work st)) (bucketsReady st) (nextWork st)).
(** Reducer.cpp:100-132, [onGradReady] and [reduceBucket]; [None]: a failed
    assertion. *)
Definition onGradReady {V} (rd : reducer V) (st : rstate) (b p : nat) : option (list (hcmd V) * rstate) :=
  if b <? length (sizes rd) then
    if p <? nth b (sizes rd) 0 then
      let copy := HKernel (mkK [gradOf rd b p; flat rd b] (flat rd b) (copyIn rd b p)) in
      let cnt := S (nth b (ready st) 0) in
      let st := mkRS (put (ready st) b cnt) (begun st) (work st) (bucketsReady st) (nextWork st) in
      if nth b (begun st) false then None
      else if cnt =? nth b (sizes rd) 0 then
        let st := mkRS (ready st) (put (begun st) b true) (put (work st) b (Some (nextWork st))) (S (bucketsReady st)) (S (nextWork st)) in
        let '(cs, st) := checkAll rd st in
        Some (copy :: HColl (mkC (CAllReduce SUM) (flat rd b) (flat rd b)) :: cs, st)
      else Some ([copy], st)
    else None
  else None.
(** What happens in a training script, as far as the device sees it: a kernel, a
    value read, the hook of a parameter, [forward] of the wrapper
    (DistributedModule.cpp:23-26).  Model only. *)
Inductive tev (V : Type) := TKernel (k : kernel V) | TRead (a : nat) | TReady (b p : nat) | TForward.
Arguments TKernel {V}. Arguments TRead {V}. Arguments TReady {V}. Arguments TForward {V}.
(** Model only: the calls of a training script. *)
Fixpoint training {V} (rd : reducer V) (st : rstate) (l : list (tev V)) : option (list (hcmd V) * rstate) :=
  match l with
  | [] => Some ([], st)
  | TKernel k :: l => option_map (fun r => (HKernel k :: fst r, snd r)) (training rd st l)
  | TRead a :: l => option_map (fun r => (HRead a :: fst r, snd r)) (training rd st l)
  | TForward :: l => training rd (prepare rd (nextWork st)) l
  | TReady b p :: l =>
    match onGradReady rd st b p with
    | Some (cs, st) => option_map (fun r => (cs ++ fst r, snd r)) (training rd st l)
    | None => None
    end
  end.
