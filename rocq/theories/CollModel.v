(** Collectives: src/Distributed/BackendNCCL.cpp, seen from all ranks at once.
    What the NCCL library does on the device is taken from its documentation
    (the [nccl...] definitions below); the asynchronous execution is not
    modelled, a call is over when it has finished on every rank. *)
From Coq Require Import List Bool Arith Reals.
From Verif Require Import ShapeModel TensorModel BcastModel.
Import ListNotations.

(** The memory of a rank: a tensor is an address, its elements the list there. *)
Notation mem := (list (list R)).
(** src/Distributed/Types.h:11-18. *)
Inductive reduceOpType := SUM | AVG | PRODUCT | MIN | MAX | UNUSED.
(** The names of the NCCL header used at BackendNCCL.cpp:206-218. *)
Inductive ncclRedOp := ncclSum | ncclProd | ncclMax | ncclMin | ncclAvg.
(** BackendNCCL.cpp:201-218; [None] is the failed assertion. *)
Definition getNcclReduceOp (op : reduceOpType) : option ncclRedOp :=
  match op with SUM => Some ncclSum | PRODUCT => Some ncclProd | MIN => Some ncclMin | MAX => Some ncclMax | AVG => Some ncclAvg | UNUSED => None end.

(** NCCL documentation: the reduction of one element over the ranks.  NCCL, not
    in the repository. *)
Definition ncclRed (op : ncclRedOp) (vals : list R) : R :=
  match vals with
  | [] => 0
  | v :: r =>
    match op with
    | ncclSum => fold_left Rplus r v
    | ncclProd => fold_left Rmult r v
    | ncclMin => fold_left Rmin r v
    | ncclMax => fold_left Rmax r v
    | ncclAvg => (fold_left Rplus r v / INR (length vals))%R
    end
  end.
(** All ranks must pass the same count; [Some n]: it is [n].  NCCL, not in the
    repository (BackendNCCL.cpp:31). *)
Definition commonCount (bufs : list (list R)) : option nat :=
  match bufs with
  | [] => None
  | b :: r => if forallb (fun c => length c =? length b) r then Some (length b) else None
  end.
(** Model only: the i-th elements of all ranks. *)
Definition column (bufs : list (list R)) (i : nat) : option (list R) := seqopt (map (fun b => rd b i) bufs).
(** Elements [from .. from+n) of the reduction.  Model only. *)
Definition reduceRange (op : ncclRedOp) (bufs : list (list R)) (from n : nat) : option (list R) :=
  tab n (fun i => obind (column bufs (from + i)) (fun vals => Some (ncclRed op vals))).

(** The buffers that the ranks pass.  Model only: the pointers given at
    BackendNCCL.cpp:19, 31, 43. *)
Definition passed (ranks : list (mem * nat)) : option (list (list R)) := seqopt (map (fun ra => rd (fst ra) (snd ra)) ranks).
(** Model only: a rank's result is written where its pointer says. *)
Definition store (ra : mem * nat) (b : list R) : option mem := wr (fst ra) (snd ra) b.
(** Every rank is in the call (UB: different counts, or bad pointers).  NCCL,
    not in the repository (BackendNCCL.cpp:13-47). *)
Definition collective (ranks : list (mem * nat)) (f : nat -> list (list R) -> option (list mem)) : res (list mem) :=
  match passed ranks with
  | None => UB
  | Some bufs => match obind (commonCount bufs) (fun n => f n bufs) with None => UB | Some ms => Ok ms end
  end.
(** BackendNCCL.cpp:13-23: in place; an invalid root is refused by NCCL. *)
Definition broadcast (root : nat) (ranks : list (mem * nat)) : res (list mem) :=
  if negb (root <? length ranks) then Fail else
  collective ranks (fun n bufs => obind (rd bufs root) (fun b => seqopt (map (fun ra => store ra b) ranks))).
(** BackendNCCL.cpp:25-35: in place. *)
Definition allReduce (op : reduceOpType) (ranks : list (mem * nat)) : res (list mem) :=
  match getNcclReduceOp op with
  | None => Fail
  | Some op => collective ranks (fun n bufs => obind (reduceRange op bufs 0 n) (fun b => seqopt (map (fun ra => store ra b) ranks)))
  end.
(** BackendNCCL.cpp:37-47: NCCL writes on the root only. *)
Definition reduce (op : reduceOpType) (root : nat) (ranks : list (mem * nat)) : res (list mem) :=
  match getNcclReduceOp op with
  | None => Fail
  | Some op =>
    if negb (root <? length ranks) then Fail else
    collective ranks (fun n bufs => obind (reduceRange op bufs 0 n) (fun b =>
      seqopt (map (fun ira => if fst ira =? root then store (snd ira) b else Some (fst (snd ira))) (combine (seq 0 (length ranks)) ranks))))
  end.

(** [op::stack] (src/Operation/OpTransform.cpp:344-385) of tensors of a rank along
    a new first dimension: a new tensor with the elements of all of them, in
    order.  Shapes are reduced to sizes. *)
Definition stackT (m : mem) (addrs : list nat) : res (mem * nat) :=
  match seqopt (map (rd m) addrs) with
  | None => UB
  | Some [] => Fail
  | Some (b :: r) => if forallb (fun c => length c =? length b) r then Ok (m ++ [concat (b :: r)], length m) else Fail
  end.
(** Model only: every rank does something that can fail. *)
Fixpoint mapRes {A B} (f : A -> res B) (l : list A) : res (list B) :=
  match l with
  | [] => Ok []
  | x :: r => match f x with Ok y => match mapRes f r with Ok ys => Ok (y :: ys) | e => e end | Fail => Fail | UB => UB end
  end.
(** A rank's arguments: its memory, the list of tensors, the single tensor.
    BackendNCCL.cpp:49-50, 64-65. *)
Record gargs := mkG { gmem : mem; gouts : list nat; gin : nat }.
(** NCCL: [recv] gets the elements of every rank's buffer, in rank order; it
    must have room for them.  NCCL as called at BackendNCCL.cpp:58. *)
Definition ncclAllGather (bufs : list (list R)) (recv : list R) : option (list R) :=
  let all := concat bufs in if length recv <? length all then None else Some (all ++ skipn (length all) recv).
(** BackendNCCL.cpp:49-62: the new memories, and per rank the output of the
    returned work.  [stack] has made a new tensor before the call. *)
Definition allGather (ranks : list gargs) : res (list mem * list nat) :=
  match mapRes (fun g => stackT (gmem g) (gouts g)) ranks with
  | UB => UB
  | Fail => Fail
  | Ok st =>
    let addrs := map snd st in
    match passed (combine (map fst st) (map gin ranks)) with
    | None => UB
    | Some bufs =>
      match obind (commonCount bufs) (fun _ =>
        seqopt (map (fun s => obind (rd (fst s) (snd s)) (fun recv => obind (ncclAllGather bufs recv) (fun b => store s b))) st)) with
      | None => UB
      | Some ms => Ok (ms, addrs)
      end
    end
  end.
(** BackendNCCL.cpp:64-79: [gouts] are the inputs, [gin] is the output; every rank
    passes [count] = size of its output, which must be the same. *)
Definition reduceScatter (op : reduceOpType) (ranks : list gargs) : res (list mem) :=
  match mapRes (fun g => stackT (gmem g) (gouts g)) ranks with
  | UB => UB
  | Fail => Fail
  | Ok st =>
    match getNcclReduceOp op with
    | None => Fail
    | Some op =>
      let outs := combine (map fst st) (map gin ranks) in
      match passed outs, passed st with
      | Some outBufs, Some inBufs =>
        match obind (commonCount outBufs) (fun n =>
          seqopt (map (fun ira => obind (reduceRange op inBufs (fst ira * n) n) (fun b => store (snd ira) b)) (combine (seq 0 (length outs)) outs))) with
        | None => UB
        | Some ms => Ok ms
        end
      | _, _ => UB
      end
    end
  end.
