(** What a user expects of collectives that run beside the computation: the same
    as if every call were finished before the next one begins. *)
From Coq Require Import List Bool Arith Reals.
From Verif Require Import CollModel StreamModel.
Import ListNotations.

(** * Everything at once: no streams, no events, no handles *)
(** A rank by itself: the rest of its script, its memory, what it has read. *)
Notation solo V := (list (hcmd V) * ((nat -> V) * list V))%type.
(** A rank runs on until it comes to a collective; to wait for a work is nothing. *)
Fixpoint untilColl {V} (p : list (hcmd V)) (m : nat -> V) (log : list V) : solo V :=
  match p with
  | HKernel k :: p => untilColl p (fun b => if b =? kout k then kfun k (map m (kin k)) else m b) log
  | HWait _ :: p => untilColl p m log
  | HRead a :: p => untilColl p m (log ++ [m a])
  | HColl c :: _ => (p, (m, log))
  | [] => ([], (m, log))
  end.
(** All ranks are at the same collective. *)
Fixpoint heads {V} (rs : list (solo V)) : option (list coll) :=
  match rs with
  | [] => Some []
  | (HColl c :: _, _) :: rs => option_map (cons c) (heads rs)
  | _ => None
  end.
Definition agree (cs : list coll) : bool := match cs with [] => false | c :: r => forallb (fun d => if collOp_eq_dec (cop d) (cop c) then true else false) r end.
(** Each of them receives its result. *)
Fixpoint deliver {V} (sem : collOp -> nat -> list V -> V -> V) (sent : list V) (i : nat) (rs : list (solo V)) (cs : list coll) : list (solo V) :=
  match rs, cs with
  | (p, (m, log)) :: rs, c :: cs => (tl p, ((fun b => if b =? cout c then sem (cop c) i sent (m (cout c)) else m b), log)) :: deliver sem sent (S i) rs cs
  | _, _ => []
  end.
(** [n] collectives, and what lies between them. *)
Fixpoint oneByOne {V} (sem : collOp -> nat -> list V -> V -> V) (n : nat) (rs : list (solo V)) : option (list ((nat -> V) * list V)) :=
  let rs := map (fun r => untilColl (fst r) (fst (snd r)) (snd (snd r))) rs in
  match n with
  | 0 => if forallb (fun r => match fst r with [] => true | _ => false end) rs then Some (map snd rs) else None
  | S n =>
    match heads rs with
    | Some cs => if agree cs then oneByOne sem n (deliver sem (map (fun rc => fst (snd (fst rc)) (cin (snd rc))) (combine rs cs)) 0 rs cs) else None
    | None => None
    end
  end.
(** The beginning: the scripts and the memories. *)
Definition begin {V} (pms : list (list (hcmd V) * (nat -> V))) : list (solo V) := map (fun pm => (fst pm, (snd pm, []))) pms.

(** * Scripts *)
(** The collectives of a script in order. *)
Fixpoint colls {V} (p : list (hcmd V)) : list coll := match p with [] => [] | HColl c :: p => c :: colls p | _ :: p => colls p end.
(** A call that would get in the way of a collective: it writes one of the
    buffers, or it reads the receiving one. *)
Definition touches {V} (x : hcmd V) (c : coll) : Prop :=
  match x with
  | HKernel k => kout k = cin c \/ kout k = cout c \/ In (cout c) (kin k)
  | HRead a => a = cout c
  | _ => False
  end.
(** A script waits for a collective before it touches its buffers, and waits only
    for works it has got. *)
Definition waitsFirst {V} (p : list (hcmd V)) : Prop :=
  (forall a c b x d, p = a ++ HColl c :: b ++ x :: d -> touches x c -> In (HWait (length (colls a))) b) /\
  (forall a w b, p = a ++ HWait w :: b -> w < length (colls a)).
(** All scripts make the same collective calls in the same order. *)
Definition sameCalls {V} (ps : list (list (hcmd V))) : Prop := forall p q, In p ps -> In q ps -> map cop (colls p) = map cop (colls q).
(** The result of a run is that of another. *)
Definition sameResult {V} (r : rank V) (d : (nat -> V) * list V) : Prop := (forall a, memory r a = fst d a) /\ seen r = snd d.
(** How long a run can be. *)
Fixpoint calls {V} (p : list (hcmd V)) : nat := match p with [] => 0 | HColl _ :: p => 5 + calls p | HRead _ :: p => 1 + calls p | _ :: p => 2 + calls p end.
Fixpoint sum (l : list nat) : nat := match l with [] => 0 | x :: r => x + sum r end.

(** * Numbers *)
(** One reduced element, from all ranks' elements. *)
Definition reduced (op : reduceOpType) (vals : list R) : R := match getNcclReduceOp op with Some o => ncclRed o vals | None => 0%R end.
(** NCCL's results on lists of numbers: rank [i] receives them over [old]. *)
Definition ncclSem (op : collOp) (i : nat) (sent : list (list R)) (old : list R) : list R :=
  match op with
  | CBroadcast root => nth root sent []
  | CAllReduce op => map (fun k => reduced op (map (fun b => nth k b 0%R) sent)) (seq 0 (length old))
  | CReduce op root => if i =? root then map (fun k => reduced op (map (fun b => nth k b 0%R) sent)) (seq 0 (length old)) else old
  | CAllGather => concat sent ++ skipn (length (concat sent)) old
  | CReduceScatter op => map (fun k => reduced op (map (fun b => nth (i * length old + k) b 0%R) sent)) (seq 0 (length old))
  end.
(** A script that reduces the tensor at [a], waits, and reads it. *)
Definition reducing (op : reduceOpType) (a : nat) : list (hcmd (list R)) := [HColl (mkC (CAllReduce op) a a); HWait 0; HRead a].
