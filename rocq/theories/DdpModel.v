(** Data-parallel training: src/Distributed/DistributedModule.cpp on top of the
    reducer and the optimizers, as a training script uses them
    (demo/demo_ddp.cpp:95-102, 206-208).  The optimizers are modelled element
    by element, so the elements of all parameters are numbered through. *)
From Coq Require Import List Arith Reals.
From Verif Require Import OptimModel ReducerModel.
Import ListNotations.
Open Scope nat_scope.

(** Reducer.h:35-46: parameters and elements of a bucket. *)
Definition nparams (bs : list bucket) (b : nat) : nat := match nth_error bs b with Some bk => length (bparams bk) | None => 0 end.
(** Reducer.h:38, [paramSizes]. *)
Definition psize (bs : list bucket) (b p : nat) : nat := match nth_error bs b with Some bk => nth p (bsizes bk) 0 | None => 0 end.
(** Reducer.h:39, [paramOffsets]. *)
Definition poffset (bs : list bucket) (b p : nat) : nat := match nth_error bs b with Some bk => nth p (boffsets bk) 0 | None => 0 end.
(** Model only: the number of an element of a parameter. *)
Definition slot (bs : list bucket) (b p k : nat) : nat := list_sum (map btotal (firstn b bs)) + poffset bs b p + k.
(** Model only: how many elements there are. *)
Definition nelems (bs : list bucket) : nat := list_sum (map btotal bs).
(** Model only: the elements of a parameter in order ([flatten]). *)
Definition elements (bs : list bucket) (bp : nat * nat) : list nat := map (slot bs (fst bp) (snd bp)) (seq 0 (psize bs (fst bp) (snd bp))).
(** The loops over buckets and their parameters, Reducer.cpp:83-87, 144-145, 165-166. *)
Definition places (bs : list bucket) : list (nat * nat) :=
  flat_map (fun b => map (fun p => (b, p)) (seq 0 (nparams bs b))) (seq 0 (length bs)).

(** Model only: the value in a gradient slot. *)
Definition gradOf (st : ost) (i : nat) : R := match gradH st i with Some r => heap st r | None => 0%R end.
(** What backward delivers to the parameters whose turn comes in the order
    [order]: AutogradMeta.cpp:37-43. *)
Definition deliver (bs : list bucket) (g : nat -> R) (order : list (nat * nat)) (st : ost) : ost :=
  fold_left (fun st i => addGrad i (g i) st) (flat_map (elements bs) order) st.
(** [grad.copy_(slice)], Reducer.cpp:226-229: in place, into a defined gradient. *)
Definition writeGrad (st : ost) (i : nat) (v : R) : option ost :=
  match gradH st i with Some r => Some (withHeap st (set (heap st) r v)) | None => None end.
(** Model only: all elements of one parameter. *)
Fixpoint writeGrads (st : ost) (iv : list (nat * R)) : option ost :=
  match iv with [] => Some st | (i, v) :: r => match writeGrad st i v with Some st' => writeGrads st' r | None => None end end.
(** Reducer.cpp:165-178, 219-231: the copies back into the gradients. *)
Fixpoint copyToGrads (bs : list bucket) (rs : list rank) (r : rank) (gs : nat -> nat -> list R) (l : list (nat * nat)) (st : ost) : option ost :=
  match l with
  | [] => Some st
  | (b, p) :: l =>
    match gradAfter bs rs r gs b p with
    | Some v => match writeGrads st (combine (elements bs (b, p)) v) with Some st' => copyToGrads bs rs r gs l st' | None => None end
    | None => None
    end
  end.
(** Reducer.cpp:160-163, 165-178: nothing happens unless all buckets are handed over. *)
Definition copyBack (bs : list bucket) (rs : list rank) (r : rank) (gs : nat -> nat -> list R) (st : ost) : option ost :=
  if length (issued r) <? length bs then Some st else copyToGrads bs rs r gs (places bs) st.

(** What one rank does in one iteration: the local gradients as a function of its
    parameters' values, the order in which they become ready, what the flat
    buffers contain before.  Model only. *)
Record local := mkLocal { lgrad : list R -> nat -> R; lorder : list (nat * nat); lstale : list (list R) }.
(** One iteration of the script on all ranks: set a new rate or not, zero the
    gradients or not.  Model only; demo/demo_ddp.cpp:95-102. *)
Record iter := mkIter { irate : option R; izero : bool; ilocal : list local }.
(** Model only: the parameters' values. *)
Definition values (n : nat) (st : ost) : list R := map (theta st) (seq 0 n).
(** Optimizer.h:27, [setLr]. *)
Definition setRate (x : R) (st : ost) : ost :=
  mkO (heap st) (next st) (theta st) (gradH st) (momH st) (c1 st) (c2 st) (c3 st) (stepNo st) x.
(** demo/demo_ddp.cpp:98-101: zeroGrad, forward (DistributedModule.cpp:24-27),
    backward on one rank. *)
Definition before (bs : list bucket) (it : iter) (l : local) (st : ost) : ost :=
  let st := match irate it with Some x => setRate x st | None => st end in
  let st' := if izero it then zeroGrad (nelems bs) st else st in
  deliver bs (lgrad l (values (nelems bs) st)) (lorder l) st'.
(** Reducer.cpp:16-19: the hooks receive the gradients as accumulated so far. *)
Definition hookInput (bs : list bucket) (l : local) (st : ost) : input :=
  mkInput (fun b p => map (gradOf st) (elements bs (b, p))) (lorder l) (lstale l).
(** Model only: [f] of every element, if always defined. *)
Fixpoint mapOpt {A B} (f : A -> option B) (l : list A) : option (list B) :=
  match l with
  | [] => Some []
  | x :: r => match f x, mapOpt f r with Some y, Some ys => Some (y :: ys) | _, _ => None end
  end.
(** One iteration on all ranks; [None]: an assertion fails or the collectives do
    not match.  DistributedModule.cpp:24-27, Reducer.cpp:100-179, Optimizer.h:19-23. *)
Definition ddpIter (bs : list bucket) (a : algo) (it : iter) (sts : list ost) : option (list ost) :=
  let work := map (fun ls => (fst ls, before bs it (fst ls) (snd ls))) (combine (ilocal it) sts) in
  let ins := map (fun ls => hookInput bs (fst ls) (snd ls)) work in
  match passAll bs ins with
  | None => None
  | Some rs =>
    mapOpt (fun x => let '(i, (r, ls)) := x in option_map (optStep (nelems bs) a) (copyBack bs rs r (grad i) (snd ls)))
           (combine ins (combine rs work))
  end.
(** Model only: the iterations one after the other. *)
Fixpoint ddpRun (bs : list bucket) (a : algo) (its : list iter) (sts : list ost) : option (list ost) :=
  match its with
  | [] => Some sts
  | it :: r => match ddpIter bs a it sts with Some sts' => ddpRun bs a r sts' | None => None end
  end.

(** DistributedModule.cpp:11-22: the constructor copies the root's parameters to
    all ranks.  [ini r] are the values rank [r] starts with, [junk r] what is in
    its flat buffers. *)
Definition paramInput (bs : list bucket) (th : nat -> R) (junk : list (list R)) : input :=
  mkInput (fun b p => map th (elements bs (b, p))) [] junk.
(** Model only: parameter assignments. *)
Definition putAll (th : nat -> R) (iv : list (nat * R)) : nat -> R := fold_left (fun th x => set th (fst x) (snd x)) iv th.
(** Reducer.cpp:143-158, 193-204. *)
Fixpoint copyToParams (bs : list bucket) (root me : input) (l : list (nat * nat)) (th : nat -> R) : option (nat -> R) :=
  match l with
  | [] => Some th
  | (b, p) :: l =>
    match broadcastParam bs root me b p with
    | Some v => copyToParams bs root me l (putAll th (combine (elements bs (b, p)) v))
    | None => None
    end
  end.
(** A whole run: every rank builds the distributed module, then its optimizer
    (demo/demo_ddp.cpp:206-207), then trains. *)
Definition ddpTrain (bs : list bucket) (a : algo) (lr0 : R) (root : nat) (ini : list ((nat -> R) * list (list R))) (its : list iter) : option (list ost) :=
  match nth_error ini root with
  | None => None
  | Some (th0, j0) =>
    match mapOpt (fun x => copyToParams bs (paramInput bs th0 j0) (paramInput bs (fst x) (snd x)) (places bs) (fst x)) ini with
    | None => None
    | Some ths => ddpRun bs a its (map (initSt a lr0) ths)
    end
  end.
