(* How a CUDA device runs one kernel launch of OpElemWiseCuda.cuh,
   OpTransformCuda.cuh, OpReduceCuda.cuh, OpNNLayerCuda.cuh and the other .cuh
   files.  The device itself is not in the repository: this machine follows the
   CUDA programming guide.

   Simplifications.  Memory is sequentially consistent: a step of one thread is
   atomic and seen by all.  Within that, every interleaving of all the threads
   of all the blocks is an execution.  Elements are addressed by buffer and
   index, not by byte.  __syncthreads() waits for the threads of the block that
   have not returned.  Shuffles have the full mask and width 32. *)
From Coq Require Import List Arith ZArith Bool.
Import ListNotations.

(* Model only: a location: a buffer (or a __shared__ array) and an index. *)
Definition addr := (nat * Z)%type.

(* Model only: equality of locations. *)
Definition addr_eqb (a b : addr) : bool := (fst a =? fst b)%nat && (snd a =? snd b)%Z.

Section Machine.
Context {V : Type}.

(* Model only: what is at a location: nothing (not allocated), an uninitialised
   element, or a value. *)
Definition cell := option (option V).

(* Model only: the rest of a thread's run, as its next access and what follows
   it.  Loads and stores of global memory, loads and stores of __shared__
   arrays, __syncthreads(), __shfl_down_sync(0xFFFFFFFF, v, d), and a failed
   assertion of the kernel or a value of the wrong type. *)
Inductive thr :=
  | Done
  | Ld (a : addr) (k : V -> thr)
  | St (a : addr) (v : V) (k : thr)
  | SLd (a : addr) (k : V -> thr)
  | SSt (a : addr) (v : V) (k : thr)
  | Sync (k : thr)
  | Shfl (v : V) (d : nat) (k : V -> thr)
  | Trap.

(* Model only: a launch kernel<<<grid, block>>>: the number of blocks, the
   threads per block, the __shared__ arrays' locations, and the program of
   thread t of block b.  Grids and blocks of more dimensions are numbered
   along their first dimension first. *)
Record launch := mkLaunch {
  grid : nat;
  bdim : nat;
  shar : addr -> bool;
  code : nat -> nat -> thr
}.

(* Model only: the memory, each block's shared memory, each thread. *)
Record state := mkState {
  mem : addr -> cell;
  shm : nat -> addr -> cell;
  pr : nat -> nat -> thr
}.

(* Model only: the memory with one location changed. *)
Definition upd {A} (m : addr -> A) (a : addr) (x : A) : addr -> A :=
  fun a' => if addr_eqb a a' then x else m a'.

(* Model only: the shared memories with one location of block b changed. *)
Definition upds {A} (m : nat -> addr -> A) (b : nat) (a : addr) (x : A) : nat -> addr -> A :=
  fun b' => if (b =? b')%nat then upd (m b) a x else m b'.

(* Model only: the threads with thread t of block b changed. *)
Definition updt (f : nat -> nat -> thr) (b t : nat) (p : thr) : nat -> nat -> thr :=
  fun b' t' => if (b =? b')%nat && (t =? t')%nat then p else f b' t'.

(* Model only: where lane t of a warp finds the value shuffled down by d; lanes
   whose source is beyond the warp keep their own. *)
Definition src (t d : nat) : nat := if (t mod 32 + d <? 32)%nat then (t + d)%nat else t.

(* Model only: what a thread goes on with when its warp shuffles. *)
Definition shuffled (f : nat -> thr) (t : nat) : thr :=
  match f t with
  | Shfl v d k => match f (src t d) with Shfl v' _ _ => k v' | _ => Trap end
  | p => p
  end.

(* Model only: what a thread goes on with when its block passes a barrier. *)
Definition released (p : thr) : thr := match p with Sync k => k | _ => p end.

(* Model only: waiting at a barrier or returned. *)
Definition quiet (p : thr) : Prop := match p with Done | Sync _ => True | _ => False end.

(* Model only: waiting at a barrier. *)
Definition waiting (p : thr) : Prop := match p with Sync _ => True | _ => False end.

(* Model only: waiting at a shuffle. *)
Definition shuffling (p : thr) : Prop := match p with Shfl _ _ _ => True | _ => False end.

(* Model only: one step: of any thread that can access memory, of any whole
   warp waiting at a shuffle, or of any block all of whose threads wait at a
   barrier or have returned. *)
Inductive step (l : launch) : state -> state -> Prop :=
  | step_ld : forall s b t a v k,
      (b < grid l)%nat -> (t < bdim l)%nat ->
      pr s b t = Ld a k -> mem s a = Some (Some v) ->
      step l s (mkState (mem s) (shm s) (updt (pr s) b t (k v)))
  | step_st : forall s b t a v k,
      (b < grid l)%nat -> (t < bdim l)%nat ->
      pr s b t = St a v k -> mem s a <> None ->
      step l s (mkState (upd (mem s) a (Some (Some v))) (shm s) (updt (pr s) b t k))
  | step_sld : forall s b t a v k,
      (b < grid l)%nat -> (t < bdim l)%nat ->
      pr s b t = SLd a k -> shm s b a = Some (Some v) ->
      step l s (mkState (mem s) (shm s) (updt (pr s) b t (k v)))
  | step_sst : forall s b t a v k,
      (b < grid l)%nat -> (t < bdim l)%nat ->
      pr s b t = SSt a v k -> shm s b a <> None ->
      step l s (mkState (mem s) (upds (shm s) b a (Some (Some v))) (updt (pr s) b t k))
  | step_shfl : forall s b w,
      (b < grid l)%nat -> (32 * w + 32 <= bdim l)%nat ->
      (forall t, (t / 32 = w)%nat -> shuffling (pr s b t)) ->
      step l s (mkState (mem s) (shm s)
                  (fun b' t => if (b =? b')%nat && (t / 32 =? w)%nat
                               then shuffled (pr s b) t else pr s b' t))
  | step_sync : forall s b,
      (b < grid l)%nat ->
      (forall t, (t < bdim l)%nat -> quiet (pr s b t)) ->
      (exists t, (t < bdim l)%nat /\ waiting (pr s b t)) ->
      step l s (mkState (mem s) (shm s)
                  (fun b' t => if (b =? b')%nat then released (pr s b t) else pr s b' t)).

(* Model only: a thread is about to do what has no defined effect: an access
   out of bounds, a load of an uninitialised element, a failed assertion. *)
Definition bad (l : launch) (s : state) : Prop :=
  exists b t, (b < grid l)%nat /\ (t < bdim l)%nat /\
    match pr s b t with
    | Ld a _ => forall v, mem s a <> Some (Some v)
    | St a _ _ => mem s a = None
    | SLd a _ => forall v, shm s b a <> Some (Some v)
    | SSt a _ _ => shm s b a = None
    | Trap => True
    | _ => False
    end.

(* Model only: every thread has returned. *)
Definition finished (l : launch) (s : state) : Prop :=
  forall b t, (b < grid l)%nat -> (t < bdim l)%nat -> pr s b t = Done.

(* Model only: the start: shared memory is uninitialised. *)
Definition start (l : launch) (m : addr -> cell) : state :=
  mkState m (fun _ a => if shar l a then Some None else None) (code l).

(* Model only: the states an execution may pass through. *)
Inductive reach (l : launch) (s : state) : state -> Prop :=
  | reach_refl : reach l s s
  | reach_step : forall s' s'', reach l s s' -> step l s' s'' -> reach l s s''.

(* Model only: the launch is accepted (CUDA_KERNEL_CHECK, CUDAUtils.h:73-81,
   aborts otherwise): at least one block, at most 2^31-1, and 1 to 1024
   threads per block. *)
Definition accepted (l : launch) : Prop :=
  (0 < grid l)%nat /\ (Z.of_nat (grid l) <= 2 ^ 31 - 1)%Z /\ (0 < bdim l <= 1024)%nat.
End Machine.

Arguments thr : clear implicits.
Arguments cell : clear implicits.
Arguments launch : clear implicits.
Arguments state : clear implicits.
