(** Making the NCCL communicators of a group: BackendNCCL.cpp:120-150, with
    NCCLUtils.h:48-60, 67-105.  Each rank is one thread which asks for the
    communicators of some devices, one after the other, and waits for each to be
    ready, as collective does (BackendNCCL.h:152-188).  The timeouts of the stores
    and of NCCL do not run out. *)
From Coq Require Import List Bool ZArith.
Import ListNotations.
Open Scope Z_scope.

(** What a key of the store holds: an id, or fewer bytes than an id has. *)
Inductive value := Whole (id : Z) | Short.
(** The two stores of DistributedProcessGroup.cpp:132-168.  TCPStore sets a key in one
    step (C35: its operations are atomic); FileStore creates the file first and
    writes it later (FileStore.cpp:28, 72-91). *)
Inductive storeKind := TcpKind | FileKind.
(** Where a rank is.  [Getting d k]: it needs the id under the key number [k]
    (BackendNCCL.cpp:134); [Writing d k]: the file of the key is there and still
    empty; [Joining id]: waitReady (NCCLUtils.h:81-105); [Dead]: setError locks the
    mutex that getNCCLComm holds (BackendNCCL.cpp:121, 136; BackendNCCL.h:91-92). *)
Inductive phase := Idle | Writing (d : nat) (k : nat) | Getting (d : nat) (k : nat) | Joining (id : Z) | Dead.
(** A rank: the devices it will still ask for, devNCCLCommMap_ in the order of its
    making, ncclCommCounter_.  BackendNCCL.h:138-142. *)
Record rk := mkRk { todo : list nat; made : list (nat * Z); counter : nat; ph : phase }.
(** The keys nccl_unique_id_0, nccl_unique_id_1, ... of the store, the next id that
    ncclGetUniqueId gives out, the ranks. *)
Record state := mkSt { kv : nat -> option value; nextId : Z; rks : list rk }.
(** Model only. *)
Definition setKv (m : nat -> option value) (k : nat) (v : value) : nat -> option value := fun k' => if (k' =? k)%nat then Some v else m k'.
(** Model only. *)
Fixpoint setNth {A} (i : nat) (x : A) (l : list A) : list A := match l, i with [], _ => [] | _ :: r, O => x :: r | y :: r, S i => y :: setNth i x r end.
(** BackendNCCL.cpp:123-126. *)
Definition known (r : rk) (d : nat) : bool := existsb (fun p => (fst p =? d)%nat) (made r).
(** BackendNCCL.cpp:141, 147: the communicator is made and kept, and waited for. *)
Definition create (r : rk) (d : nat) (id : Z) : rk := mkRk (todo r) (made r ++ [(d, id)]) (counter r) (Joining id).
(** NCCL: a communicator is ready when every rank has joined it. *)
Definition joined (rs : list rk) (id : Z) : bool := forallb (fun r => existsb (fun p => snd p =? id) (made r)) rs.
(** The next step of rank [i]; [None]: it is finished, blocked, or dead.
    BackendNCCL.cpp:120-150. *)
Definition step (kind : storeKind) (s : state) (i : nat) : option state :=
  match nth_error (rks s) i with
  | None => None
  | Some r =>
    let put r' := setNth i r' (rks s) in
    match ph r with
    | Idle =>
      match todo r with
      | [] => None
      | d :: rest =>
        if known r d then Some (mkSt (kv s) (nextId s) (put (mkRk rest (made r) (counter r) Idle)))
        else
          let k := counter r in
          let r := mkRk rest (made r) (S k) Idle in
          match i with
          | O =>
            match kind with
            | TcpKind => Some (mkSt (setKv (kv s) k (Whole (nextId s))) (nextId s + 1) (put (create r d (nextId s))))
            | FileKind => Some (mkSt (match kv s k with None => setKv (kv s) k Short | Some _ => kv s end) (nextId s) (put (mkRk rest (made r) (S k) (Writing d k))))
            end
          | S _ => Some (mkSt (kv s) (nextId s) (put (mkRk rest (made r) (S k) (Getting d k))))
          end
      end
    | Writing d k => Some (mkSt (setKv (kv s) k (Whole (nextId s))) (nextId s + 1) (put (create r d (nextId s))))
    | Getting d k =>
      match kv s k with
      | None => None
      | Some (Whole id) => Some (mkSt (kv s) (nextId s) (put (create r d id)))
      | Some Short => Some (mkSt (kv s) (nextId s) (put (mkRk (todo r) (made r) (counter r) Dead)))
      end
    | Joining id => if joined (rks s) id then Some (mkSt (kv s) (nextId s) (put (mkRk (todo r) (made r) (counter r) Idle))) else None
    | Dead => None
    end
  end.
(** A schedule: the ranks that take the next step.  Model only. *)
Fixpoint exec (kind : storeKind) (s : state) (l : list nat) : option state :=
  match l with [] => Some s | i :: l => match step kind s i with Some s' => exec kind s' l | None => None end end.
(** The start: the store as it is, what each rank will ask for. *)
Definition start (kv : nat -> option value) (id : Z) (asks : list (list nat)) : state := mkSt kv id (map (fun l => mkRk l [] 0 Idle) asks).
(** A store that nobody has used. *)
Definition fresh : nat -> option value := fun _ => None.
