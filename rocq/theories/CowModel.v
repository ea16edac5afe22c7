(** Shared storage and copy-on-write: src/Tensor/TensorImpl.cpp, Tensor.cpp,
    Storage.cpp. *)
From Coq Require Import List Bool Arith.
From Verif Require Import TensorModel.
Import ListNotations.

Section Cow.
Context {A : Type}.
(** TensorImpl.h:88-95: element count, storage offset, storage (null until it
    is needed).  Shape and strides play no role here. *)
Record impl := mkI { ilen : nat; ioff : nat; isto : option nat }.
(** The live Tensor handles (each holds a shared_ptr<TensorImpl>), the impls and
    the storages.  An element that was never written is [None].  Model only. *)
Record state := mkSt { vars : list (nat * nat); impls : nat -> impl; stores : nat -> list (option A); ni : nat; ns : nat }.
(** Model only: no tensor yet. *)
Definition init : state := mkSt [] (fun _ => mkI 0 0 None) (fun _ => []) 0 0.

(** Model only: the impl a handle holds. *)
Definition look (v : list (nat * nat)) (h : nat) : option nat :=
  match find (fun p => fst p =? h) v with Some p => Some (snd p) | None => None end.
(** Model only: a handle goes out of scope. *)
Definition unbind (v : list (nat * nat)) (h : nat) : list (nat * nat) := filter (fun p => negb (fst p =? h)) v.
(** Model only: a handle is made to hold an impl. *)
Definition bind (v : list (nat * nat)) (h i : nat) : list (nat * nat) := (h, i) :: unbind v h.
(** Model only: function update. *)
Definition upd {X} (f : nat -> X) (k : nat) (x : X) : nat -> X := fun j => if j =? k then x else f j.

(** shared_ptr<Storage>::use_count: the live impls that hold storage [s].  As
    read at TensorImpl.cpp:41. *)
Definition useCount (st : state) (s : nat) : nat :=
  length (filter (fun i => match isto (impls st i) with Some k => k =? s | None => false end)
            (nodup Nat.eq_dec (map snd (vars st)))).
(** TensorImpl.cpp:226-232, [ensureStorage] (impls without storage have offset
    0, TensorImpl.cpp:17). *)
Definition ensureStorage (st : state) (i : nat) : state :=
  let m := impls st i in
  match isto m with
  | Some _ => st
  | None => mkSt (vars st) (upd (impls st) i (mkI (ilen m) (ioff m) (Some (ns st))))
                 (upd (stores st) (ns st) (repeat None (ilen m))) (ni st) (S (ns st))
  end.
(** TensorImpl.cpp:40-46, [copyOnWrite], with Storage.cpp:28-32, [clone]. *)
Definition copyOnWrite (st : state) (i : nat) : state :=
  let st := ensureStorage st i in
  let m := impls st i in
  match isto m with
  | Some s =>
    if 1 <? useCount st s then
      mkSt (vars st) (upd (impls st) i (mkI (ilen m) (ioff m) (Some (ns st))))
           (upd (stores st) (ns st) (stores st s)) (ni st) (S (ns st))
    else st
  | None => st
  end.
(** Writing the elements through [dataPtr] (which ensures the storage).
    TensorImpl.h:45-49. *)
Definition writeElems (st : state) (i : nat) (d : list A) : state :=
  let st := ensureStorage st i in
  let m := impls st i in
  match isto m with
  | Some s =>
    let old := stores st s in
    mkSt (vars st) (impls st)
         (upd (stores st) s (firstn (ioff m) old ++ map Some d ++ skipn (ioff m + length d) old)) (ni st) (ns st)
  | None => st
  end.
(** Reading the elements: TensorImpl.h:106-117, [toList]. *)
Definition elements (st : state) (i : nat) : list (option A) :=
  let m := impls st i in
  match isto m with
  | Some s => firstn (ilen m) (skipn (ioff m) (stores st s))
  | None => repeat None (ilen m)
  end.
(** TensorImpl.h:106-117, through a handle. *)
Definition observe (st : state) (h : nat) : option (list (option A)) :=
  match look (vars st) h with Some i => Some (elements st i) | None => None end.

(** What a program does with tensors.  In-place operations are represented by
    the new contents they compute.  Model only: the lines each one stands for
    are beside it in [step]. *)
Inductive op :=
  | OEmpty (h n : nat)                  (* Tensor::empty: no storage yet *)
  | OCreate (h : nat) (d : list A)      (* tensor with given contents *)
  | OCopy (h h' : nat)                  (* h' = h: Tensor.h:31-34, same impl *)
  | ODrop (h : nat)                     (* ~Tensor *)
  | OClone (h h' : nat)                 (* h' = h.clone(), reshape, view, ... *)
  | OSlice (h h' start len : nat)       (* h' = rows of h: split/narrow, dim 0 *)
  | OTouch (h : nat)                    (* a read access allocates *)
  | OWrite (h : nat) (d : list A)       (* in-place operation *)
  | OWriteShared (h : nat) (d : list A) (* in-place operation that lacks copyOnWrite *).

(** Model only: a fresh impl held by one handle. *)
Definition newImpl (st : state) (h : nat) (m : impl) : state :=
  mkSt (bind (vars st) h (ni st)) (upd (impls st) (ni st) m) (stores st) (S (ni st)) (ns st).
(** A program error (undefined handle, wrong size) leaves the state alone.  The
    source lines are beside each case. *)
Definition step (st : state) (o : op) : state :=
  match o with
  | OEmpty h n => newImpl st h (mkI n 0 None)  (* TensorImpl.cpp:13-18 *)
  | OCreate h d =>                             (* TensorImpl.h:98-104 *)
    let st := newImpl st h (mkI (length d) 0 None) in writeElems st (ni st - 1) d
  | OCopy h h' => match look (vars st) h with
                  | Some i => mkSt (bind (vars st) h' i) (impls st) (stores st) (ni st) (ns st) | None => st end
  | ODrop h => mkSt (unbind (vars st) h) (impls st) (stores st) (ni st) (ns st)
  | OClone h h' => match look (vars st) h with   (* Tensor.cpp:125-130 *)
                   | Some i => newImpl st h' (impls st i) | None => st end
  | OSlice h h' start len =>                     (* OpTransform.cpp:155-167 *)
    match look (vars st) h with
    | Some i =>
      if start + len <=? ilen (impls st i) then
        let st := ensureStorage st i in
        let m := impls st i in
        newImpl st h' (mkI len (ioff m + start) (isto m))
      else st
    | None => st
    end
  | OTouch h => match look (vars st) h with Some i => ensureStorage st i | None => st end
  | OWrite h d =>   (* OpFillingCpu.h:14-109, OpElemWiseCpu.h:309-507, OpTransform.cpp:119-131, OpTransformCpu.h:277-298 *)
    match look (vars st) h with
    | Some i => if length d =? ilen (impls st i) then writeElems (copyOnWrite st i) i d else st
    | None => st
    end
  | OWriteShared h d =>  (* Tensor.cpp:132-138 copy_; OpTransformCpu.h:144-179; OpElemWiseCpu.h:307-315 *)
    match look (vars st) h with
    | Some i => if length d =? ilen (impls st i) then writeElems st i d else st
    | None => st
    end
  end.
(** Model only: a whole program. *)
Definition run (ops : list op) : state := fold_left step ops init.
End Cow.
Arguments state : clear implicits. Arguments op : clear implicits.
