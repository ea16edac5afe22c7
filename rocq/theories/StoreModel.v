(** The TCP store's server: src/Distributed/TCPStore.cpp.
    One thread per connection; every critical section under [mutex_] is one
    atomic action.  [None] is a crash: an exception leaving the thread
    (std::terminate) or signed overflow.  Shutting the server down is not
    modelled.  Waiting time is not modelled: a timeout may happen at any moment. *)
From Coq Require Import ZArith List Bool Arith.
Import ListNotations.
Open Scope Z_scope.

Notation byte := Z (only parsing).
(** Model only: the bytes of a std::string. *)
Definition key := list byte.
(** Model only: the bytes of a std::vector<uint8_t>. *)
Definition value := list byte.
(** Model only: equality of keys. *)
Definition key_eqb (a b : key) : bool := if list_eq_dec Z.eq_dec a b then true else false.
(** TCPStore.cpp:41-51, the commands on the map. *)
Inductive op := OSet (k : key) (v : value) | OGet (k : key) | OAdd (k : key) (n : Z) | OCheck (ks : list key) | OWait (ks : list key) | ODelete (k : key) | ONumKeys.
(** Responses; [RClosed]: the server closes the connection without answering.
    Model only: see the handlers, TCPStore.cpp:892-1200. *)
Inductive res := RDone | RValue (v : value) | RInt (n : Z) | RBool (b : bool) | RClosed.

(** [keyValueStore_].  TCPStore.cpp:242. *)
Definition kvmap := list (key * value).
(** [std::unordered_map::find], as at TCPStore.cpp:948. *)
Fixpoint find (m : kvmap) (k : key) : option value :=
  match m with [] => None | (k', v) :: r => if key_eqb k k' then Some v else find r k end.
(** [std::unordered_map::erase], as at TCPStore.cpp:1183. *)
Definition erase (m : kvmap) (k : key) : kvmap := filter (fun p => negb (key_eqb k (fst p))) m.
(** [map[key] = value], as at TCPStore.cpp:915, 1037. *)
Definition put (m : kvmap) (k : key) (v : value) : kvmap := (k, v) :: erase m k.
(** As at TCPStore.cpp:1075, 1112. *)
Definition present (m : kvmap) (k : key) : bool := match find m k with Some _ => true | None => false end.

(** What the thread of a connection is doing: waiting for a request; having
    received one; registered for missing keys but not yet asleep; asleep on its
    condition variable; notified; having an answer to send; connection closed.
    Model only: the points of TCPStore.cpp:819-1200 between which other threads
    may run. *)
Inductive thread :=
| Idle | Got (o : op) | Reg (o : op) (missing : list key) | Sleep (o : op) (missing : list key) | Awake (o : op) (missing : list key) | Done (o : op) (r : res) | Closed.
(** [kv] is [keyValueStore_], [cvs] is [keyCVs_]: which clients wait for a key.
    TCPStore.cpp:242-247 and the threads of the connections. *)
Record sys := mkSys { kv : kvmap; cvs : list (key * nat); thr : nat -> thread }.
(** Model only: a new server. *)
Definition init : sys := mkSys [] [] (fun _ => Idle).
(** Model only: function update. *)
Definition setThr (f : nat -> thread) (c : nat) (t : thread) : nat -> thread := fun c' => if (c' =? c)%nat then t else f c'.

(** Model only: limits of int64_t. *)
Definition INT64_MIN : Z := - 2 ^ 63.
(** Model only: limits of int64_t. *)
Definition INT64_MAX : Z := 2 ^ 63 - 1.
(** Model only: no overflow at TCPStore.cpp:1034. *)
Definition in64 (z : Z) : bool := (INT64_MIN <=? z) && (z <=? INT64_MAX).
(** std::to_string of an int64.  As called at TCPStore.cpp:1036,
    FileStore.cpp:187. *)
Fixpoint digits (fuel : nat) (n : Z) (acc : list byte) : list byte :=
  if n <? 10 then (48 + n) :: acc
  else match fuel with O => acc | S f => digits f (n / 10) ((48 + n mod 10) :: acc) end.
(** As called at TCPStore.cpp:1036, FileStore.cpp:187. *)
Definition to_string (z : Z) : list byte := if z <? 0 then 45 :: digits 20 (- z) [] else digits 20 z [].
(** std::stoll: leading white space, an optional sign, digits; what follows is
    ignored.  Throws without a digit and outside the range.  As called at
    TCPStore.cpp:1034, FileStore.cpp:172. *)
Definition isSpace (b : byte) : bool := (b =? 32) || ((9 <=? b) && (b <=? 13)).
(** Model only: part of [stoll]. *)
Definition isDigit (b : byte) : bool := (48 <=? b) && (b <=? 57).
(** Model only: part of [stoll]. *)
Fixpoint skipSpace (l : list byte) : list byte := match l with b :: r => if isSpace b then skipSpace r else l | [] => [] end.
(** Model only: part of [stoll]. *)
Fixpoint readDigits (l : list byte) (acc : Z) : Z := match l with b :: r => if isDigit b then readDigits r (acc * 10 + (b - 48)) else acc | [] => acc end.
(** Model only: part of [stoll]. *)
Definition readNumber (l : list byte) : option Z := match l with b :: _ => if isDigit b then Some (readDigits l 0) else None | [] => None end.
(** Model only: part of [stoll]. *)
Definition signed (l : list byte) : option Z :=
  match l with
  | [] => None
  | b :: r => if b =? 45 then option_map Z.opp (readNumber r) else if b =? 43 then readNumber r else readNumber (b :: r)
  end.
(** As called at TCPStore.cpp:1034, FileStore.cpp:172. *)
Definition stoll (v : list byte) : option Z :=
  match signed (skipSpace v) with Some z => if in64 z then Some z else None | None => None end.

(** TCPStore.cpp:917-923 and 1039-1045: notify whoever waits for the key. *)
Definition isReg (l : list (key * nat)) (k : key) (c : nat) : bool := existsb (fun p => key_eqb k (fst p) && (snd p =? c)%nat) l.
(** TCPStore.cpp:917-923 and 1039-1045. *)
Definition notify (s : sys) (k : key) : sys :=
  mkSys (kv s) (filter (fun p => negb (key_eqb k (fst p))) (cvs s))
    (fun c => match thr s c with Sleep o m => if isReg (cvs s) k c then Awake o m else Sleep o m | t => t end).
(** Model only: record update. *)
Definition withKv (s : sys) (m : kvmap) : sys := mkSys m (cvs s) (thr s).
(** Model only: record update. *)
Definition withThr (s : sys) (c : nat) (t : thread) : sys := mkSys (kv s) (cvs s) (setThr (thr s) c t).
(** TCPStore.cpp:954, 1123-1125: a condition variable is entered for each
    missing key. *)
Definition register (s : sys) (c : nat) (missing : list key) : sys := mkSys (kv s) (map (fun k => (k, c)) missing ++ cvs s) (thr s).
(** The keys a request waits for.  TCPStore.cpp:948, 1111-1116. *)
Definition waitsFor (o : op) : list key := match o with OGet k => [k] | OWait ks => ks | _ => [] end.
(** TCPStore.cpp:978-1005, 1147-1164: after waiting, drop the registrations and
    answer. *)
Definition finish (s : sys) (c : nat) (o : op) (missing : list key) (success : bool) : sys :=
  let s1 := mkSys (kv s) (filter (fun p => negb (existsb (key_eqb (fst p)) missing && (snd p =? c)%nat)) (cvs s)) (thr s) in
  let r := match o with
           | OGet k => if success then match find (kv s) k with Some v => RValue v | None => RClosed end else RClosed
           | _ => RBool success
           end in
  withThr s1 c (Done o r).
(** The first critical section of each handler: TCPStore.cpp:892-928 set, 941-962
    get, 1027-1048 add, 1071-1083 check, 1104-1126 wait, 1178-1189 delete,
    1193-1199 numKeys. *)
Definition runOp (s : sys) (c : nat) (o : op) : option sys :=
  match o with
  | OSet k v => Some (withThr (notify (withKv s (put (kv s) k v)) k) c (Done o RDone))
  | OGet k =>
    match find (kv s) k with
    | Some v => Some (withThr s c (Done o (RValue v)))
    | None => Some (withThr (register s c [k]) c (Reg o [k]))
    end
  | OAdd k n =>
    let cur := match find (kv s) k with Some (b :: v) => stoll (b :: v) | _ => Some 0 end in
    match cur with
    | None => None
    | Some z => if in64 (n + z) then Some (withThr (notify (withKv s (put (kv s) k (to_string (n + z)))) k) c (Done o (RInt (n + z)))) else None
    end
  | OCheck ks => Some (withThr s c (Done o (RBool (forallb (present (kv s)) ks))))
  | OWait ks =>
    let missing := filter (fun k => negb (present (kv s) k)) ks in
    match missing with
    | [] => Some (withThr s c (Done o (RBool true)))
    | _ => Some (withThr (register s c missing) c (Reg o missing))
    end
  | ODelete k => Some (withThr (withKv s (erase (kv s) k)) c (Done o (RBool (present (kv s) k))))
  | ONumKeys => Some (withThr s c (Done o (RInt (Z.of_nat (length (kv s))))))
  end.
(** TCPStore.cpp:970, 974, 1133-1142: the condition waited for (shutting down is
    not modelled). *)
Definition ready (s : sys) (o : op) : bool := forallb (present (kv s)) (waitsFor o).
(** TCPStore.cpp:969-975, 1131-1143: checking the condition, then sleeping or
    going on. *)
Definition recheck (s : sys) (c : nat) (o : op) (missing : list key) : sys :=
  if ready s o then finish s c o missing true else withThr s c (Sleep o missing).

(** Invocations and answers as the clients see them.  Model only. *)
Inductive event := EInv (c : nat) (o : op) | ERes (c : nat) (o : op) (r : res).
(** A request arrives; its handler runs; the thread takes the lock (again) and
    checks; a spurious wake-up; a timeout; the answer is sent.  Model only. *)
Inductive action := AInvoke (c : nat) (o : op) | AExec (c : nat) | ACheck (c : nat) | ASpurious (c : nat) | ATimeout (c : nat) | ARespond (c : nat).
(** Model only: one step of some thread. *)
Definition act (s : sys) (a : action) : option (sys * list event) :=
  match a with
  | AInvoke c o => match thr s c with Idle => Some (withThr s c (Got o), [EInv c o]) | _ => None end
  | AExec c => match thr s c with Got o => match runOp s c o with Some s' => Some (s', []) | None => None end | _ => None end
  | ACheck c => match thr s c with Reg o m | Awake o m => Some (recheck s c o m, []) | _ => None end
  | ASpurious c => match thr s c with Sleep o m => Some (withThr s c (Awake o m), []) | _ => None end
  | ATimeout c => match thr s c with Sleep o m => Some (finish s c o m (ready s o), []) | _ => None end
  | ARespond c =>
    match thr s c with
    | Done o RClosed => Some (withThr s c Closed, [ERes c o RClosed])
    | Done o r => Some (withThr s c Idle, [ERes c o r])
    | _ => None
    end
  end.
(** Model only: a schedule. *)
Fixpoint run (s : sys) (l : list action) : option (sys * list event) :=
  match l with
  | [] => Some (s, [])
  | a :: r =>
    match act s a with
    | None => None
    | Some (s1, e1) => match run s1 r with Some (s2, e2) => Some (s2, e1 ++ e2) | None => None end
    end
  end.

(** * The accept loop: TCPStore.cpp:756-768 cleanupFinishedThreads, 787-817
    serverLoop.  [threads] counts [clientThreads_]; the loop holds
    [clientThreadsMutex_], not recursive, when it calls the clean-up, which locks
    it: the thread waits for itself.  Threads are never joined, so all stay
    joinable and the clean-up would remove none. *)
Definition lockMutex (held : bool) : option bool := if held then None else Some true.
(** TCPStore.cpp:756-768. *)
Definition cleanupFinishedThreads (held : bool) (threads : nat) : option nat :=
  match lockMutex held with None => None | Some _ => Some threads end.
(** TCPStore.cpp:805-815. *)
Definition acceptOne (threads : nat) : option nat :=
  match lockMutex false with
  | None => None
  | Some held =>
    match (if (128 <? threads)%nat then cleanupFinishedThreads held threads else Some threads) with
    | None => None
    | Some t => Some (S t)
    end
  end.
(** Model only: several connections. *)
Fixpoint acceptMany (n : nat) (threads : nat) : option nat :=
  match n with O => Some threads | S n => match acceptOne threads with Some t => acceptMany n t | None => None end end.
