(** Life of a TCP store: src/Distributed/TCPStore.cpp, without the messages
    (WireModel) and the map (StoreModel): construction, start-up of the workers,
    descriptors and threads of the server, destruction. *)
From Coq Require Import List Arith ZArith Bool.
Import ListNotations.

(** * Construction and use

    What the system answers: results of the calls it may refuse, in order. *)
Record sys := Sys {
  canListen : bool;          (* socket, setsockopt, bind, listen of the server *)
  canSocket : bool;          (* socket, setsockopt of the client *)
  canResolve : bool;         (* getaddrinfo *)
  connects : list bool;      (* successive calls of ::connect; false for ever afterwards *)
  canRegister : bool;        (* the registration is sent and confirmed *)
  workersCome : bool         (* waitForWorkers returns true *)
}.
(** TCPStore.cpp:386-399, the loop of ClientImpl::connect; [n] is maxRetries (200)
    less the attempts made. *)
Fixpoint tryConnect (n : nat) (l : list bool) : bool :=
  match n with
  | O => false
  | S n => match l with [] => tryConnect n [] | true :: _ => true | false :: l => tryConnect n l end
  end.
(** TCPStore.cpp:353-408 ClientImpl::connect: whether clientSock_ is valid after it. *)
Definition connect (e : sys) : bool := canSocket e && (canResolve e && tryConnect 10 (connects e)).
(** The fields of the store: for server_ whether its threads run, for client_
    whether it has a socket and is registered.  [None] is a null pointer. *)
Record store := Store { server : option bool; client : option (bool * bool) }.
(** TCPStore.cpp:262-290; the flag tells whether it ran to its end (otherwise it
    logs an error and returns; the caller gets the object either way). *)
Definition construct (isServer waitWorkers : bool) (numWorkers : Z) (e : sys) : store * bool :=
  let sv := if isServer then Some (canListen e) else None in
  if isServer && negb (canListen e) then (Store sv None, false) else
  if negb (connect e) then (Store sv (Some (false, false)), false) else
  if negb (canRegister e) then (Store sv (Some (true, false)), false) else
  (Store sv (Some (true, true)), negb (isServer && (waitWorkers && (0 <? numWorkers)%Z)) || workersCome e).
(** What a call gives its caller. *)
Inductive outcome (V : Type) := Crash | Returns (v : V).
Arguments Crash {V}. Arguments Returns {V}.
(** TCPStore.cpp:303-341 set, get, add, deleteKey, check, getNumKeys and wait:
    [r] is what the exchange with the server gives, [None] when it fails, [d] the
    value returned then (set and wait: nothing, get: no bytes, add and getNumKeys:
    -1, deleteKey and check: false).  Without a socket the exchange fails. *)
Definition call {V} (s : store) (d : V) (r : option V) : outcome V :=
  match client s with
  | None => Crash
  | Some (false, _) => Returns d
  | Some (true, _) => Returns (match r with Some v => v | None => d end)
  end.
(** TCPStore.cpp:292-301 ~TCPStore, 645-667 ~ServerImpl: detaching a thread that
    was never started throws in a destructor.  (What the detached threads do
    afterwards is below.) *)
Definition destroy (s : store) : outcome unit :=
  match server s with Some false => Crash | _ => Returns tt end.

(** * Waiting for the workers

    TCPStore.cpp:707-722 waitForWorkers against 1202-1224 handleWorkerRegister and
    handleWorkerUnregister, which run in the threads of the clients.  mutex_ is
    held by the waiter between its check and its sleep; the threads take it for
    the time of notify_all only.  Not modelled: shutdownServer_ (the store is
    being constructed). *)
(** Where the constructor is: not yet waiting, waiting with the mutex held after
    a check that was false, asleep, woken or past the timeout, returned. *)
Inductive waiter := WBefore | WChecked | WAsleep | WWoken | WLate | WDone (r : bool).
(** A registration under way: what fetch_add gave, plus one; whether the
    confirmation has been sent. *)
Record reg := Reg { current : Z; confirmed : bool }.
(** Model only. *)
Record start := Start { count : Z; who : waiter; regs : list reg }.
(** Steps: of the waiter; a client's registration (fetch_add), its confirmation
    sent or failed, its end; an unregistration; the connection of a registered
    worker breaking without one (TCPStore.cpp:846-850: the count stays). *)
Inductive sstep := Wait | Sleep | Wake | Timeout | Register | Confirm (i : nat) | Refuse (i : nat) | Finish (i : nat) | Unregister | Vanish.
(** Model only. *)
Definition without {A} (i : nat) (l : list A) : list A := firstn i l ++ skipn (S i) l.
(** Model only. *)
Definition setAt {A} (i : nat) (a : A) (l : list A) : list A := firstn i l ++ a :: skipn (S i) l.
(** workerCV_.notify_all. *)
Definition notify (w : waiter) : waiter := match w with WAsleep => WWoken | _ => w end.
(** TCPStore.cpp:712-714: wait_for evaluates the predicate with the mutex held.
    [None]: the step is not possible now. *)
Definition sdo (num : Z) (l : sstep) (s : start) : option start :=
  match l with
  | Wait =>
    match who s with
    | WBefore => if (num <=? 0)%Z then Some (Start (count s) (WDone true) (regs s))
                 else Some (Start (count s) (if (num <=? count s)%Z then WDone true else WChecked) (regs s))
    | WWoken => Some (Start (count s) (if (num <=? count s)%Z then WDone true else WChecked) (regs s))
    | WLate => Some (Start (count s) (WDone (num <=? count s)%Z) (regs s))
    | _ => None
    end
  | Sleep => match who s with WChecked => Some (Start (count s) WAsleep (regs s)) | _ => None end
  | Wake => match who s with WAsleep => Some (Start (count s) WWoken (regs s)) | _ => None end
  | Timeout => match who s with WAsleep | WWoken => Some (Start (count s) WLate (regs s)) | _ => None end
  | Register => Some (Start (count s + 1) (who s) (regs s ++ [Reg (count s + 1) false]))
  | Confirm i =>
    match nth_error (regs s) i with
    | Some (Reg c false) => Some (Start (count s) (who s) (setAt i (Reg c true) (regs s)))
    | _ => None
    end
  | Refuse i =>
    match nth_error (regs s) i with
    | Some (Reg c false) => Some (Start (count s - 1) (who s) (without i (regs s)))
    | _ => None
    end
  | Finish i =>
    match nth_error (regs s) i with
    | Some (Reg c true) =>
      if (num <=? c)%Z
      then match who s with WChecked => None | w => Some (Start (count s) (notify w) (without i (regs s))) end
      else Some (Start (count s) (who s) (without i (regs s)))
    | _ => None
    end
  | Unregister => Some (Start (count s - 1) (who s) (regs s))
  | Vanish => Some s
  end.
(** Model only. *)
Fixpoint srun (num : Z) (ls : list sstep) (s : start) : option start :=
  match ls with [] => Some s | l :: ls => match sdo num l s with Some s => srun num ls s | None => None end end.
(** TCPStore.cpp:635-643. *)
Definition sinit : start := Start 0 WBefore [].

(** * Descriptors and threads of the server *)
(** The other end: open, closed in order, or reset. *)
Inductive peer := Open | Closed | Reset.
(** A client's connection; [rude]: it has sent an unknown command. *)
Record conn := Conn { end_ : peer; rude : bool }.
(** What a descriptor of the process stands for: a client's connection, or
    something else the program has opened. *)
Inductive obj := OConn (c : nat) | OFile.
(** A thread of a client: the descriptor it was given, the connection that was
    then, and where it is: serving, past its loop, past the erase, past the end. *)
Inductive place := Serving | Leaving | Erased | Ended.
(** Model only. *)
Record thread := Thread { fd : nat; mine : nat; at_ : place }.
(** serverLoop: before accept, after it, after the insert; stuck in
    cleanupFinishedThreads for a mutex it holds. *)
Inductive loop := LAccept | LGot (f c : nat) | LInserted (f c : nat) | LStuck (f c : nat).
(** cleanupDisconnectedClients: outside; inside with activeClientsMutex_ held and
    the descriptors still to be visited. *)
Inductive monitor := MOut | MIn (todo : list nat).
(** What happens to clients: thread [t] takes a request from a connection and
    answers there; the server closes a connection, or a file that is not its own. *)
Inductive event := EServe (t c : nat) | EClose (c : nat) | EFile (f : nat).
(** Descriptor table of the process, connections made, those not yet accepted,
    serverLoop, activeClients_, the monitor, the threads, whether the server
    object has been freed, what happened so far. *)
Record world := World {
  tab : list (option obj); conns : list conn; queue : list nat; lp : loop; active : list nat; mon : monitor;
  threads : list thread; freed : bool; log : list event }.
(** What goes on: clients; serverLoop; the monitor; client threads; the rest of
    the process; the destructor. *)
Inductive label :=
| CConnect | CClose (c : nat) | CReset (c : nat) | CRude (c : nat)
| Accept | Insert | Spawn | MonIn | MonVisit | MonOut
| Serve (t : nat) | Leave (t : nat) | Erase (t : nat) | End (t : nat)
| OpenFile | CloseFile (f : nat) | Destroy.
(** Result: not possible now, a use of freed memory, or the next state. *)
Inductive stepped := No | Freed | To (w : world).

(** The lowest free descriptor, as POSIX has it. *)
Fixpoint lowest (l : list (option obj)) : nat :=
  match l with [] => O | None :: _ => O | Some _ :: l => S (lowest l) end.
(** Model only. *)
Fixpoint put {A} (i : nat) (a : A) (d : A) (l : list A) : list A :=
  match i, l with
  | O, [] => [a]
  | O, _ :: l => a :: l
  | S i, [] => d :: put i a d []
  | S i, x :: l => x :: put i a d l
  end.
(** Model only. *)
Definition look (w : world) (f : nat) : option obj := nth f (tab w) None.
(** Model only. *)
Definition erase (f : nat) (l : list nat) : list nat := filter (fun g => negb (g =? f)) l.
(** closesocket: whatever the descriptor stands for now. *)
Definition close (f : nat) (w : world) : world :=
  World (put f None None (tab w)) (conns w) (queue w) (lp w) (active w) (mon w) (threads w) (freed w)
    (match look w f with Some (OConn c) => log w ++ [EClose c] | Some OFile => log w ++ [EFile f] | None => log w end).
(** TCPStore.cpp:148-170 isSocketConnected.  A connection closed in order can
    still be sent to. *)
Definition isSocketConnected (w : world) (f : nat) : bool :=
  match look w f with
  | Some (OConn c) => match nth_error (conns w) c with Some x => match end_ x with Reset => false | _ => true end | None => false end
  | _ => false
  end.
(** Model only. *)
Definition setThreads (ts : list thread) (w : world) : world := World (tab w) (conns w) (queue w) (lp w) (active w) (mon w) ts (freed w) (log w).
(** Model only. *)
Definition setActive (l : list nat) (w : world) : world := World (tab w) (conns w) (queue w) (lp w) l (mon w) (threads w) (freed w) (log w).
(** Model only. *)
Definition setLoop (l : loop) (w : world) : world := World (tab w) (conns w) (queue w) l (active w) (mon w) (threads w) (freed w) (log w).
(** Model only. *)
Definition setMon (m : monitor) (w : world) : world := World (tab w) (conns w) (queue w) (lp w) (active w) m (threads w) (freed w) (log w).
(** Model only. *)
Definition setConn (i : nat) (f : conn -> conn) (w : world) : world :=
  World (tab w) (match nth_error (conns w) i with Some x => setAt i (f x) (conns w) | None => conns w end) (queue w) (lp w) (active w) (mon w) (threads w) (freed w) (log w).
(** A client's action, while its connection is open. *)
Definition clientDoes (c : nat) (f : conn -> conn) (w : world) : stepped :=
  match nth_error (conns w) c with
  | Some x => match end_ x with Open => To (setConn c f w) | _ => No end
  | None => No
  end.
(** Every thread of the server reads the object's fields; freed memory otherwise. *)
Definition guarded (w : world) (r : stepped) : stepped :=
  match r with No => No | _ => if freed w then Freed else r end.

(** One step; the lines are of TCPStore.cpp. *)
Definition step (l : label) (w : world) : stepped :=
  match l with
  | CConnect => To (World (tab w) (conns w ++ [Conn Open false]) (queue w ++ [length (conns w)]) (lp w) (active w) (mon w) (threads w) (freed w) (log w))
  | CClose c => clientDoes c (fun x => Conn Closed (rude x)) w
  | CReset c => clientDoes c (fun x => Conn Reset (rude x)) w
  | CRude c => clientDoes c (fun x => Conn (end_ x) true) w
  (* TCPStore.cpp:787-798, accept; 800-803, the insert *)
  | Accept => guarded w
    match lp w, queue w with
    | LAccept, c :: q => let f := lowest (tab w) in
      To (World (put f (Some (OConn c)) None (tab w)) (conns w) q (LGot f c) (active w) (mon w) (threads w) (freed w) (log w))
    | _, _ => No
    end
  | Insert => guarded w
    match lp w, mon w with
    | LGot f c, MOut => To (setLoop (LInserted f c) (setActive (if existsb (Nat.eqb f) (active w) then active w else f :: active w) w))
    | _, _ => No
    end
  (* 805-815: the thread; more than 128 of them, and serverLoop waits for itself (C38) *)
  | Spawn => guarded w
    match lp w with
    | LInserted f c => if 128 <? length (threads w) then To (setLoop (LStuck f c) w) else To (setLoop LAccept (setThreads (threads w ++ [Thread f c Serving]) w))
    | _ => No
    end
  (* 726-734 startClientMonitoring, 741-754 cleanupDisconnectedClients *)
  | MonIn => guarded w match mon w with MOut => To (setMon (MIn (active w)) w) | _ => No end
  | MonVisit => guarded w
    match mon w with
    | MIn (f :: fs) => if isSocketConnected w f then To (setMon (MIn fs) w) else To (setMon (MIn fs) (setActive (erase f (active w)) (close f w)))
    | _ => No
    end
  | MonOut => guarded w match mon w with MIn [] => To (setMon MOut w) | _ => No end
  (* 841-851 and handleClient: a request of a client, or the end of the loop.  A
     thread leaves when its descriptor has been closed, or the connection behind
     it is over, or the command is unknown.  (Requests that a client sent before
     it closed are not told apart.) *)
  | Serve t => guarded w
    match nth_error (threads w) t with
    | Some (Thread f o Serving) =>
      match look w f with
      | Some (OConn c) => match nth_error (conns w) c with
          | Some (Conn Open false) => To (World (tab w) (conns w) (queue w) (lp w) (active w) (mon w) (threads w) (freed w) (log w ++ [EServe t c]))
          | _ => No
          end
      | _ => No
      end
    | _ => No
    end
  | Leave t => guarded w
    match nth_error (threads w) t with
    | Some (Thread f o Serving) =>
      let go := To (setThreads (setAt t (Thread f o Leaving) (threads w)) w) in
      match look w f with
      | Some (OConn c) => match nth_error (conns w) c with Some (Conn Open false) => No | _ => go end
      | _ => go
      end
    | _ => No
    end
  (* 829-836 ~ThreadGuard *)
  | Erase t => guarded w
    match nth_error (threads w) t, mon w with
    | Some (Thread f o Leaving), MOut => To (setActive (erase f (active w)) (setThreads (setAt t (Thread f o Erased) (threads w)) w))
    | _, _ => No
    end
  | End t =>
    match nth_error (threads w) t with
    | Some (Thread f o Erased) => To (close f (setThreads (setAt t (Thread f o Ended) (threads w)) w))
    | _ => No
    end
  | OpenFile => To (World (put (lowest (tab w)) (Some OFile) None (tab w)) (conns w) (queue w) (lp w) (active w) (mon w) (threads w) (freed w) (log w))
  | CloseFile f => match look w f with
                   | Some OFile => To (World (put f None None (tab w)) (conns w) (queue w) (lp w) (active w) (mon w) (threads w) (freed w) (log w))
                   | _ => No
                   end
  (* 645-667, 736-739, 770-785: all threads are detached, then the object is freed *)
  | Destroy => if freed w then No else To (World (tab w) (conns w) (queue w) (lp w) (active w) (mon w) (threads w) true (log w))
  end.
(** Model only. *)
Fixpoint run (ls : list label) (w : world) : stepped :=
  match ls with [] => To w | l :: ls => match step l w with To w => run ls w | r => r end end.
(** After start (669-718). *)
Definition init : world := World [] [] [] LAccept [] MOut [] false [].
