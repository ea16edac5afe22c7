(** The handle of a collective: src/Distributed/Work.h and WorkNCCL.cpp.  The
    clock counts milliseconds.  The event of the work is reached at some time or
    never; a query sees whether it has been. *)
From Coq Require Import List Bool ZArith String.
Import ListNotations.
Open Scope Z_scope.

(** Work.h:109-116 and WorkNCCL.h:22, 48: the flag, the message, the time of
    creation, the kind of operation.  The message is empty when there is none. *)
Record work := mkW { completed : bool; exception : string; startedAt : Z; isBarrier : bool }.
(** BackendNCCL.h:144-148 (a work is created when the collective is started). *)
Definition newWork (now : Z) (barrier : bool) : work := mkW false "" now barrier.
(** Work.h:100-106. *)
Definition finish (w : work) (msg : string) : work := mkW true msg (startedAt w) (isBarrier w).
(** CUDA: the event has been reached at the time [now]. *)
Definition query (at_ : option Z) (now : Z) : bool := match at_ with Some t => t <=? now | None => false end.
(** WorkNCCL.cpp:13-22; Work.h:60-63. *)
Definition isCompleted (w : work) (at_ : option Z) (now : Z) : bool := completed w || query at_ now.
(** Work.h:65-68. *)
Definition isSuccess (w : work) : bool := String.eqb (exception w) "".
(** WorkNCCL.cpp:50-55, with a given timeout. *)
Definition checkTimeout (w : work) (timeout now : Z) : bool := timeout <=? now - startedAt w.
(** WorkNCCL.cpp:28-35: each turn of the loop looks at the event at one time and
    at the clock at another; [None]: the turns given are not enough. *)
Fixpoint waitLoop (w : work) (at_ : option Z) (timeout : Z) (polls : list (Z * Z)) : option (bool * work) :=
  match polls with
  | [] => None
  | (q, c) :: polls =>
    if isCompleted w at_ q then Some (true, finish w "")
    else if checkTimeout w timeout c then Some (false, finish w "WorkNCCL wait timed out")
    else waitLoop w at_ timeout polls
  end.
(** WorkNCCL.cpp:24-43.  For a barrier the host waits for the stream, which has
    just been told to wait for the event; [None]: it waits for ever. *)
Definition wait (w : work) (at_ : option Z) (timeout : Z) (polls : list (Z * Z)) : option (bool * work) :=
  if negb (timeout =? 0) then waitLoop w at_ timeout polls
  else match isBarrier w && negb (isCompleted w at_ (match polls with (q, _) :: _ => q | [] => startedAt w end)), at_ with
       | true, None => None
       | _, _ => Some (true, finish w "")
       end.
