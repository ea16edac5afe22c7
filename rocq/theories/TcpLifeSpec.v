(** Vocabulary for the life of a TCP store. *)
From Coq Require Import List Arith ZArith.
From Verif Require Import TcpLifeModel.
Import ListNotations.

(** ** Start-up: workers registered and not unregistered, after the steps [ls];
    and those of them that are still connected. *)
Definition registered (ls : list sstep) : Z :=
  fold_right (fun l n => (n + match l with Register => 1 | Refuse _ | Unregister => -1 | _ => 0 end)%Z) 0%Z ls.
Definition present (ls : list sstep) : Z :=
  fold_right (fun l n => (n + match l with Register => 1 | Refuse _ | Unregister | Vanish => -1 | _ => 0 end)%Z) 0%Z ls.

(** ** Connections *)
(** The client is still there and has sent nothing but proper requests. *)
Definition good (w : world) (c : nat) : Prop := nth_error (conns w) c = Some (Conn Open false).
(** No connection is reset, and the store is not destroyed. *)
Definition calm (ls : list label) : Prop := ~ In Destroy ls /\ forall c, ~ In (CReset c) ls.
(** Thread [t] serves connection [c]: it was started for it, and its descriptor
    still is that connection. *)
Definition serves (w : world) (t c : nat) : Prop := exists f, nth_error (threads w) t = Some (Thread f c Serving) /\ look w f = Some (OConn c).
