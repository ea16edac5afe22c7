(** What can be sent, and how bytes may arrive. *)
From Coq Require Import ZArith List Bool Arith.
From Verif Require Import StoreModel WireModel.
Import ListNotations.
Open Scope Z_scope.

(** Every call of recv returns at least one byte. *)
Definition pieces (cs : list (list byte)) : Prop := Forall (fun c => c <> []) cs.
Definition sized (s : list byte) : Prop := Z.of_nat (length s) < 2 ^ 64.
(** Requests a client can send. *)
Definition sendable (q : request) : Prop :=
  match q with
  | QOp (OSet k v) => sized k /\ sized v
  | QOp (OGet k) | QOp (ODelete k) => sized k
  | QOp (OAdd k n) => sized k /\ - 2 ^ 63 <= n < 2 ^ 63
  | QOp (OCheck ks) | QOp (OWait ks) => Forall sized ks /\ Z.of_nat (length ks) < 2 ^ 64
  | _ => True
  end.
(** Answers that fit the request. *)
Definition answers_to (q : request) (r : res) : Prop :=
  match q with
  | QOp (OSet _ _) | QRegister | QUnregister => r = RDone
  | QOp (OGet _) => exists v, r = RValue v /\ sized v
  | QOp (OAdd _ _) | QOp ONumKeys => exists n, r = RInt n /\ - 2 ^ 63 <= n < 2 ^ 63
  | QOp (OCheck _) | QOp (OWait _) | QOp (ODelete _) => exists b, r = RBool b
  end.
