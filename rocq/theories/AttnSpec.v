(** Attention, as a formula. *)
From Coq Require Import ZArith List Bool Arith Reals.
From Verif Require Import ShapeModel ShapeSpec TensorModel TensorSpec BcastSpec ReduceModel AttnModel.
Import ListNotations.
Open Scope R_scope.

Notation Rsum := (sum (K := Rring)).
(** The inner product of query [i] and key [j] in batch [be]. *)
Definition similarity (E : nat) (Q K : list nat -> R) (be : list nat) (i j : nat) : R :=
  Rsum (fun e => Q (be ++ [i; e]) * K (be ++ [j; e])) (seq 0 E).
(** Which keys a query may look at and what is added to the score: [None] is
    hidden.  [sh] is the shape of the mask. *)
Inductive visibility := Everything | Past | Allowed (sh : list nat) (M : list nat -> bool) | Added (sh : list nat) (B : list nat -> option R).
Definition bias_at (v : visibility) (be : list nat) (i j : nat) : option R :=
  match v with
  | Everything => Some 0
  | Past => if (j <=? i)%nat then Some 0 else None
  | Allowed sh M => if M (bidx sh (be ++ [i; j])) then Some 0 else None
  | Added sh B => B (bidx sh (be ++ [i; j]))
  end.
(** How the caller asks for it, and which masks fit a score tensor of shape [wsh]. *)
Definition is_causal (v : visibility) : bool := match v with Past => true | _ => false end.
Definition mask_of (v : visibility) : option attnMask :=
  match v with Allowed sh M => Some (BoolMask (tensor_of sh M)) | Added sh B => Some (AddMask (tensor_of sh B)) | _ => None end.
Definition mask_fits (v : visibility) (wsh : list nat) : Prop :=
  match v with Allowed sh _ | Added sh _ => positive sh /\ is_broadcast [wsh; sh] wsh | _ => True end.
(** The weight of key [j] for query [i]: the exponentials of the scores of the
    visible keys, divided by their sum. *)
Definition importance (s : R) (E : nat) (Q K : list nat -> R) (v : visibility) (be : list nat) (i j : nat) : R :=
  match bias_at v be i j with None => 0 | Some b => exp (s * similarity E Q K be i j + b) end.
Definition weight (s : R) (E S : nat) (Q K : list nat -> R) (v : visibility) (be : list nat) (i j : nat) : R :=
  importance s E Q K v be i j / Rsum (importance s E Q K v be i) (seq 0 S).
(** The result: the weighted mean of the values. *)
Definition attention (s : R) (E S : nat) (Q K V : list nat -> R) (v : visibility) (be : list nat) (i e : nat) : R :=
  Rsum (fun j => weight s E S Q K v be i j * V (be ++ [j; e])) (seq 0 S).
(** Every query sees at least one key. *)
Definition sees_something (b : list nat) (L S : nat) (v : visibility) : Prop :=
  forall be i, valid b be -> (i < L)%nat -> exists j, (j < S)%nat /\ bias_at v be i j <> None.
Definition factor (E : nat) (scale : option R) : R := match scale with Some s => s | None => 1 / sqrt (INR E) end.
