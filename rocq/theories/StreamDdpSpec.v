(** Data-parallel training as a user writes it. *)
From Coq Require Import List Bool Arith Permutation.
From Verif Require Import CollModel StreamModel StreamSpec StreamDdpModel.
Import ListNotations.

(** Every parameter of every bucket. *)
Definition everyParam (sizes : list nat) : list (nat * nat) := flat_map (fun b => map (fun p => (b, p)) (seq 0 (nth b sizes 0))) (seq 0 (length sizes)).
Fixpoint hooks {V} (l : list (tev V)) : list (nat * nat) := match l with [] => [] | TReady b p :: l => (b, p) :: hooks l | _ :: l => hooks l end.
(** One iteration after [forward]: whatever the script and the backward pass do,
    as long as they leave the reducer's buffers alone and every parameter gets
    its gradient once. *)
Definition iteration {V} (rd : reducer V) (l : list (tev V)) : Prop :=
  Permutation (hooks l) (everyParam (sizes rd)) /\
  (forall k b, In (TKernel k) l -> b < length (sizes rd) -> kout k <> flat rd b /\ ~ In (flat rd b) (kin k)) /\
  (forall a b, In (TRead a) l -> b < length (sizes rd) -> a <> flat rd b) /\
  ~ In TForward l.
(** Buckets are not empty (Reducer.cpp:31-61 makes no others), and their buffers
    are tensors of their own. *)
Definition ownBuffers {V} (rd : reducer V) : Prop :=
  (forall n, In n (sizes rd) -> 0 < n) /\
  (forall b c, b < length (sizes rd) -> c < length (sizes rd) -> flat rd b = flat rd c -> b = c) /\
  (forall b c p, b < length (sizes rd) -> c < length (sizes rd) -> gradOf rd c p <> flat rd b).
(** A training run of some iterations. *)
Definition trainingRun {V} (its : list (list (tev V))) : list (tev V) := flat_map (fun it => TForward :: it) its.
(** The script of a process that trains: its reducer and its iterations. *)
Definition follows {V} (its buckets : nat) (rt : reducer V * list (list (tev V))) (p : list (hcmd V)) : Prop :=
  ownBuffers (fst rt) /\ (forall it, In it (snd rt) -> iteration (fst rt) it) /\ length (snd rt) = its /\ length (sizes (fst rt)) = buckets /\
  exists st, training (fst rt) (prepare (fst rt) 0) (trainingRun (snd rt)) = Some (p, st).
