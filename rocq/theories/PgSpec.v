(** What setting up a process group should do. *)
From Coq Require Import List Bool ZArith Ascii String.
From Verif Require Import PgModel.
Import ListNotations.
Open Scope Z_scope.

(** The number written with these decimal digits, first digit first. *)
Definition number (ds : list nat) : Z := fold_left (fun v d => 10 * v + Z.of_nat d) ds 0.
(** How it is written. *)
Fixpoint written (ds : list nat) : string := match ds with [] => EmptyString | d :: r => String (ascii_of_nat (48 + d)) (written r) end.
Definition decimal (ds : list nat) : Prop := ds <> [] /\ Forall (fun d => (d < 10)%nat) ds.
(** No colon in it. *)
Fixpoint noColon (s : string) : Prop := match s with EmptyString => True | String c r => c <> ":"%char /\ noColon r end.
(** A name for a host. *)
Definition hostName (s : string) : Prop := s <> EmptyString /\ noColon s.
(** A group of this rank and size, for CUDA tensors with NCCL, on this store. *)
Definition groupOn (st : store) (r ws : Z) (g : group) : Prop :=
  gstore g = Some st /\ grank g = r /\ gsize g = ws /\
  (exists b, getBackend g CUDA = Some b /\ getDefaultBackend g = Some b /\ brank b = r /\ bsize b = ws) /\ getBackend g CPU = None.
(** The three kinds of init strings. *)
Inductive wellFormed : string -> Prop :=
| WEnv : wellFormed "env://"
| WTcp host : hostName host -> wellFormed ("tcp://" ++ host)
| WTcpPort host ds : hostName host -> decimal ds -> wellFormed ("tcp://" ++ host ++ ":" ++ written ds)
| WFile path : wellFormed ("file://" ++ path).
