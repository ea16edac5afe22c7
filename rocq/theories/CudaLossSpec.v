(* Vocabulary for the losses on the device. *)
From Coq Require Import List ZArith.
From Verif Require Import GpuModel.

(* Only the buffers of S changed. *)
Definition same_out {V} (S : list nat) (m m' : addr -> cell V) : Prop := forall x, ~ In x S -> forall i, m' (x, i) = m (x, i).
