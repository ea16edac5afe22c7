(* Vocabulary for the CUDA reductions. *)
From Coq Require Import List Arith ZArith Bool.
From Verif Require Import ShapeModel ShapeSpec TensorModel TensorSpec GpuModel GpuSpec CudaSpec.
Import ListNotations.

(* Whatever the schedules of the launches, made one after another, they leave in
   buffer out the tensor of shape sh with elements F, and change nothing else
   but the scratch buffers. *)
Definition computes_all {V} (ls : list (launch V)) (m : addr -> cell V) (out : nat) (scratch : list nat) (sh : list nat) (F : list nat -> V) : Prop :=
  always_all ls m (fun m' => has m' out sh F /\ forall p, p <> out -> ~ In p scratch -> forall i, m' (p, i) = m (p, i)).

(* Some schedules of the launches, made one after another, end with Q. *)
Fixpoint sometimes_all {V} (ls : list (launch V)) (m : addr -> cell V) (Q : (addr -> cell V) -> Prop) : Prop :=
  match ls with
  | [] => Q m
  | l :: r => sometimes l m (fun m' => sometimes_all r m' Q)
  end.
