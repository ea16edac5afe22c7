(** Vocabulary for losses. *)
From Coq Require Import List Arith Reals.
From Verif Require Import ShapeModel ShapeSpec TensorModel TensorSpec ReduceModel ReduceSpec LossModel.
Import ListNotations.

(** A loss made of the terms [L]: all of them, their mean or their sum. *)
Definition reduced_loss (red : reduction) (sh : list nat) (L : list nat -> R) : tensor R :=
  match red with
  | NONE => tensor_of sh L
  | MEAN => tensor_of [] (fun _ => average L (indices sh))
  | SUM => tensor_of [] (fun _ => sum (K := Rring) L (indices sh))
  end.
(** The incoming gradient: one number per term, or one number. *)
Definition loss_grad (red : reduction) (sh : list nat) (H : list nat -> R) : tensor R :=
  match red with NONE => tensor_of sh H | _ => tensor_of [] (fun _ => H []) end.
