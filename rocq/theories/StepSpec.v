(** What one step of gradient descent should do. *)
From Coq Require Import List Arith Reals.
From Verif Require Import ShapeModel AutogradModel NetModel NetSpec.
Import ListNotations.

(** Some element of the gradient of some parameter is not 0. *)
Definition has_slope (p : list stmt) (g : state Tg) : Prop :=
  exists l sh j, nth_error p l = Some (SLeaf sh true) /\ j < numel sh /\ grad_at (gradOfTensor g l) j <> 0%R.
