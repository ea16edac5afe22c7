(** [SGD::step()] without momentum and weight decay on the parameters of a tensor
    program (NetModel.v), over the reals.  src/Optimizer.cpp:63-81. *)
From Coq Require Import List Arith Reals.
From Verif Require Import TensorModel AutogradModel NetModel.
Import ListNotations.

(** Model only: [d - lr * g], element by element. *)
Fixpoint minusScaled (lr : R) (d g : list R) : list R :=
  match d, g with x :: d, y :: g => (x - lr * y)%R :: minusScaled lr d g | _, _ => [] end.
(** Optimizer.cpp:63-81, the body of the loop: a parameter without a gradient is
    left alone.  Simplification: a gradient of another shape than the parameter,
    which [-=] may accept by broadcasting, is not considered ([GBad] leaves the
    parameter alone). *)
Definition sgdParam (lr : R) (d : list R) (grad : gval) : list R :=
  match grad with GTensor t => minusScaled lr d (tdata t) | _ => d end.
(** Optimizer.cpp:63-81, the loop: the parameters are the leaves of [p] that
    require grad; [g] is the state after [backward()]. *)
Definition sgdStep (lr : R) (p : list stmt) (g : state Tg) (theta : nat -> list R) : nat -> list R :=
  fun l => match nth_error p l with Some (SLeaf _ true) => sgdParam lr (theta l) (gradOfTensor g l) | _ => theta l end.
