(** Vocabulary for the linear layer. *)
From Coq Require Import List Arith.
From Verif Require Import TensorModel TensorSpec LinalgSpec LinearModel.
Import ListNotations.

(** Row [r] (the leading indices), feature [j] of x W^T + b. *)
Definition affine {K : cring} (k : nat) (X W b : list nat -> K) (r : list nat) (j : nat) : K :=
  add (sum (fun p => mul (X (r ++ [p])) (W [j; p])) (seq 0 k)) (b [j]).
Definition minus {K : cring} (x y : K) : K := add x (opp y).
(** [D] (shape [sh]) is the adjoint, for the incoming gradient [G] (shape [osh]), of
    the map [f] of tensors of shape [sh]: a change of the argument changes the inner
    product of result and [G] by the inner product of that change and [D]. *)
Definition is_adjoint {K : cring} (sh osh : list nat) (f : tensor K -> BcastModel.res (tensor K)) (G D : list nat -> K) : Prop :=
  forall X X' Y Y', f (tensor_of sh X) = BcastModel.Ok (tensor_of osh Y) -> f (tensor_of sh X') = BcastModel.Ok (tensor_of osh Y') ->
  inner osh (fun i => minus (Y' i) (Y i)) G = inner sh (fun i => minus (X' i) (X i)) D.
