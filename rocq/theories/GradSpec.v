(** What a gradient is. *)
From Coq Require Import List Bool Arith Reals.
From Verif Require Import ShapeModel ShapeSpec TensorModel TensorSpec BcastModel.
Import ListNotations.
Open Scope R_scope.

(** [F] with the element at [i] set to [x]. *)
Definition put (F : list nat -> R) (i : list nat) (x : R) : list nat -> R :=
  fun j => if list_eq_dec Nat.eq_dec j i then x else F j.
(** The weighted sum of the elements of a result. *)
Definition weigh (w : list R) (r : res (tensor R)) : R :=
  match r with Ok t => fold_right Rplus 0 (map (fun p => fst p * snd p) (combine w (tdata t))) | _ => 0 end.
(** [back] is the gradient, at the input [F] of shape [sh], of the function
    [forward] of one tensor, for the incoming gradient [grad]: element [i] is the
    derivative of the sum of [grad] times result by element [i].  The shape is
    that of the input, or that shape with leading ones (see C08). *)
Definition is_gradient (forward : tensor R -> res (tensor R)) (sh : list nat) (F : list nat -> R)
  (grad : tensor R) (back : res (tensor R)) : Prop :=
  exists r D, back = Ok r /\ tdata r = map D (indices sh)
  /\ (tshape r = sh \/ (exists k, tshape r = repeat 1%nat k ++ sh))
  /\ forall i, valid sh i -> derivable_pt_lim (fun x => weigh (tdata grad) (forward (tensor_of sh (put F i x)))) (F i) (D i).
