(** Vocabulary for rotary embeddings. *)
From Coq Require Import List Bool Arith Reals.
From Verif Require Import ShapeModel ShapeSpec TensorModel TensorSpec ReduceModel.
Import ListNotations.
Open Scope R_scope.

(** A table of rotations: cosines and sines [c], [s] of each position and pair,
    stored for both elements of the pair. *)
Definition table (ctx headDim : nat) (c s : nat -> nat -> R) : tensor R :=
  tensor_of [ctx; headDim; 2%nat] (fun idx => match idx with
    | [pos; j; k] => let i := (j mod (headDim / 2))%nat in if (k =? 0)%nat then c pos i else s pos i
    | _ => 0
    end).
Definition rotations (f : nat -> R) (ctx headDim : nat) : tensor R := table ctx headDim (fun p i => cos (INR p * f i)) (fun p i => sin (INR p * f i)).
Definition opposite (f : nat -> R) (ctx headDim : nat) : tensor R := table ctx headDim (fun p i => cos (INR p * f i)) (fun p i => - sin (INR p * f i)).
(** The pair [(j, j + half)] rotated by the angle of position [off + t]. *)
Definition rotated (headDim off : nat) (c s : nat -> nat -> R) (F : list nat -> R) (idx : list nat) : R :=
  match idx with
  | [b; h; t; j] =>
    let half := (headDim / 2)%nat in let i := (j mod half)%nat in
    if (j <? half)%nat then F [b; h; t; j] * c (off + t)%nat i - F [b; h; t; j + half]%nat * s (off + t)%nat i
    else F [b; h; t; j] * c (off + t)%nat i + F [b; h; t; j - half]%nat * s (off + t)%nat i
  | _ => 0
  end.
(** The attention score of query row [t] and key row [t'] of head [(b, h)]. *)
Definition score (headDim : nat) (Q K : list nat -> R) (b h t t' : nat) : R :=
  sum (K := Rring) (fun j => Q [b; h; t; j] * K [b; h; t'; j]) (seq 0 headDim).
