(** Vocabulary for indexing with tensors of indices. *)
From Coq Require Import ZArith List Bool Arith.
From Verif Require Import ShapeModel ShapeSpec TensorModel TensorSpec CutModel CutSpec IndexSpec.
Import ListNotations.

(** The index tensors have shape [ish] and elements [Is]; at position [j] together
    they name the leading coordinates [P j] of a tensor of shape [sh]. *)
Definition names_positions (sh ish : list nat) (Is : list (list nat -> Z)) (P : list nat -> list nat) : Prop :=
  Is <> [] /\ length Is <= length sh /\ forall j, valid ish j -> names_coords sh (map (fun I => I j) Is) (P j).
(** Shape of what is addressed: the shape of the index tensors, then the
    dimensions that are not indexed. *)
Definition adv_shape (sh ish : list nat) (n : nat) : list nat := ish ++ skipn n sh.
(** Where element [idx] of the result comes from. *)
Definition adv_source (ish : list nat) (P : list nat -> list nat) (idx : list nat) : list nat :=
  P (firstn (length ish) idx) ++ skipn (length ish) idx.
