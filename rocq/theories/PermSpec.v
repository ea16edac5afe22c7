(** Vocabulary for permute / transpose / tril / triu. *)
From Coq Require Import ZArith List Bool Arith Permutation.
From Verif Require Import ShapeModel ShapeSpec TensorModel TensorSpec BufModel.
Import ListNotations.

(** Position [i] of the permuted list is position [ds[i]] of the original. *)
Definition permuted (ds idx : list nat) : list nat := map (fun d => nth d idx 0) ds.
(** [dims] names (negatives counting from the end) the permutation [ds]. *)
Definition names (rank : nat) (dims : list Z) (ds : list nat) : Prop :=
  Forall2 (fun d k => k < rank /\ (d = Z.of_nat k \/ d = Z.of_nat k - Z.of_nat rank)%Z) dims ds.
Definition is_perm (rank : nat) (ds : list nat) : Prop := Permutation ds (seq 0 rank).
(** [es] undoes [ds]. *)
Definition inverse_of (rank : nat) (ds es : list nat) : Prop :=
  length es = rank /\ forall i, i < rank -> nth (nth i es 0) ds 0 = i.
(** Coordinates [a] and [b] exchanged. *)
Definition swapped (a b : nat) (idx : list nat) : list nat :=
  set_nth (set_nth idx a (nth b idx 0)) b (nth a idx 0).
(** [ds] keeps the order of the dimensions of size other than 1. *)
Definition moves_only_ones (sh ds : list nat) : Prop :=
  filter (fun d => negb (nth d sh 0 =? 1)) ds = filter (fun d => negb (nth d sh 0 =? 1)) (seq 0 (length sh)).
(** The adjoint of permuting: the gradient of [sum_idx out[idx] * G idx] for
    [out = permute(x)] is [G] read at the permuted index. *)
Definition permuted_back {A} (ds : list nat) (G : list nat -> A) (idx : list nat) : A := G (permuted ds idx).
