(** Vocabulary for indexing. *)
From Coq Require Import ZArith List Bool Arith.
From Verif Require Import ShapeModel ShapeSpec TensorModel TensorSpec BcastSpec CutModel CutSpec.
Import ListNotations.

(** The integer indices [idx] name the leading coordinates [pre] of a tensor of
    shape [sh]: every one is in range, negative ones count from the end. *)
Definition names_coords (sh : list nat) (idx : list Z) (pre : list nat) : Prop :=
  length idx = length pre /\ length pre <= length sh
  /\ forall i, i < length idx -> dim_is (nth i sh 0) (nth i idx 0%Z) (nth i pre 0).
(** The element at [idx] after a sequence of writes: the last write to [idx],
    or the old element. *)
Definition after_writes {I A} (l : list I) (at_ : I -> list nat) (v : I -> A) (F : list nat -> A) (idx : list nat) : A :=
  match find (fun i => same_idx (at_ i) idx) (rev l) with Some i => v i | None => F idx end.
(** The shape asked of expand: -1 keeps a size. *)
Definition expand_target (sh : list nat) (sizes : list Z) (rsh : list nat) : Prop :=
  length sh <= length sizes /\ length rsh = length sizes
  /\ forall p, p < length rsh ->
       let z := nth p (rev sizes) 0%Z in
       (z = (-1)%Z /\ from_right rsh p = from_right sh p) \/ (0 < z /\ z = Z.of_nat (from_right rsh p))%Z.
