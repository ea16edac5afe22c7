(** What it means for a tensor to hold given values, independently of strides
    and offsets. *)
From Coq Require Import List Bool Arith.
From Verif Require Import ShapeModel ShapeSpec TensorModel.
Import ListNotations.

(** The tensor of shape [sh] whose element at multi-index [idx] is [F idx]. *)
Definition tensor_of {A} (sh : list nat) (F : list nat -> A) : tensor A := mkT sh (map F (indices sh)).
(** A well-formed tensor has as many elements as its shape says. *)
Definition twf {A} (t : tensor A) : Prop := length (tdata t) = numel (tshape t).
(** [F] and [G] agree on a shape. *)
Definition agree {A} (sh : list nat) (F G : list nat -> A) : Prop := forall idx, valid sh idx -> F idx = G idx.

(** Sum of [f] over a list of indices. *)
Definition sum {K : cring} {I} (f : I -> K) (l : list I) : K := fold_right (fun i acc => add (f i) acc) zero l.
Arguments sum : simpl never.
