(** The broadcasting rule. *)
From Coq Require Import List Bool Arith.
From Verif Require Import ShapeModel ShapeSpec TensorModel TensorSpec.
Import ListNotations.

(** Size of a shape at position [p] counted from the last dimension; missing
    leading dimensions count as 1. *)
Definition from_right (s : list nat) (p : nat) : nat := nth p (rev s) 1.
(** [sh] is the broadcast of [shapes]: its rank is the largest rank, and at every
    position each operand has size 1 or that of [sh], which is one of theirs (or
    1 if there is no operand). *)
Definition is_broadcast (shapes : list (list nat)) (sh : list nat) : Prop :=
  length sh = list_max (map (@length nat) shapes)
  /\ forall p, p < length sh ->
       (forall s, In s shapes -> from_right s p = 1 \/ from_right s p = from_right sh p)
       /\ (from_right sh p = 1 \/ exists s, In s shapes /\ from_right s p = from_right sh p).
(** No zero-size dimension. *)
Definition positive (s : list nat) : Prop := Forall (fun d => 0 < d) s.

(** The element of an operand of shape [s] that output index [idx] reads: drop
    the extra leading coordinates, and use coordinate 0 where the operand has
    size 1. *)
Definition bidx (s idx : list nat) : list nat :=
  map (fun p => if fst p =? 1 then 0 else snd p) (combine s (skipn (length idx - length s) idx)).

(** Coordinates kept by a reduction: the marked ones become 0 (keepdims) or
    disappear. *)
Definition reduced_idx (ax : list bool) (keepDims : bool) (idx : list nat) : list nat :=
  flat_map (fun p => if snd p : bool then (if keepDims then [0] else []) else [fst p]) (combine idx ax).
Definition reduced_shape (ax : list bool) (keepDims : bool) (sh : list nat) : list nat :=
  flat_map (fun p => if snd p : bool then (if keepDims then [1] else []) else [fst p]) (combine sh ax).
Definition same_idx (a b : list nat) : bool := if list_eq_dec Nat.eq_dec a b then true else false.

(** [s] can be broadcast to [sh]. *)
Definition bto (s sh : list nat) : Prop :=
  length s <= length sh /\ Forall2 (fun d e => d = 1 \/ d = e) s (skipn (length sh - length s) sh).

(** The gradient an operand of shape [self] should get. *)
Definition reduced_grad {K : cring} (self gsh : list nat) (F : list nat -> K) (sidx : list nat) : K :=
  sum F (filter (fun idx => same_idx (bidx self idx) sidx) (indices gsh)).

