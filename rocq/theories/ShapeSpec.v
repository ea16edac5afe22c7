(** Vocabulary for the shape properties. *)
From Coq Require Import ZArith List Bool Arith.
From Verif Require Import ShapeModel.
Import ListNotations.

(** All multi-indices of a shape in row-major (lexicographic) order: the k-th
    element of a tensor's data belongs to the k-th multi-index. *)
Fixpoint indices (shape : list nat) : list (list nat) :=
  match shape with
  | [] => [[]]
  | d :: r => flat_map (fun i => map (cons i) (indices r)) (seq 0 d)
  end.
(** In-range multi-index. *)
Definition valid (shape idx : list nat) : Prop := Forall2 (fun i d => i < d) idx shape.

Local Open Scope Z_scope.

Definition prod (l : list Z) : Z := fold_right Z.mul 1 l.

(** A consistent tensor. *)
Definition wf {A} (t : view A) : Prop :=
  Forall (fun d => 0 <= d) (vshape t) /\ vnumel t = prod (vshape t)
  /\ vstrides t = stridesZ (vshape t) /\ Z.of_nat (length (vdata t)) = vnumel t.

(** [sh] is the request [req] with its -1 (if any) replaced by a size, and has
    [n] elements. *)
Definition resolves (req : list Z) (n : Z) (sh : list Z) : Prop :=
  Forall2 (fun r s => if r =? -1 then 0 <= s else s = r) req sh
  /\ prod sh = n /\ (count_occ Z.eq_dec req (-1)%Z <= 1)%nat.

(** The negative-dimension convention. *)
Definition norm (rank d : Z) : Z := if d <? 0 then d + rank else d.

(** Dimensions named in [dims] (after normalisation) and of size 1 disappear;
    with no list, all of size 1. *)
Definition kept (rank : Z) (dims : list Z) (i x : Z) : bool :=
  negb ((x =? 1) && match dims with [] => true | _ => existsb (fun d => norm rank d =? i) dims end).
Fixpoint keep (rank : Z) (dims : list Z) (i : Z) (sh : list Z) : list Z :=
  match sh with
  | [] => []
  | x :: r => if kept rank dims i x then x :: keep rank dims (i + 1) r else keep rank dims (i + 1) r
  end.
