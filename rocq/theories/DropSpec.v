(** Vocabulary for dropout: random masks. *)
From Coq Require Import List Bool Arith Reals.
From Verif Require Import TensorModel TensorSpec ReduceModel.
Import ListNotations.
Open Scope R_scope.

(** All sequences of [n] bits. *)
Fixpoint all_draws (n : nat) : list (list bool) :=
  match n with O => [[]] | S n => map (cons true) (all_draws n) ++ map (cons false) (all_draws n) end.
(** Probability of a sequence of independent bits, each [true] with probability
    [q]. *)
Definition prob (q : R) (draws : list bool) : R := fold_right (fun b acc => (if b : bool then q else 1 - q) * acc) 1 draws.
(** Expected value of [X] over [n] draws. *)
Definition expected (q : R) (n : nat) (X : list bool -> R) : R := sum (K := Rring) (fun d => prob q d * X d) (all_draws n).
Definition indicator (b : bool) : R := if b then 1 else 0.
(** Element [idx] of the tensor in a result. *)
Definition elem {A} (r : BcastModel.res (tensor R * A)) (idx : list nat) : R :=
  match r with
  | BcastModel.Ok (t, _) => nth (ShapeModel.indicesToOffset (ShapeModel.strides (tshape t)) idx) (tdata t) 0
  | _ => 0
  end.
