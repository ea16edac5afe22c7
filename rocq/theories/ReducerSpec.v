(** What a user expects of gradient buckets and of gradient averaging. *)
From Coq Require Import ZArith List Bool Arith Reals.
From Verif Require Import ReducerModel.
Import ListNotations.
Open Scope Z_scope.

(** Bytes of a group of parameters. *)
Definition bytes (esz : Z) (ps : list param) : Z := fold_right (fun p s => Z.of_nat (pnumel p) * esz + s) 0 ps.
(** The slices [off, off + size) follow one another from [start] and end at [stop]. *)
Fixpoint tiling (start : nat) (offs sizes : list nat) (stop : nat) : Prop :=
  match offs, sizes with
  | [], [] => start = stop
  | o :: offs, s :: sizes => o = start /\ tiling (start + s) offs sizes stop
  | _, _ => False
  end.
(** Neighbouring buckets could not have been one: the next parameter did not fit. *)
Fixpoint packed (esz cap : Z) (bs : list bucket) : Prop :=
  match bs with
  | b :: ((b' :: _) as r) => (forall p ps, bparams b' = p :: ps -> cap < bytes esz (bparams b) + bytes esz [p]) /\ packed esz cap r
  | _ => True
  end.
Definition same_kind (ps : list param) : Prop :=
  forall p q, In p ps -> In q ps -> pdevice p = pdevice q /\ pdtype p = pdtype q.

(** * A backward pass over several ranks *)
(** Every parameter's gradient becomes ready, once. *)
Definition complete (bs : list bucket) (o : list (nat * nat)) : Prop :=
  NoDup o /\ forall b p, In (b, p) o <-> exists bk, nth_error bs b = Some bk /\ (p < length (bparams bk))%nat.
(** Shapes fit: a gradient has its parameter's size, a flat buffer its bucket's. *)
Definition fits (bs : list bucket) (i : input) : Prop :=
  length (stale i) = length bs /\
  forall b bk, nth_error bs b = Some bk ->
    length (nth b (stale i) []) = btotal bk /\
    forall p q, nth_error (bparams bk) p = Some q -> length (grad i b p) = pnumel q.
(** The value a user expects: the mean over ranks. *)
Definition mean (is_ : list input) (b p k : nat) : R :=
  (fold_right Rplus 0 (map (fun i => nth k (grad i b p) 0) is_) / INR (length is_))%R.
(** The buckets in the order in which their last gradient becomes ready. *)
Fixpoint completions (o : list (nat * nat)) : list nat :=
  match o with
  | [] => []
  | (b, _) :: r => if existsb (fun x => (fst x =? b)%nat) r then completions r else b :: completions r
  end.
