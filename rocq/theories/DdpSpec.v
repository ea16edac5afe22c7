(** What a user expects of data-parallel training: the same as training in one
    process with the mean of the ranks' gradients. *)
From Coq Require Import List Arith Reals.
From Verif Require Import OptimModel ReducerModel ReducerSpec DdpModel.
Import ListNotations.
Open Scope nat_scope.

(** The mean over the ranks of the gradients computed at the parameters [v]. *)
Definition meanGrad (it : iter) (v : list R) (i : nat) : R :=
  (fold_right Rplus 0 (map (fun l => lgrad l v i) (ilocal it)) / INR (length (ilocal it)))%R.
(** The script of a single process with [n] parameter elements: in every
    iteration the mean gradient at the current values is delivered. *)
Fixpoint script (n : nat) (a : algo) (lr0 : R) (th : nat -> R) (its : list iter) (es : list event) : list event :=
  match its with
  | [] => es
  | it :: r =>
    script n a lr0 th r
      (es ++ (match irate it with Some x => [ELr x] | None => [] end)
          ++ (if izero it then [EZero] else [])
          ++ map (fun i => EGrad i (meanGrad it (map (theta (train n a lr0 th es)) (seq 0 n)) i)) (seq 0 n)
          ++ [EStep])
  end.
Definition singleProcess (n : nat) (a : algo) (lr0 : R) (th : nat -> R) (its : list iter) : ost :=
  train n a lr0 th (script n a lr0 th its []).
(** In every iteration each of the [w] ranks gets a gradient for every parameter,
    and on all of them the buckets become full in the same order. *)
Definition regular (bs : list bucket) (w : nat) (it : iter) : Prop :=
  length (ilocal it) = w /\
  exists c, forall l, In l (ilocal it) ->
    complete bs (lorder l) /\ completions (lorder l) = c /\ map (@length R) (lstale l) = map btotal bs.
