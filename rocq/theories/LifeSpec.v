(** The computation that a program writes down, if no tensor is ever destroyed,
    and what it means for objects to be needed. *)
From Coq Require Import List Bool Arith.
From Verif Require Import AutogradModel AutogradSpec LifeModel.
Import ListNotations.

(** The operations so far, each with its rule ([None]: a tensor made by the
    program) and the operations whose results that require gradients it uses; and
    for each variable ever made the operation it is a result of, if it requires
    gradients. *)
Record story := Story { ops : list (option rule * list nat); tens : list (option nat) }.
Definition opt_list {A} (o : option A) : list A := match o with Some x => [x] | None => [] end.
Definition tell (s : story) (c : stmt) : story :=
  match c with
  | SNew true => Story (ops s ++ [(None, [])]) (tens s ++ [Some (length (ops s))])
  | SNew false => Story (ops s) (tens s ++ [None])
  | SApply en r k ins =>
    match (if en then flat_map (fun v => opt_list (nth v (tens s) None)) ins else []) with
    | [] => Story (ops s) (tens s ++ repeat None k)
    | fs => Story (ops s ++ [(Some r, fs)]) (tens s ++ repeat (Some (length (ops s))) k)
    end
  | SCopy v => Story (ops s) (tens s ++ [nth v (tens s) None])
  | _ => s
  end.
Definition story_of (p : list stmt) : story := fold_left tell p (Story [] []).
(** Its graph: [reach (graph_of s) u v] says that [u]'s result was computed from
    [v]'s; [consumers_first] is the order in which backward must run. *)
Definition node_of (o : option rule * list nat) : fn nothing := FOp (map (fun n => (n, Fresh (V := nothing) (fun x => x))) (snd o)).
Definition graph_of (s : story) : graph nothing := map node_of (ops s).

(** Programs whose operations return new tensors (not [sum()] of a scalar), which
    do not switch [requiresGrad] of existing tensors, and in which operations
    with a derivative have one result (as all of the library's have). *)
Definition plain (p : list stmt) : Prop := forall c, In c p ->
  match c with
  | SApply _ r k _ => r = NoRule \/ k = 1
  | SSumScalar _ _ | SSetRequiresGrad _ _ => False
  | _ => True
  end.

(** Variable [v] is held, and is a result of operation [f] that requires
    gradients. *)
Definition result_of (w : world) (s : story) (v f : nat) (t : tensor) : Prop :=
  obj (vars w) v = Some t /\ nth_error (tens s) v = Some (Some f).
(** [v.grad()] is defined. *)
Definition has_grad (w : world) (t : tensor) : Prop := exists m x, tmeta t = Some m /\ obj (metas w) m = Some x /\ mgrad x = true.
(** Backward from [f] only meets operations with a derivative, and those that
    keep saved data have not been run before. *)
Definition can_run (w : world) (s : story) (f : nat) : Prop :=
  forall u r fs, reach (graph_of s) f u -> nth_error (ops s) u = Some (r, fs) ->
    r <> Some NoRule /\ (r = Some Once -> ~ In u (map cfn (calls w))).
(** The calls [cs] of a backward pass: gradients are added to the objects from
    which later calls of the pass read them, and which the variables show. *)
Definition flow (w : world) (s : story) (cs : list call) : Prop :=
  forall c, In c cs ->
    (forall v t, result_of w s v (cfn c) t -> tmeta t = Some (cowner c))
    /\ exists r fs, nth_error (ops s) (cfn c) = Some (r, fs)
       /\ Forall2 (fun n m => forall c', In c' cs -> cfn c' = n -> cowner c' = m) fs (cto c).

(** What the variables need, through shared pointers. *)
Inductive needs_meta (w : world) : nat -> Prop :=
| needs_var v t m : obj (vars w) v = Some t -> tmeta t = Some m -> needs_meta w m
| needs_saved f x t m : needs_func w f -> obj (funcs w) f = Some x -> In t (fsaved x) -> tmeta t = Some m -> needs_meta w m
with needs_func (w : world) : nat -> Prop :=
| needs_fn m x : needs_meta w m -> obj (metas w) m = Some x -> needs_func w (mfn x)
| needs_order m x f : needs_meta w m -> obj (metas w) m = Some x -> In f (morder x) -> needs_func w f.
