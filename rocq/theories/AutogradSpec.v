(** What the autograd engine should do. *)
From Coq Require Import ZArith List Bool Arith.
From Verif Require Import AutogradModel.
Import ListNotations.

(** Functions only refer to functions recorded before them (see
    [recorded_graphs_are_acyclic]). *)
Definition acyclic {V} (g : graph V) : Prop :=
  forall u f t, nth_error g u = Some f -> In t (nexts f) -> t < u.
(** [reach g u v]: [u]'s result was computed, directly or not, from [v]'s. *)
Inductive reach {V} (g : graph V) (u : nat) : nat -> Prop :=
| reach_refl : reach g u u
| reach_step v w f : reach g u v -> nth_error g v = Some f -> In w (nexts f) -> reach g u w.
(** A list of functions that contains everything [root] depends on exactly once,
    each after all functions that use its result. *)
Definition consumers_first {V} (g : graph V) (root : nat) (order : list nat) : Prop :=
  NoDup order /\ (forall v, In v order <-> reach g root v)
  /\ forall before u after, order = before ++ u :: after ->
       forall c f, reach g root c -> nth_error g c = Some f -> In u (nexts f) -> In c before.

(** The local derivative applied along an edge. *)
Definition factor {V} (d : delivery V) : V -> V := match d with Pass => fun x => x | Fresh f => f end.
(** The edges (u, d) that end in [v]. *)
Definition edges_to {V} (g : graph V) (v : nat) : list (nat * delivery V) :=
  flat_map (fun u => match nth_error g u with
    | Some f => map (fun e => (u, snd e)) (filter (fun e => fst e =? v) (deliveries f))
    | None => [] end) (seq 0 (length g)).
(** All paths from [root] to [v], each the list of its edges' factors from
    [root] on; the last edge of a path that is not empty ends in [v].  Paths in
    [g] have at most [length g] edges. *)
Fixpoint pathsN {V} (g : graph V) (n root v : nat) : list (list (V -> V)) :=
  match n with
  | 0 => []
  | S n => (if v =? root then [[]] else [])
           ++ flat_map (fun e => map (fun p => p ++ [factor (snd e)]) (pathsN g n root (fst e))) (edges_to g v)
  end.
Definition paths {V} (g : graph V) (root v : nat) : list (list (V -> V)) := pathsN g (S (length g)) root v.
Definition along {V : gvalues} (x : V) (p : list (V -> V)) : V := fold_left (fun acc f => f acc) p x.
Definition gsum {V : gvalues} (l : list V) : V := fold_right gadd gzero l.
(** The derivative of [root]'s result with respect to [v]'s, applied to [seed]. *)
Definition total {V : gvalues} (g : graph V) (root v : nat) (seed : V) : V := gsum (map (along seed) (paths g root v)).

(** Backward rules are linear in the gradient. *)
Definition linear {V : gvalues} (f : V -> V) : Prop := f gzero = gzero /\ forall x y, f (gadd x y) = gadd (f x) (f y).
Definition linear_rules {V} (g : graph V) : Prop :=
  forall u f t d, nth_error g u = Some f -> In (t, d) (deliveries f) -> linear (factor d).

(** The gradient a tensor holds (nothing counts as zero). *)
Definition gradient {V : gvalues} (st : state V) (n : nat) : V :=
  match gradOf st n with None => gzero | Some b => nth b (heap st) gzero end.
(** [n]'s gradient tensor is not held by any other tensor of the graph. *)
Definition own {V} (st : state V) (n : nat) : Prop :=
  exists b, gradOf st n = Some b /\ forall m, m <> n -> gradOf st m <> Some b.
Definition good_heap {V} (st : state V) : Prop := forall n b, gradOf st n = Some b -> b < length (heap st).
Definition is_leaf {V} (g : graph V) (n : nat) : Prop := nth_error g n = Some FLeaf.

(** The same programs, with the number of enclosing no-grad scopes passed down:
    an operation is recorded outside all scopes, if an input requires grad. *)
Definition spec_apply {V} (depth : nat) (st : graph V * list (option nat)) (inputs : list (nat * delivery V)) : graph V * list (option nat) :=
  let needed := flat_map (fun p => match nth_error (snd st) (fst p) with Some (Some f) => [(f, snd p)] | _ => [] end) inputs in
  if (depth =? 0) && negb (length needed =? 0) then (fst st ++ [FOp needed], snd st ++ [Some (length (fst st))]) else (fst st, snd st ++ [None]).
Fixpoint spec_exec {V} (depth : nat) (p : prog V) (st : graph V * list (option nat)) : (graph V * list (option nat)) * bool :=
  match p with
  | PNil => (st, false)
  | PCons s p => let (st, thrown) := spec_stmt depth s st in if thrown then (st, true) else spec_exec depth p st
  end
with spec_stmt {V} (depth : nat) (s : stmt V) (st : graph V * list (option nat)) : (graph V * list (option nat)) * bool :=
  match s with
  | SLeaf r => ((if r then (fst st ++ [FLeaf], snd st ++ [Some (length (fst st))]) else (fst st, snd st ++ [None])), false)
  | SApply inputs => (spec_apply depth st inputs, false)
  | SNoGrad body => spec_exec (S depth) body st
  | SThrow => (st, true)
  | STry body => (fst (spec_exec depth body st), false)
  end.

(** Hooks by identifier, in registration order. *)
Definition live_hooks (H : Type) := list (Z * H).
(** [right_hooks live calls returns]: every call returned what it should. *)
Inductive right_hooks {H} : live_hooks H -> list (hook_call H) -> list (hook_ret H) -> Prop :=
| rh_nil live : right_hooks live [] []
| rh_register live h id cs rs : ~ In id (map fst live) ->
    right_hooks (live ++ [(id, h)]) cs rs -> right_hooks live (Register h :: cs) (RId id :: rs)
| rh_unregister live live1 live2 id h cs rs : live = live1 ++ (id, h) :: live2 ->
    right_hooks (live1 ++ live2) cs rs -> right_hooks live (Unregister id :: cs) (RDone :: rs)
| rh_backward live cs rs : right_hooks live cs rs -> right_hooks live (Backward :: cs) (RRan (map snd live) :: rs).
(** Only the newest hook is unregistered ([n] hooks are registered). *)
Fixpoint newest_first {H} (n : nat) (cs : list (hook_call H)) : Prop :=
  match cs with
  | [] => True
  | Register _ :: cs => newest_first (S n) cs
  | Unregister id :: cs => n <> 0 /\ id = Z.of_nat (n - 1) /\ newest_first (n - 1) cs
  | Backward :: cs => newest_first n cs
  end.

(** Backward rules pass the incoming tensor itself only to an input that has no
    gradient yet and gets no other delivery, or to one that already holds a
    gradient tensor of its own. *)
Definition passes_safely {V} (g : graph V) (root : nat) (undefined : nat -> Prop) : Prop :=
  forall u f t, reach g root u -> nth_error g u = Some f -> In (t, Pass) (deliveries f) -> undefined t ->
  count_occ Nat.eq_dec (nexts f) t = 1
  /\ forall c fc, reach g root c -> nth_error g c = Some fc -> In t (nexts fc) -> c = u.
(** Operations [root] depends on have no gradient yet. *)
Definition new_graph {V} (g : graph V) (st : state V) (root : nat) : Prop :=
  forall v ds, reach g root v -> nth_error g v = Some (FOp ds) -> gradOf st v = None.
(** [walk g root v p]: [p] lists the factors along a path from [root] to [v]. *)
Inductive walk {V : gvalues} (g : graph V) (root : nat) : nat -> list (V -> V) -> Prop :=
| walk_nil : walk g root root []
| walk_snoc u f t d p : walk g root u p -> nth_error g u = Some f -> In (t, d) (deliveries f) -> walk g root t (p ++ [factor d]).
(** The values saved by a sequence of calls; the number of pops. *)
Fixpoint pushed {A} (cs : list (ctx_call A)) : list A :=
  match cs with [] => [] | PushData x :: cs => x :: pushed cs | PopData :: cs => pushed cs end.
Fixpoint pops {A} (cs : list (ctx_call A)) : nat :=
  match cs with [] => 0 | PushData _ :: cs => pops cs | PopData :: cs => S (pops cs) end.
