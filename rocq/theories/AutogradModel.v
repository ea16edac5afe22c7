(** The autograd engine: src/Tensor/AutogradMeta.cpp, Function.h, Function.cpp,
    NoGradGuard.h and the autograd part of Tensor.cpp. *)
From Coq Require Import ZArith List Bool Arith.
Import ListNotations.

(** Gradient values with their addition ([op::addInplace(grad_, grad, 1)]).
    Shapes are not modelled here; see BcastModel for reduceGrad.
    AutogradMeta.cpp:29-43. *)
Record gvalues := GValues {
  gcar :> Type;
  gzero : gcar;
  gadd : gcar -> gcar -> gcar;
  gadd_0 : forall x, gadd gzero x = x;
  gadd_comm : forall x y, gadd x y = gadd y x;
  gadd_assoc : forall x y z, gadd x (gadd y z) = gadd (gadd x y) z }.
Arguments gzero {_}.
Arguments gadd {_} _ _.

(** How a backward rule hands a gradient to one of its inputs: the incoming
    tensor object itself (FuncElemWise.h:30-32 with 81-86 and 100-102, when no
    dimension is reduced) or a new tensor computed from it. *)
Inductive delivery (V : gvalues) := Pass | Fresh (f : V -> V).
Arguments Pass {V}.
Arguments Fresh {V} f.
(** A recorded function (Function.h:36-43): a leaf, or an operation with the
    inputs that require grad: their functions, and how their gradient is made.
    [nextFunctions] and the deliveries of [backward] go to the same inputs.
    The function and the AutogradMeta that owns it have the same number. *)
Inductive fn (V : gvalues) := FLeaf | FOp (ds : list (nat * delivery V)).
Arguments FLeaf {V}.
Arguments FOp {V} ds.
(** Model only: the recorded functions reachable through Function.h:40. *)
Definition graph (V : gvalues) := list (fn V).
(** Model only: the calls of [addGrad] a function's backward makes
    (Function.h:38). *)
Definition deliveries {V} (f : fn V) : list (nat * delivery V) := match f with FLeaf => [] | FOp ds => ds end.
(** Function.h:40, [nextFunctions]. *)
Definition nexts {V} (f : fn V) : list nat := map fst (deliveries f).

(** * Order of the backward pass.  Model only: function update. *)
Definition upd {A} (f : nat -> A) (i : nat) (x : A) : nat -> A := fun j => if j =? i then x else f j.
(** Model only: membership, for the sets of AutogradMeta.cpp:95-99. *)
Definition mem (x : nat) (l : list nat) : bool := existsb (Nat.eqb x) l.
(** AutogradMeta.cpp:103-111: the edges of one function. *)
Fixpoint countEdges (ns : list nat) (q traversed : list nat) (deps : nat -> Z) : list nat * list nat * (nat -> Z) :=
  match ns with
  | [] => (q, traversed, deps)
  | n :: ns =>
    let deps := upd deps n (deps n + 1)%Z in
    if mem n traversed then countEdges ns q traversed deps else countEdges ns (q ++ [n]) (n :: traversed) deps
  end.
(** AutogradMeta.cpp:98-112.  [None]: a function that no longer exists
    ([ASSERT(nextFn != nullptr)]), or out of fuel (never happens, see
    [backward_order]). *)
Fixpoint countDeps {V} (g : graph V) (fuel : nat) (q traversed : list nat) (deps : nat -> Z) : option (nat -> Z) :=
  match q with
  | [] => Some deps
  | curr :: q =>
    match fuel, nth_error g curr with
    | S fuel, Some f => let '(q, traversed, deps) := countEdges (nexts f) q traversed deps in countDeps g fuel q traversed deps
    | _, _ => None
    end
  end.
(** AutogradMeta.cpp:119-126. *)
Fixpoint releaseEdges (ns : list nat) (q : list nat) (deps : nat -> Z) : list nat * (nat -> Z) :=
  match ns with
  | [] => (q, deps)
  | n :: ns =>
    let deps := upd deps n (deps n - 1)%Z in
    releaseEdges ns (if (deps n =? 0)%Z then q ++ [n] else q) deps
  end.
(** AutogradMeta.cpp:114-127. *)
Fixpoint emit {V} (g : graph V) (fuel : nat) (q : list nat) (deps : nat -> Z) : option (list nat) :=
  match q with
  | [] => Some []
  | curr :: q =>
    match fuel, nth_error g curr with
    | S fuel, Some f =>
      let '(q, deps) := releaseEdges (nexts f) q deps in
      option_map (cons curr) (emit g fuel q deps)
    | _, _ => None
    end
  end.
(** AutogradMeta.cpp:94-128, [buildBackwardGraph]. *)
Definition buildBackwardGraph {V} (g : graph V) (root : nat) : option (list nat) :=
  match countDeps g (S (length g)) [root] [root] (fun _ => 0%Z) with
  | None => None
  | Some deps => emit g (S (length g)) [root] deps
  end.

(** * Gradients *)
(** Tensor objects that hold gradients live in [heap]; [gradOf n] is the tensor
    in [grad_] of AutogradMeta [n].  [ran] lists the functions whose backward
    ran (a ghost variable, not in the code).  AutogradMeta.h:40-43. *)
Record state (V : gvalues) := State { heap : list V; gradOf : nat -> option nat; ran : list nat }.
Arguments State {V}.
Arguments heap {V}.
Arguments gradOf {V}.
Arguments ran {V}.
(** Model only: [v[i] = x]. *)
Fixpoint setNth {A} (l : list A) (i : nat) (x : A) : list A :=
  match l, i with
  | [], _ => []
  | _ :: l, 0 => x :: l
  | y :: l, S i => y :: setNth l i x
  end.
(** A new tensor object.  Model only. *)
Definition alloc {V} (st : state V) (x : V) : state V * nat :=
  (State (heap st ++ [x]) (gradOf st) (ran st), length (heap st)).
(** AutogradMeta.cpp:29-43, [addGrad].  The in-place addition writes the tensor
    object; only objects that share its storage are protected by copyOnWrite
    (TensorImpl.cpp:40-46), the other holders of the same object are not. *)
Definition addGrad {V} (st : state V) (n buf : nat) : option (state V) :=
  match gradOf st n with
  | None => Some (State (heap st) (upd (gradOf st) n (Some buf)) (ran st))
  | Some b =>
    match nth_error (heap st) b, nth_error (heap st) buf with
    | Some x, Some y => Some (State (setNth (heap st) b (gadd x y)) (gradOf st) (ran st))
    | _, _ => None
    end
  end.
(** One statement [input.addGrad(...)] of a backward rule that received tensor
    [buf], e.g. FuncElemWise.h:117-122. *)
Definition deliver {V} (st : state V) (buf : nat) (d : nat * delivery V) : option (state V) :=
  match snd d with
  | Pass => addGrad st (fst d) buf
  | Fresh f =>
    match nth_error (heap st) buf with
    | None => None
    | Some x => let (st, b) := alloc st (f x) in addGrad st (fst d) b
    end
  end.
(** Model only: the calls of one backward rule, in order (Function.h:55). *)
Fixpoint deliverAll {V} (st : state V) (buf : nat) (ds : list (nat * delivery V)) : option (state V) :=
  match ds with
  | [] => Some st
  | d :: ds => match deliver st buf d with None => None | Some st => deliverAll st buf ds end
  end.
(** AutogradMeta.cpp:71-75: [currFunc->backward(owner->grad_)].  A leaf sets its
    gradient to itself (Function.cpp:13-22; hooks are below).  An operation whose
    gradient is undefined fails. *)
Definition runFn {V} (g : graph V) (st : state V) (n : nat) : option (state V) :=
  match nth_error g n with
  | None => None
  | Some f =>
    match gradOf st n with
    | None => None
    | Some buf =>
      match deliverAll st buf (deliveries f) with
      | None => None
      | Some st => Some (State (heap st) (gradOf st) (ran st ++ [n]))
      end
    end
  end.
(** AutogradMeta.cpp:71-75, the loop. *)
Fixpoint runAll {V} (g : graph V) (st : state V) (order : list nat) : option (state V) :=
  match order with
  | [] => Some st
  | n :: order => match runFn g st n with None => None | Some st => runAll g st order end
  end.
(** AutogradMeta.cpp:58-76, [backward] on the tensor of function [root] with the
    gradient tensor [seed].  (The cached order of a second call is the same
    list.) *)
Definition backward {V} (g : graph V) (st : state V) (root seed : nat) : option (state V) :=
  match buildBackwardGraph g root with
  | None => None
  | Some order => match addGrad st root seed with None => None | Some st => runAll g st order end
  end.
(** AutogradMeta.cpp:45-50, [zeroGrad]. *)
Definition zeroGrad {V} (st : state V) (n : nat) : state V :=
  match gradOf st n with
  | None => State (heap st ++ [gzero]) (upd (gradOf st) n (Some (length (heap st)))) (ran st)
  | Some b => State (setNth (heap st) b gzero) (gradOf st) (ran st)
  end.
(** Optimizer.cpp:22-26: zero the gradients of all parameters; then a pass with a
    new gradient tensor (Tensor.cpp:181-196). *)
Definition pass {V} (g : graph V) (leaves : list nat) (st : state V) (p : nat * V) : option (state V) :=
  let st := fold_left zeroGrad leaves st in
  let (st, b) := alloc st (snd p) in
  backward g st (fst p) b.
(** Model only: several passes, each after Optimizer.cpp:22-26. *)
Fixpoint passes {V} (g : graph V) (leaves : list nat) (st : state V) (ps : list (nat * V)) : option (state V) :=
  match ps with
  | [] => Some st
  | p :: ps => match pass g leaves st p with None => None | Some st => passes g leaves st ps end
  end.

(** * Recording *)
(** A program: create a leaf, apply an operation to earlier tensors (with the
    way its backward rule treats each), a WithNoGrad scope, throw, try.  Model
    only: see [record] for the lines. *)
Inductive stmt (V : gvalues) :=
| SLeaf (requiresGrad : bool)
| SApply (inputs : list (nat * delivery V))
| SNoGrad (body : prog V)
| SThrow
| STry (body : prog V)
with prog (V : gvalues) := PNil | PCons (s : stmt V) (p : prog V).
Arguments SLeaf {V}. Arguments SApply {V}. Arguments SNoGrad {V}. Arguments SThrow {V}. Arguments STry {V}.
Arguments PNil {V}. Arguments PCons {V}.
(** The functions recorded so far; for each tensor, its function if it requires
    grad; the thread's [gradEnabled].  Model only: what Function.h:62-69 and
    36-43 keep. *)
Record rec_state (V : gvalues) := RState { fns : graph V; tensors : list (option nat); gradEnabled : bool }.
Arguments RState {V}. Arguments fns {V}. Arguments tensors {V}. Arguments gradEnabled {V}.
(** Function.h:62-69, [collectTensorInfo] over the inputs. *)
Definition collect {V} (tensors : list (option nat)) (inputs : list (nat * delivery V)) : list (nat * delivery V) :=
  flat_map (fun p => match nth_error tensors (fst p) with Some (Some f) => [(f, snd p)] | _ => [] end) inputs.
(** Function.h:106-144, [Function<T>::apply], with Tensor.cpp:94-108. *)
Definition apply {V} (st : rec_state V) (inputs : list (nat * delivery V)) : rec_state V :=
  let ds := if gradEnabled st then collect (tensors st) inputs else [] in
  match ds with
  | [] => RState (fns st) (tensors st ++ [None]) (gradEnabled st)
  | _ => RState (fns st ++ [FOp ds]) (tensors st ++ [Some (length (fns st))]) (gradEnabled st)
  end.
(** Execution; the boolean says whether an exception is propagating.
    NoGradGuard.h:13-18: the destructor runs on both exits. *)
Fixpoint exec {V} (p : prog V) (st : rec_state V) : rec_state V * bool :=
  match p with
  | PNil => (st, false)
  | PCons s p => let (st, thrown) := execStmt s st in if thrown then (st, true) else exec p st
  end
with execStmt {V} (s : stmt V) (st : rec_state V) : rec_state V * bool :=
  match s with
  | SLeaf r =>
    (if r then RState (fns st ++ [FLeaf]) (tensors st ++ [Some (length (fns st))]) (gradEnabled st)
     else RState (fns st) (tensors st ++ [None]) (gradEnabled st), false)
  | SApply inputs => (apply st inputs, false)
  | SNoGrad body =>
    let prevGradEnabled := gradEnabled st in
    let (st, thrown) := exec body (RState (fns st) (tensors st) false) in
    (RState (fns st) (tensors st) prevGradEnabled, thrown)
  | SThrow => (st, true)
  | STry body => let (st, _) := exec body st in (st, false)
  end.

(** * Hooks *)
(** AutogradMeta.cpp:78-92 and Function.cpp:13-22 on the meta of one tensor that
    requires grad; [H] are the hooks (function and context pointer). *)
Inductive hook_call (H : Type) := Register (h : H) | Unregister (hid : Z) | Backward.
Arguments Register {H}. Arguments Unregister {H}. Arguments Backward {H}.
(** What a call returns: an identifier, nothing (or an assertion failure), or
    the hooks that ran.  Model only. *)
Inductive hook_ret (H : Type) := RId (hid : Z) | RDone | RAssert | RRan (hs : list H).
Arguments RId {H}. Arguments RDone {H}. Arguments RAssert {H}. Arguments RRan {H}.
(** AutogradMeta.cpp:78-92 and Function.cpp:13-22. *)
Definition hookStep {H} (isLeaf : bool) (hooks : list H) (c : hook_call H) : list H * hook_ret H :=
  match c with
  | Register h => (hooks ++ [h], RId (Z.of_nat (length (hooks ++ [h]) - 1)))
  | Unregister hid =>
    if ((0 <=? hid) && (hid <? Z.of_nat (length hooks)))%Z
    then (firstn (Z.to_nat hid) hooks ++ skipn (S (Z.to_nat hid)) hooks, RDone)
    else (hooks, RAssert)
  | Backward => (hooks, RRan (if isLeaf then hooks else []))
  end.
(** Model only: several calls. *)
Fixpoint hookRun {H} (isLeaf : bool) (hooks : list H) (cs : list (hook_call H)) : list (hook_ret H) :=
  match cs with
  | [] => []
  | c :: cs => let (hooks, r) := hookStep isLeaf hooks c in r :: hookRun isLeaf hooks cs
  end.

(** * Saved data *)
(** Function.h:20-34, [AutogradContext]: push and pop on the deque; [None] is the
    failed assertion. *)
Inductive ctx_call (A : Type) := PushData (x : A) | PopData.
Arguments PushData {A}. Arguments PopData {A}.
(** Function.h:24-31. *)
Definition ctxStep {A} (savedData : list A) (c : ctx_call A) : option (list A * list A) :=
  match c with
  | PushData x => Some (savedData ++ [x], [])
  | PopData => match savedData with [] => None | x :: rest => Some (rest, [x]) end
  end.
(** The values popped, in order.  Model only. *)
Fixpoint ctxRun {A} (savedData : list A) (cs : list (ctx_call A)) : option (list A * list A) :=
  match cs with
  | [] => Some (savedData, [])
  | c :: cs =>
    match ctxStep savedData c with
    | None => None
    | Some (savedData, out) => match ctxRun savedData cs with None => None | Some (d, outs) => Some (d, out ++ outs) end
    end
  end.
