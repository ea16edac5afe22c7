(** Lifetimes of the autograd objects: which AutogradMeta and Function objects
    exist at each moment of a program that makes, copies, assigns and drops
    tensors, when [nextFunctions] and [weakOwner] are weak pointers.
    src/Tensor/Tensor.h:282-283, Tensor.cpp:94-123, Function.h:20-150,
    Function.cpp:13-22, AutogradMeta.cpp:18-128.

    Simplifications: values, shapes and gradients are left out (a gradient is
    defined or not); TensorImpl and Storage are never freed (no weak pointer
    refers to them); the depth of nested destructors is unbounded; one thread. *)
From Coq Require Import List Bool Arith.
From Verif Require Import AutogradModel.
Import ListNotations.

(** Tensor.h:282-283: a tensor variable holds [impl_] and [gradMeta_], both
    shared pointers; copies of the variable share both (Tensor.h:31). *)
Record tensor := Tensor { timpl : nat; tmeta : option nat }.
(** What a class's [backward] does with its context: uses only the saved inputs
    (FuncElemWise.h:39-158, FuncTransform.h:13-24, FuncNNLayer.h:14-40); pops
    saved data, so it can run once (FuncActivation.h:53-63, 76-86,
    FuncNNLayer.h:63-75, 108-140, 178-210, FuncLoss.h:14-47); or
    [NOT_IMPLEMENTED()] (e.g. FuncReduce.h:14-52, FuncTransform.h:53-170,
    FuncSampling.h:14-43, FuncLinalg.h:14-21). *)
Inductive rule := Keeps | Once | NoRule.
(** Function.h:36-43 and 20-23, a FunctionBase with its context: the class
    ([None]: FuncLeaf), [nextFunctions] (weak), [ctx->savedInputs] (shared),
    [weakOwner] (weak), and whether the saved data has been popped.  Tensors in
    [savedData] have no [gradMeta_] (FuncActivation.h:45-49 saves a result made
    with [noGrad()] before Function.h:140 marks it) and are left out. *)
Record func := Func { frule : option rule; fnexts : list nat; fsaved : list tensor; fowner : nat; fspent : bool }.
(** AutogradMeta.h:40-43: [gradFn_] (shared), [backwardGraph_] (shared), whether
    [grad_] is defined.  Gradients do not require gradients. *)
Record meta := Meta { mfn : nat; morder : list nat; mgrad : bool }.
(** One call of a function's [backward]: the function, the AutogradMeta whose
    gradient it read, the AutogradMetas it added gradients to.  A ghost: not in
    the code. *)
Record call := Call { cfn : nat; cowner : nat; cto : list nat }.
(** The memory: [requiresGrad_] of each TensorImpl; the AutogradMeta and
    Function objects by number, [None] once destroyed; the tensor variables,
    [None] once dropped; the calls made so far (ghost).  Model only. *)
Record world := World {
  flags : list bool; metas : list (option meta); funcs : list (option func); vars : list (option tensor); calls : list call }.

(** Model only: object number [i] if it exists. *)
Definition obj {A} (l : list (option A)) (i : nat) : option A := match nth_error l i with Some o => o | None => None end.
(** Model only: write through a pointer. *)
Definition modify {A} (l : list (option A)) (i : nat) (f : A -> A) : list (option A) :=
  match obj l i with None => l | Some x => setNth l i (Some (f x)) end.
(** Model only: [impl_->options().requiresGrad_]. *)
Definition flag (w : world) (t : tensor) : bool := nth (timpl t) (flags w) false.
(** Model only: the parts of the memory replaced one at a time. *)
Definition setFlags (w : world) x := World x (metas w) (funcs w) (vars w) (calls w).
(** Model only. *)
Definition setMetas (w : world) x := World (flags w) x (funcs w) (vars w) (calls w).
(** Model only. *)
Definition setFuncs (w : world) x := World (flags w) (metas w) x (vars w) (calls w).
(** Model only. *)
Definition setVars (w : world) x := World (flags w) (metas w) (funcs w) x (calls w).
(** Model only. *)
Definition addCall (w : world) c := World (flags w) (metas w) (funcs w) (vars w) (calls w ++ [c]).

(** * Destruction *)
(** Model only: the AutogradMetas that a list of tensors points to. *)
Definition metasOf (ts : list tensor) : list nat := flat_map (fun t => match tmeta t with Some m => [m] | None => [] end) ts.
(** Model only: the existing ones of a list. *)
Definition existing {A} (l : list (option A)) : list A := flat_map (fun o => match o with Some x => [x] | None => [] end) l.
(** The shared pointers to AutogradMetas: of variables (Tensor.h:283) and of
    saved inputs of existing functions (Function.h:22, 41). *)
Definition metaRefs (w : world) : list nat := metasOf (existing (vars w)) ++ flat_map (fun f => metasOf (fsaved f)) (existing (funcs w)).
(** The shared pointers to functions: AutogradMeta.h:41-42 of existing metas. *)
Definition funcRefs (w : world) : list nat := flat_map (fun m => mfn m :: morder m) (existing (metas w)).
(** Model only: destroy what is not in [refs]. *)
Fixpoint keep {A} (refs : list nat) (i : nat) (l : list (option A)) : list (option A) :=
  match l with
  | [] => []
  | o :: l => (if mem i refs then o else None) :: keep refs (S i) l
  end.
(** The objects that no shared pointer refers to are destroyed
    ([std::shared_ptr]; the counts it keeps are those of [metaRefs] and
    [funcRefs]). *)
Definition sweepOnce (w : world) : world := setFuncs (setMetas w (keep (metaRefs w) 0 (metas w))) (keep (funcRefs w) 0 (funcs w)).
(** Model only: [n] times. *)
Fixpoint times {A} (n : nat) (f : A -> A) (x : A) : A := match n with 0 => x | S n => times n f (f x) end.
(** Destructors drop the pointers of what they destroy, until nothing more is to
    be destroyed (the order among them does not matter here). *)
Definition sweep (w : world) : world := times (length (metas w) + length (funcs w)) sweepOnce w.

(** * Statements *)
(** Tensor.cpp:99-108 with AutogradMeta.cpp:18-22, on a variable's tensor that
    requires grad: [initAutogradMeta(fn)]; the tensor it becomes. *)
Definition initMeta (w : world) (t : tensor) (fn : option nat) : world * tensor :=
  let '(w, f) := match fn with Some f => (w, f) | None => (setFuncs w (funcs w ++ [Some (Func None [] [] 0 false)]), length (funcs w)) end in
  let '(w, m) := match tmeta t with
    | Some m => (setMetas w (modify (metas w) m (fun x => Meta f (morder x) (mgrad x))), m)
    | None => (setMetas w (metas w ++ [Some (Meta f [] false)]), length (metas w)) end in
  (setFuncs w (modify (funcs w) f (fun x => Func (frule x) (fnexts x) (fsaved x) m (fspent x))), Tensor (timpl t) (Some m)).
(** Model only: a new variable. *)
Definition newVar (w : world) (t : tensor) : world := setVars w (vars w ++ [Some t]).
(** Tensor.cpp:18-26, a new tensor with [options.requiresGrad(r)]. *)
Definition create (w : world) (r : bool) : world :=
  let t := Tensor (length (flags w)) None in
  let w := setFlags w (flags w ++ [r]) in
  if r then let '(w, t) := initMeta w t None in newVar w t else newVar w t.
(** Function.h:62-69, [collectTensorInfo] of the inputs: the functions of those
    that require grad; [None] is the assertion of Tensor.cpp:140. *)
Fixpoint gradFns (w : world) (ts : list tensor) : option (list nat) :=
  match ts with
  | [] => Some []
  | t :: ts =>
    if flag w t then
      match tmeta t with
      | None => None
      | Some m => match obj (metas w) m, gradFns w ts with Some x, Some fs => Some (mfn x :: fs) | _, _ => None end
      end
    else gradFns w ts
  end.
(** Function.h:84-104, [handleOutputTensor] of the new tensors that the forward
    function returned (one, a pair or a list), recorded as results of [f] or
    not. *)
Fixpoint outputs (w : world) (k : nat) (f : option nat) : world :=
  match k with
  | 0 => w
  | S k =>
    let t := Tensor (length (flags w)) None in
    let w := setFlags w (flags w ++ [match f with Some _ => true | None => false end]) in
    let '(w, t) := match f with Some f => initMeta w t (Some f) | None => (w, t) end in
    outputs (newVar w t) k f
  end.
(** Model only: the tensors of variables that are still held. *)
Fixpoint held (w : world) (vs : list nat) : option (list tensor) :=
  match vs with
  | [] => Some []
  | v :: vs => match obj (vars w) v, held w vs with Some t, Some ts => Some (t :: ts) | _, _ => None end
  end.
(** Function.h:106-144, [apply] with NoGradGuard::isGradEnabled() = [en], for a
    class of kind [r] whose forward function makes [k] new tensors. *)
Definition apply (w : world) (en : bool) (r : rule) (k : nat) (ts : list tensor) : option world :=
  if en then
    match gradFns w ts with
    | None => None
    | Some [] => Some (outputs w k None)
    | Some fs => Some (outputs (setFuncs w (funcs w ++ [Some (Func (Some r) fs ts 0 false)])) k (Some (length (funcs w))))
    end
  else Some (outputs w k None).
(** The same for [sum()] of a scalar, whose forward function returns its
    argument, with its [gradMeta_] (OpReduceCpu.h:183-187, FuncReduce.h:54-66):
    Function.h:84-91 then acts on the argument's own AutogradMeta. *)
Definition sumScalar (w : world) (en : bool) (t : tensor) : option world :=
  match (if en then gradFns w [t] else Some []) with
  | None => None
  | Some [] => if flag w t then None else Some (newVar w t)
  | Some fs =>
    let '(w', t') := initMeta (setFuncs w (funcs w ++ [Some (Func (Some Keeps) fs [t] 0 false)])) t (Some (length (funcs w))) in
    Some (newVar w' t')
  end.
(** Tensor.cpp:94-108, [v.setRequiresGrad(b)]. *)
Definition setRequiresGrad (w : world) (v : nat) (t : tensor) (b : bool) : world :=
  let w := setFlags w (setNth (flags w) (timpl t) b) in
  if b then let '(w, t) := initMeta w t None in setVars w (setNth (vars w) v (Some t))
  else setVars w (setNth (vars w) v (Some (Tensor (timpl t) None))).

(** * The backward pass *)
(** Model only: no gradient values. *)
Definition nothing : gvalues := GValues unit tt (fun _ _ => tt) (fun x => match x with tt => eq_refl end) (fun _ _ => eq_refl) (fun _ _ _ => eq_refl).
(** AutogradMeta.cpp:104-105 and 120-121, [next.lock()]: a function that does not
    exist any more becomes a number that no function has, so that
    [buildBackwardGraph] fails when it meets it. *)
Definition lock (w : world) (n : nat) : nat := match obj (funcs w) n with Some _ => n | None => length (funcs w) end.
(** Model only: the functions as [buildBackwardGraph] sees them. *)
Definition seen (w : world) : graph nothing :=
  map (fun o => match o with Some f => FOp (map (fun n => (lock w n, Fresh (V := nothing) (fun x => x))) (fnexts f)) | None => FLeaf end) (funcs w).
(** The calls [input.addGrad(...)] of a backward rule, for the saved inputs that
    require grad (FuncElemWise.h:116-122 and the other rules), with the assertion
    of Tensor.cpp:165-168. *)
Fixpoint addGrads (w : world) (ts : list tensor) : option (world * list nat) :=
  match ts with
  | [] => Some (w, [])
  | t :: ts =>
    if flag w t then
      match tmeta t with
      | None => None
      | Some m =>
        match addGrads (setMetas w (modify (metas w) m (fun x => Meta (mfn x) (morder x) true))) ts with
        | None => None
        | Some (w, ms) => Some (w, m :: ms)
        end
      end
    else addGrads w ts
  end.
(** AutogradMeta.cpp:72-74 for one function: its owner must exist; a leaf keeps
    its gradient (Function.cpp:13-22); an operation's rule needs a defined
    gradient, must be implemented, and pops its saved data (Function.h:26-31). *)
Definition runFunc (w : world) (f : nat) : option world :=
  match obj (funcs w) f with
  | None => None
  | Some x =>
    match obj (metas w) (fowner x) with
    | None => None
    | Some o =>
      match frule x with
      | None => Some (addCall w (Call f (fowner x) []))
      | Some NoRule => None
      | Some r =>
        if negb (mgrad o) then None else
        if fspent x then None else
        match addGrads w (fsaved x) with
        | None => None
        | Some (w, ms) =>
          let once := match r with Once => true | _ => false end in
          Some (addCall (setFuncs w (modify (funcs w) f (fun x => Func (frule x) (fnexts x) (fsaved x) (fowner x) once))) (Call f (fowner x) ms))
        end
      end
    end
  end.
(** AutogradMeta.cpp:71-75. *)
Fixpoint runFuncs (w : world) (fs : list nat) : option world :=
  match fs with
  | [] => Some w
  | f :: fs => match runFunc w f with None => None | Some w => runFuncs w fs end
  end.
(** Tensor.cpp:116-123 with AutogradMeta.cpp:58-76: [v.backward()]. *)
Definition backward (w : world) (t : tensor) : option world :=
  if negb (flag w t) then Some w else
  match tmeta t with
  | None => None
  | Some m =>
    match obj (metas w) m with
    | None => None
    | Some x =>
      match (match morder x with [] => buildBackwardGraph (seen w) (mfn x) | fs => Some fs end) with
      | None => None
      | Some order => runFuncs (setMetas w (modify (metas w) m (fun x => Meta (mfn x) order true))) order
      end
    end
  end.

(** * Programs *)
(** A statement.  Variables are numbered as they are made; [SCopy]:
    [Tensor b = a]; [SDrop]: the end of a variable's life (assigning to a
    variable is [SCopy] and [SDrop] of the old value).  Model only. *)
Inductive stmt :=
| SNew (r : bool)
| SApply (en : bool) (r : rule) (k : nat) (ins : list nat)
| SSumScalar (en : bool) (v : nat)
| SCopy (v : nat)
| SDrop (v : nat)
| SSetRequiresGrad (v : nat) (b : bool)
| SBackward (v : nat).
(** One statement; [None]: an assertion failed, or the statement uses a variable
    that was dropped (no such program compiles).  Lines: see the functions. *)
Definition perform (w : world) (s : stmt) : option world :=
  match s with
  | SNew r => Some (create w r)
  | SApply en r k ins => match held w ins with None => None | Some ts => apply w en r k ts end
  | SSumScalar en v => match obj (vars w) v with None => None | Some t => sumScalar w en t end
  | SCopy v => match obj (vars w) v with None => None | Some t => Some (newVar w t) end
  | SDrop v => match obj (vars w) v with None => None | Some _ => Some (setVars w (setNth (vars w) v None)) end
  | SSetRequiresGrad v b => match obj (vars w) v with None => None | Some t => Some (setRequiresGrad w v t b) end
  | SBackward v => match obj (vars w) v with None => None | Some t => backward w t end
  end.
(** Model only: a statement and the destructors it causes. *)
Definition step (w : world) (s : stmt) : option world := option_map sweep (perform w s).
(** Model only: a program from the start. *)
Fixpoint run (w : world) (p : list stmt) : option world :=
  match p with
  | [] => Some w
  | s :: p => match step w s with None => None | Some w => run w p end
  end.
(** Model only: before the first statement. *)
Definition start : world := World [] [] [] [] [].
