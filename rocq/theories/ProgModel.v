(** Whole programs on scalar float tensors: what every statement does to the
    tensor handles, to the tensor objects they share and to the recorded
    functions, and [backward()] on the result.  src/Tensor/Tensor.cpp,
    Function.h, AutogradMeta.cpp, with the rules of src/Function/FuncElemWise.h,
    FuncTransform.h and FuncReduce.h, over the reals (no rounding).

    Simplifications: only scalar tensors of one dtype and device; every handle
    the program made stays alive; [setRequiresGrad], hooks and a second
    [backward()] are elsewhere (AutogradModel). *)
From Coq Require Import ZArith List Bool Arith Reals.
From Verif Require Import AutogradModel GradModel.
Import ListNotations.

(** Real gradient values.  Model only. *)
Definition Rg : gvalues := GValues R 0%R Rplus Rplus_0_l Rplus_comm (fun x y z => eq_sym (Rplus_assoc x y z)).

(** The operations: FuncElemWise.h:39-63 (sin, cos), FuncTransform.h:26-51
    (reshape, view, flatten, squeeze, unsqueeze and unflatten of a scalar);
    FuncElemWise.h:71-158 (add and sub with alpha = 1, mul, div, pow). *)
Inductive unop := USin | UCos | UReshape.
(** FuncElemWise.h:71-158. *)
Inductive binop := BAdd | BSub | BMul | BDiv | BPow.
(** A statement.  [SLeaf r]: [Tensor::scalar(v, options.requiresGrad(r))];
    [SUn], [SBin]: a new tensor from an operation; [SSum]: [x.sum()], and the
    other reductions of a scalar; [SIn b x y]: [x += y], [x -= y], ...; [SFill]:
    [x.fill_(v)].  Tensors are numbered as they are made.  Model only: see
    [exec1] for the lines. *)
Inductive stmt := SLeaf (r : bool) | SUn (u : unop) (x : nat) | SBin (b : binop) (x y : nat) | SSum (x : nat)
  | SIn (b : binop) (x y : nat) | SFill (x : nat) (v : R).
(** A program: statements, each with [NoGradGuard::isGradEnabled()] at that
    point (AutogradModel has the nesting of the guards).  Model only. *)
Definition program := list (bool * stmt).

(** Tensor.h:282-283: a handle shares the tensor object [impl_] and the autograd
    object [gradMeta_]; TensorImpl: the value and [options_.requiresGrad_]. *)
Record handle := Handle { himpl : nat; hmeta : option nat }.
(** TensorImpl.h:88-95: the element and [requiresGrad]. *)
Record impl := Impl { ival : R; ireq : bool }.
(** Function.h:21-23, 41: what a recorded function keeps, [ctx->savedInputs]. *)
Inductive saved := KLeaf | KUn (u : unop) (h : handle) | KBin (b : binop) (h1 h2 : handle) | KSum (h : handle).
(** Function.h:36-43. *)
Record func := Func { kept : saved; nextFns : list nat }.
(** All objects, by number; [metas]: AutogradMeta objects with their [gradFn_];
    [vars]: the program's handles.  Model only. *)
Record hstate := HState { impls : list impl; metas : list nat; funcs : list func; vars : list handle }.

(** Model only: the object a handle refers to. *)
Definition getImpl (st : hstate) (h : handle) : impl := nth (himpl h) (impls st) (Impl 0 false).
(** Model only: its element. *)
Definition getVal (st : hstate) (h : handle) : R := ival (getImpl st h).
(** Model only: its [requiresGrad], Tensor.h:91. *)
Definition getReq (st : hstate) (h : handle) : bool := ireq (getImpl st h).

(** Function.h:63-70, [collectTensorInfo]: [t.gradFn()] of the inputs that
    require grad.  [None]: no AutogradMeta (Tensor.cpp:141-144). *)
Fixpoint collectFns (st : hstate) (hs : list handle) : option (list nat) :=
  match hs with
  | [] => Some []
  | h :: hs =>
    if getReq st h then
      match hmeta h with
      | None => None
      | Some m => match nth_error (metas st) m, collectFns st hs with Some f, Some fs => Some (f :: fs) | _, _ => None end
      end
    else collectFns st hs
  end.
(** Tensor.cpp:94-108, [setRequiresGrad(true, fn)] of the handle [h]. *)
Definition requireGrad (st : hstate) (h : handle) (f : nat) : hstate * handle :=
  let is := setNth (impls st) (himpl h) (Impl (getVal st h) true) in
  match hmeta h with
  | Some m => (HState is (setNth (metas st) m f) (funcs st) (vars st), h)
  | None => (HState is (metas st ++ [f]) (funcs st) (vars st), Handle (himpl h) (Some (length (metas st))))
  end.
(** Tensor.cpp:17-20 with 99-108: a new tensor object with value [v]. *)
Definition newTensor (st : hstate) (v : R) (r : bool) : hstate * handle :=
  let is := impls st ++ [Impl v r] in
  if r then
    (HState is (metas st ++ [length (funcs st)]) (funcs st ++ [Func KLeaf []]) (vars st), Handle (length (impls st)) (Some (length (metas st))))
  else (HState is (metas st) (funcs st) (vars st), Handle (length (impls st)) None).
(** Function.h:87-94 and 110-147, [Function<T>::apply]: [inputs] are the tensor
    arguments, [forward] makes the output.  [None]: a failed assertion. *)
Definition applyFn (en : bool) (st : hstate) (inputs : list handle) (k : saved) (forward : hstate -> hstate * handle) : option (hstate * handle) :=
  match (if en then collectFns st inputs else Some []) with
  | None => None
  | Some fs =>
    let (st, out) := forward st in
    match fs with
    | [] => if getReq st out then None else Some (st, out)
    | _ => Some (requireGrad (HState (impls st) (metas st) (funcs st ++ [Func k fs]) (vars st)) out (length (funcs st)))
    end
  end.

(** OpElemWiseCpu.h:65-91, 130-194. *)
Definition unValue (u : unop) (a : R) : R := match u with USin => opSin a | UCos => opCos a | UReshape => a end.
(** OpElemWiseCpu.h:130-194. *)
Definition binValue (b : binop) (x y : R) : R :=
  match b with BAdd => opAdd 1 x y | BSub => opSub 1 x y | BMul => opMul x y | BDiv => opDiv x y | BPow => opPow x y end.
(** The forward functions.  OpElemWiseCpu.h:298, 380: a new tensor with
    [options().noGrad()]; OpTransform.cpp:48-52 with Tensor.cpp:125-130: reshape
    clones the tensor object with its options; OpReduceCpu.h:185-187: a reduction
    of a scalar returns its argument. *)
Definition unForward (u : unop) (h : handle) (st : hstate) : hstate * handle :=
  match u with
  | UReshape => newTensor st (getVal st h) (getReq st h)
  | _ => newTensor st (unValue u (getVal st h)) false
  end.
(** OpElemWiseCpu.h:375-383. *)
Definition binForward (b : binop) (h1 h2 : handle) (st : hstate) : hstate * handle :=
  newTensor st (binValue b (getVal st h1) (getVal st h2)) false.
(** OpReduceCpu.h:183-187, 231-234: a scalar is returned as it is. *)
Definition sumForward (h : handle) (st : hstate) : hstate * handle := (st, h).

(** Model only: the new handle gets a name. *)
Definition addVar (r : hstate * handle) : hstate :=
  HState (impls (fst r)) (metas (fst r)) (funcs (fst r)) (vars (fst r) ++ [snd r]).
(** Tensor.cpp:110-114, [inplaceSet]: the handle [x] gets the tensor object of the
    result and keeps its own AutogradMeta.  The AutogradMeta of the result, and
    with it the function just recorded, is destroyed with the temporary, so the
    model keeps those of before. *)
Definition inplaceSet (old : hstate) (x : nat) (h : handle) (r : hstate * handle) : hstate :=
  HState (setNth (impls (fst r)) (himpl (snd r)) (Impl (getVal (fst r) (snd r)) (getReq old h)))
    (metas old) (funcs old) (setNth (vars old) x (Handle (himpl (snd r)) (hmeta h))).
(** One statement; [theta] gives the value of every leaf.  [None]: a failed
    assertion (or a tensor that does not exist).  The lines are at the functions
    used. *)
Definition exec1 (theta : nat -> R) (en : bool) (s : stmt) (st : hstate) : option hstate :=
  match s with
  | SLeaf r => Some (addVar (newTensor st (theta (length (vars st))) r))
  | SUn u x =>
    match nth_error (vars st) x with
    | Some h => option_map addVar (applyFn en st [h] (KUn u h) (unForward u h))
    | None => None
    end
  | SBin b x y =>
    match nth_error (vars st) x, nth_error (vars st) y with
    | Some h1, Some h2 => option_map addVar (applyFn en st [h1; h2] (KBin b h1 h2) (binForward b h1 h2))
    | _, _ => None
    end
  | SSum x =>
    match nth_error (vars st) x with
    | Some h => option_map addVar (applyFn en st [h] (KSum h) (sumForward h))
    | None => None
    end
  | SIn b x y => (* Tensor.cpp:288-291 *)
    match nth_error (vars st) x, nth_error (vars st) y with
    | Some h1, Some h2 => option_map (inplaceSet st x h1) (applyFn en st [h1; h2] (KBin b h1 h2) (binForward b h1 h2))
    | _, _ => None
    end
  | SFill x v => (* Tensor.cpp:249, OpFillingCpu.h:23-27: the tensor object is written *)
    match nth_error (vars st) x with
    | Some h => Some (HState (setNth (impls st) (himpl h) (Impl v (getReq st h))) (metas st) (funcs st) (vars st))
    | None => None
    end
  end.
(** Model only: a program. *)
Fixpoint execProg (theta : nat -> R) (p : program) (st : hstate) : option hstate :=
  match p with
  | [] => Some st
  | (en, s) :: p => match exec1 theta en s st with None => None | Some st => execProg theta p st end
  end.
(** Model only: the beginning of a program. *)
Definition start : hstate := HState [] [] [] [].

(** The backward rules: what the inputs that require grad receive, from the
    values the saved tensor objects have when [backward] runs.
    FuncElemWise.h:43-49, 55-61, 77-87, 96-106, 113-123, 130-140, 147-157
    ([reduceGrad] of equal shapes is the gradient itself); FuncTransform.h:18-24
    ([op::reshape] makes a new tensor object); FuncReduce.h:58-65. *)
Definition toInput (st : hstate) (h : handle) (d : delivery Rg) : list (delivery Rg) := if getReq st h then [d] else [].
(** FuncElemWise.h:43-157, FuncTransform.h:26-55, FuncReduce.h:58-65. *)
Definition rules (st : hstate) (k : saved) : list (delivery Rg) :=
  match k with
  | KLeaf => []
  | KUn u h => toInput st h (match u with
      | USin => Fresh (V := Rg) (fun g : R => opSinBackwardP1 (getVal st h) g)
      | UCos => Fresh (V := Rg) (fun g : R => opCosBackwardP1 (getVal st h) g)
      | UReshape => Fresh (V := Rg) (fun g : R => g) end)
  | KBin b h1 h2 =>
    let s := getVal st h1 in let o := getVal st h2 in
    match b with
    | BAdd => toInput st h1 Pass ++ toInput st h2 Pass
    | BSub => toInput st h1 Pass ++ toInput st h2 (Fresh (V := Rg) Ropp)
    | BMul => toInput st h1 (Fresh (V := Rg) (fun g : R => opMul g o)) ++ toInput st h2 (Fresh (V := Rg) (fun g : R => opMul g s))
    | BDiv => toInput st h1 (Fresh (V := Rg) (fun g : R => opDiv g o)) ++ toInput st h2 (Fresh (V := Rg) (fun g : R => opDivBackwardP2 s o g))
    | BPow => toInput st h1 (Fresh (V := Rg) (fun g : R => opPowBackwardP1 s o g)) ++ toInput st h2 (Fresh (V := Rg) (fun g : R => opPowBackwardP2 s o g))
    end
  | KSum h => toInput st h (Fresh (V := Rg) (fun g : R => opMul g 1))
  end.
(** A recorded function exists as long as an AutogradMeta holds it
    ([nextFunctions] are weak pointers, Function.h:40); a function that no longer
    exists gets a number that is in no graph. *)
Definition resolve (st : hstate) (f : nat) : nat := if mem f (metas st) then f else length (funcs st).
(** The graph [backward()] sees.  Model only. *)
Definition observe (st : hstate) : graph Rg :=
  map (fun f => match kept f with
    | KLeaf => FLeaf
    | k => FOp (combine (map (resolve st) (nextFns f)) (rules st k)) end) (funcs st).
(** Tensor.cpp:185-191 and 116-123: [r.backward()]; [None]: a failed assertion,
    or [r] does not require grad. *)
Definition gradFnOf (st : hstate) (v : nat) : option nat :=
  match nth_error (vars st) v with
  | Some h => match hmeta h with Some m => nth_error (metas st) m | None => None end
  | None => None
  end.
(** Tensor.cpp:185-191, 116-123. *)
Definition backwardFrom (st : hstate) (r : nat) : option (state Rg) :=
  match nth_error (vars st) r, gradFnOf st r with
  | Some h, Some f => if getReq st h then backward (observe st) (State [1%R : Rg] (fun _ => None) []) f 0 else None
  | _, _ => None
  end.
(** [v.grad()] after it: the gradient its AutogradMeta holds, [None] if there is
    no AutogradMeta, zero if the gradient is undefined.  Tensor.h:126, [grad()]. *)
Definition gradAfter (st : hstate) (g : state Rg) (v : nat) : option R :=
  option_map (fun f => match gradOf g f with None => 0%R | Some b => nth b (heap g) 0%R end) (gradFnOf st v).
