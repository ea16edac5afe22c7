(** Optimizers and learning-rate schedules: src/Optimizer.h, src/Optimizer.cpp,
    src/Scheduler.h, src/Scheduler.cpp, with the gradient slots of
    src/Tensor/AutogradMeta.cpp:25-50.
    Simplifications: exact real arithmetic instead of float; every tensor
    operation here is element-wise on tensors of one shape (or with a scalar),
    so a tensor is represented by one of its elements. *)
From Coq Require Import Reals ZArith List Arith.
Import ListNotations.
Open Scope R_scope.

(** * Schedules.  Scheduler.h:45-48, the members, and the optimizer's learning
    rate. *)
Record sched := mkSched { optLr : R; lastEpoch : Z; stepCount : Z; lastLr : R }.
(** Scheduler.h:43, [Scheduler::getLr]. *)
Definition baseGetLr (s : sched) : option R := Some (optLr s).
(** Scheduler.cpp:11-16, [StepLR::getLr]; [None] is the undefined remainder by
    zero.  [Z.rem] is C++ [%]. *)
Definition stepGetLr (stepSize : Z) (gamma : R) (s : sched) : option R :=
  if Z.eqb (lastEpoch s) 0 then Some (optLr s)
  else if Z.eqb stepSize 0 then None
  else if Z.eqb (Z.rem (lastEpoch s) stepSize) 0 then Some (optLr s * gamma)
  else Some (optLr s).
(** Scheduler.h:23-33, [Scheduler::step]. *)
Definition schedStep (getLr : sched -> option R) (epoch : option Z) (s : sched) : option sched :=
  let e := match epoch with Some e => e | None => (lastEpoch s + 1)%Z end in
  let s1 := mkSched (optLr s) e (stepCount s + 1) (lastLr s) in
  match getLr s1 with
  | Some lr => Some (mkSched lr e (stepCount s + 1) lr)
  | None => None
  end.
(** Scheduler.h:18-21, 39-42 and 53-54, the constructor: [getLr] is virtual and
    the derived class does not exist yet, so the first step uses the base
    version. *)
Definition makeStepLR (lr : R) (last : Z) : option sched := schedStep baseGetLr None (mkSched lr last 0 0).
(** Model only: [t] calls of [step]. *)
Fixpoint stepMany (stepSize : Z) (gamma : R) (t : nat) (s : option sched) : option sched :=
  match t with
  | O => s
  | S t => match stepMany stepSize gamma t s with Some s => schedStep (stepGetLr stepSize gamma) None s | None => None end
  end.

(** * Optimizers.  Model only: a Tensor handle. *)
Definition ref := nat.
(** Tensor handles are references to a heap of tensors; the parameter values are
    never shared, gradients and momentum buffers are handles.  The members of
    Optimizer.h and the parameters' gradients. *)
Record ost := mkO {
  heap : ref -> R; next : ref;
  theta : nat -> R;             (* *parameters_[i] *)
  gradH : nat -> option ref;    (* parameters_[i]->grad(), None: undefined *)
  momH : nat -> option ref;     (* SGD momentumBuffer_[i] *)
  c1 : nat -> R; c2 : nat -> R; c3 : nat -> R;  (* other cached tensors *)
  stepNo : nat; lr : R }.
(** Model only: function update. *)
Definition set {X} (f : nat -> X) (k : nat) (x : X) : nat -> X := fun j => if j =? k then x else f j.
(** Model only: a new tensor. *)
Definition alloc (st : ost) (v : R) : ref * ost :=
  (next st, mkO (set (heap st) (next st) v) (S (next st)) (theta st) (gradH st) (momH st) (c1 st) (c2 st) (c3 st) (stepNo st) (lr st)).
(** Model only: record update. *)
Definition withHeap (st : ost) h := mkO h (next st) (theta st) (gradH st) (momH st) (c1 st) (c2 st) (c3 st) (stepNo st) (lr st).
(** Model only: record update. *)
Definition withTheta (st : ost) i v := mkO (heap st) (next st) (set (theta st) i v) (gradH st) (momH st) (c1 st) (c2 st) (c3 st) (stepNo st) (lr st).
(** Model only: record update. *)
Definition withGrad (st : ost) i r := mkO (heap st) (next st) (theta st) (set (gradH st) i (Some r)) (momH st) (c1 st) (c2 st) (c3 st) (stepNo st) (lr st).
(** Model only: record update. *)
Definition withMom (st : ost) i r := mkO (heap st) (next st) (theta st) (gradH st) (set (momH st) i (Some r)) (c1 st) (c2 st) (c3 st) (stepNo st) (lr st).
(** Model only: record update. *)
Definition withC1 (st : ost) i v := mkO (heap st) (next st) (theta st) (gradH st) (momH st) (set (c1 st) i v) (c2 st) (c3 st) (stepNo st) (lr st).
(** Model only: record update. *)
Definition withC2 (st : ost) i v := mkO (heap st) (next st) (theta st) (gradH st) (momH st) (c1 st) (set (c2 st) i v) (c3 st) (stepNo st) (lr st).
(** Model only: record update. *)
Definition withC3 (st : ost) i v := mkO (heap st) (next st) (theta st) (gradH st) (momH st) (c1 st) (c2 st) (set (c3 st) i v) (stepNo st) (lr st).

(** AutogradMeta.cpp:29-43, [addGrad]: the delivered gradient [g] is a fresh
    tensor; an existing gradient is added to in place. *)
Definition addGrad (i : nat) (g : R) (st : ost) : ost :=
  match gradH st i with
  | Some r => withHeap st (set (heap st) r (heap st r + g))
  | None => let (r, st) := alloc st g in withGrad st i r
  end.
(** AutogradMeta.cpp:45-50, [zeroGrad], and Optimizer.cpp:22-26. *)
Definition zeroGrad1 (st : ost) (i : nat) : ost :=
  match gradH st i with
  | Some r => withHeap st (set (heap st) r 0)
  | None => let (r, st) := alloc st 0 in withGrad st i r
  end.
(** Model only: [for (i = 0; i < parameters_.size(); i++)], as at
    Optimizer.cpp:23, 42. *)
Definition forLoop (n : nat) (f : ost -> nat -> ost) (st : ost) : ost := fold_left f (seq 0 n) st.
(** Optimizer.cpp:22-26. *)
Definition zeroGrad (n : nat) (st : ost) : ost := forLoop n zeroGrad1 st.

(** Optimizer.cpp:28-37, [getDecayedGrad].  [ret += ...] binds [ret] to a new
    tensor (Tensor.cpp:110-114 and 288, [inplaceSet]). *)
Definition getDecayedGrad (wd : R) (i : nat) (st : ost) : option (ref * ost) :=
  match gradH st i with
  | None => None
  | Some r => if Req_EM_T wd 0 then Some (r, st) else Some (alloc st (heap st r + wd * theta st i))
  end.

(** Optimizer.cpp:63-81, the body of the loop of [SGD::doStep]. *)
Definition sgdBody (momentum dampening wd : R) (nesterov : bool) (st : ost) (i : nat) : ost :=
  match getDecayedGrad wd i st with
  | None => st
  | Some (grad, st) =>
    let '(grad, st) :=
      if Req_EM_T momentum 0 then (grad, st)
      else
        let '(buf, st) := match momH st i with
                          | Some b => alloc st (momentum * heap st b + (1 - dampening) * heap st grad)
                          | None => (grad, st)
                          end in
        let st := withMom st i buf in
        if nesterov then alloc st (heap st grad + momentum * heap st buf) else (buf, st) in
    withTheta st i (theta st i - lr st * heap st grad)
  end.
(** Optimizer.cpp:94-106, [Adagrad::doStep]. *)
Definition adagradBody (lrDecay wd eps : R) (st : ost) (i : nat) : ost :=
  match getDecayedGrad wd i st with
  | None => st
  | Some (g, st) =>
    let clr := lr st / (1 + INR (stepNo st - 1) * lrDecay) in
    let st := withC1 st i (c1 st i + heap st g * heap st g) in
    withTheta st i (theta st i - clr * heap st g / (sqrt (c1 st i) + eps))
  end.
(** Optimizer.cpp:124-150, [RMSprop::doStep]: c1 = squareAvg_, c2 = gradAvg_,
    c3 = momentumBuffer_. *)
Definition rmsBody (alpha eps wd momentum : R) (centered : bool) (st : ost) (i : nat) : ost :=
  match getDecayedGrad wd i st with
  | None => st
  | Some (g, st) =>
    let st := withC1 st i (alpha * c1 st i + (1 - alpha) * heap st g * heap st g) in
    let st := if centered then withC2 st i (alpha * c2 st i + (1 - alpha) * heap st g) else st in
    let avg := if centered then c1 st i - c2 st i * c2 st i else sqrt (c1 st i) in
    let avg := avg + eps in
    if Req_EM_T momentum 0 then withTheta st i (theta st i - lr st * heap st g / avg)
    else
      let st := withC3 st i (momentum * c3 st i + heap st g / avg) in
      withTheta st i (theta st i - lr st * c3 st i)
  end.
(** Optimizer.cpp:158-172, [AdaDelta::doStep]: c1 = squareAvg_, c2 = accDelta_. *)
Definition adadeltaBody (rho eps wd : R) (st : ost) (i : nat) : ost :=
  match getDecayedGrad wd i st with
  | None => st
  | Some (g, st) =>
    let st := withC1 st i (rho * c1 st i + (1 - rho) * heap st g * heap st g) in
    let delta := sqrt (c2 st i + eps) / sqrt (c1 st i + eps) * heap st g in
    let st := withC2 st i (rho * c2 st i + (1 - rho) * delta * delta) in
    withTheta st i (theta st i - lr st * delta)
  end.
(** Optimizer.cpp:188-211, [Adam::doStep]: c1 = expAvg_, c2 = expAvgSq_,
    c3 = maxExpAvgSq_. The gradient comes from [decayed]. *)
Definition adamBody (decayed : nat -> ost -> option ref * ost) (beta1 beta2 eps : R) (amsGrad : bool) (st : ost) (i : nat) : ost :=
  let b1t := 1 - beta1 ^ stepNo st in
  let b2t := 1 - beta2 ^ stepNo st in
  match decayed i st with
  | (None, st) => st
  | (Some g, st) =>
    let st := withC1 st i (beta1 * c1 st i + (1 - beta1) * heap st g) in
    let st := withC2 st i (beta2 * c2 st i + (1 - beta2) * heap st g * heap st g) in
    let mh := c1 st i / b1t in
    let vh := c2 st i / b2t in
    let '(vh, st) := if amsGrad then (Rmax (c3 st i) vh, withC3 st i (Rmax (c3 st i) vh)) else (vh, st) in
    withTheta st i (theta st i - lr st * mh / (sqrt vh + eps))
  end.
(** The call at Optimizer.cpp:194. *)
Definition adamDecayed (wd : R) (i : nat) (st : ost) : option ref * ost :=
  match getDecayedGrad wd i st with Some (g, st) => (Some g, st) | None => (None, st) end.
(** Optimizer.cpp:217-220, [AdamW::getDecayedGrad]. *)
Definition adamWDecayed (wd : R) (i : nat) (st : ost) : option ref * ost :=
  let st := withTheta st i (theta st i * (1 - lr st * wd)) in (gradH st i, st).

(** The classes of Optimizer.cpp:48-220 with their hyper-parameters. *)
Inductive algo :=
  | SGD (momentum dampening wd : R) (nesterov : bool)
  | Adagrad (lrDecay wd initAcc eps : R)
  | RMSprop (alpha eps wd momentum : R) (centered : bool)
  | AdaDelta (rho eps wd : R)
  | Adam (beta1 beta2 eps wd : R) (amsGrad : bool)
  | AdamW (beta1 beta2 eps wd : R) (amsGrad : bool).
(** Model only: which loop body an optimizer runs. *)
Definition body (a : algo) : ost -> nat -> ost :=
  match a with
  | SGD m d w n => sgdBody m d w n
  | Adagrad ld w _ e => adagradBody ld w e
  | RMSprop al e w m c => rmsBody al e w m c
  | AdaDelta r e w => adadeltaBody r e w
  | Adam b1 b2 e w ams => adamBody (adamDecayed w) b1 b2 e ams
  | AdamW b1 b2 e w ams => adamBody (adamWDecayed w) b1 b2 e ams
  end.
(** Optimizer.h:19-23, [Optimizer::step]. *)
Definition optStep (n : nat) (a : algo) (st : ost) : ost :=
  forLoop n (body a) (mkO (heap st) (next st) (theta st) (gradH st) (momH st) (c1 st) (c2 st) (c3 st) (S (stepNo st)) (lr st)).
(** The constructors (Optimizer.cpp:14-20, 48-61, 83-92, 108-122, 152-156,
    174-186, 213-215) on parameters without gradients. *)
Definition initSt (a : algo) (lr0 : R) (th : nat -> R) : ost :=
  mkO (fun _ => 0) 0%nat th (fun _ => None) (fun _ => None)
      (fun _ => match a with Adagrad _ _ ia _ => ia | _ => 0 end) (fun _ => 0) (fun _ => 0) 0%nat lr0.

(** What a training script does: deliver a gradient to a parameter (backward),
    zero all gradients, take a step, set the learning rate.  Model only. *)
Inductive event := EGrad (i : nat) (g : R) | EZero | EStep | ELr (l : R).
(** Model only: one event. *)
Definition handle (n : nat) (a : algo) (st : ost) (e : event) : ost :=
  match e with
  | EGrad i g => addGrad i g st
  | EZero => zeroGrad n st
  | EStep => optStep n a st
  | ELr l => mkO (heap st) (next st) (theta st) (gradH st) (momH st) (c1 st) (c2 st) (c3 st) (stepNo st) l
  end.
(** Model only: a whole training script. *)
Definition train (n : nat) (a : algo) (lr0 : R) (th : nat -> R) (es : list event) : ost :=
  fold_left (handle n a) es (initSt a lr0 th).
