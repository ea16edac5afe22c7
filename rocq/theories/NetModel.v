(** Whole programs on tensors of any shape: what the differentiable functions of
    src/Function compute, what they record, and [backward()] of a scalar result.
    FuncElemWise.h, FuncActivation.h, FuncReduce.h (sum), FuncTransform.h (reshape
    and its relatives), FuncNNLayer.h (linear, dropout, conv2d), FuncLoss.h, with
    Function.h, AutogradMeta.cpp and Tensor.cpp, over the reals (no rounding).

    Simplifications: one dtype and device; gradients are enabled; no in-place
    operations (ProgModel has both, for scalars); [add] and [sub] with alpha = 1. *)
From Coq Require Import ZArith List Bool Arith Reals.
From Verif Require Import ShapeModel TensorModel BcastModel BufModel CutModel PermModel ReduceModel LinalgModel LinearModel GradModel
  SoftmaxModel DropModel LossModel AutogradModel.
Import ListNotations.

(** The element-wise sum of two lists.  Model only. *)
Fixpoint plusList (a b : list R) : list R :=
  match a, b with x :: a, y :: b => (x + y)%R :: plusList a b | _, _ => [] end.
(** The gradient an AutogradMeta can hold: none, a tensor, or (model only) the
    outcome of a failed assertion while gradients were computed or added. *)
Inductive gval := GNone | GTensor (t : tensor R) | GBad.
(** Model only: equal shapes, and as many elements. *)
Definition sameForm (s t : tensor R) : bool := list_eqb (tshape s) (tshape t) && (length (tdata s) =? length (tdata t)).
(** AutogradMeta.cpp:29-43, [addGrad].  Simplification: gradients of different
    shapes, which [addInplace] may accept by broadcasting, are [GBad]. *)
Definition addVal (a b : gval) : gval :=
  match a, b with
  | GNone, x => x
  | x, GNone => x
  | GTensor s, GTensor t => if sameForm s t then GTensor (mkT (tshape s) (plusList (tdata s) (tdata t))) else GBad
  | _, _ => GBad
  end.
(** Model only: the laws [gvalues] asks for. *)
Lemma plusList_comm : forall a b, plusList a b = plusList b a.
Proof. induction a as [|x a IH]; intros [|y b]; cbn; auto. f_equal; auto. apply Rplus_comm. Qed.
(** Model only. *)
Lemma plusList_assoc : forall a b c, plusList a (plusList b c) = plusList (plusList a b) c.
Proof. induction a as [|x a IH]; intros [|y b] [|z c]; cbn; auto. f_equal; auto. symmetry. apply Rplus_assoc. Qed.
(** Model only. *)
Lemma plusList_length : forall a b, length a = length b -> length (plusList a b) = length a.
Proof. induction a as [|x a IH]; intros [|y b] H; cbn in *; auto; discriminate. Qed.
(** Model only. *)
Lemma sameForm_iff : forall s t, sameForm s t = true <-> tshape s = tshape t /\ length (tdata s) = length (tdata t).
Proof.
  intros s t. unfold sameForm, list_eqb. rewrite andb_true_iff, Nat.eqb_eq. destruct (list_eq_dec Nat.eq_dec (tshape s) (tshape t)); intuition congruence.
Qed.
(** Model only. *)
Lemma addVal_comm : forall x y, addVal x y = addVal y x.
Proof.
  intros [|s|] [|t|]; cbn; auto. destruct (sameForm s t) eqn:E1, (sameForm t s) eqn:E2; auto.
  - apply sameForm_iff in E1. destruct E1 as [-> _]. rewrite plusList_comm. auto.
  - apply sameForm_iff in E1. assert (sameForm t s = true) by (apply sameForm_iff; intuition). congruence.
  - apply sameForm_iff in E2. assert (sameForm s t = true) by (apply sameForm_iff; intuition). congruence.
Qed.
(** Model only. *)
Lemma addVal_assoc : forall x y z, addVal x (addVal y z) = addVal (addVal x y) z.
Proof.
  assert (B : forall x, addVal x GBad = GBad) by (intros [|s|]; auto).
  intros [|s|] [|t|] [|u|]; auto; try (rewrite !B; auto; fail).
  - cbn [addVal]. destruct (sameForm s t); auto.
  - cbn [addVal]. destruct (sameForm t u) eqn:E1, (sameForm s t) eqn:E2; cbn [addVal]; auto.
    + apply sameForm_iff in E1, E2. destruct E1 as [A1 L1], E2 as [A2 L2].
      assert (X1 : sameForm s (mkT (tshape t) (plusList (tdata t) (tdata u))) = true) by (apply sameForm_iff; cbn [tshape tdata]; rewrite plusList_length; auto).
      assert (X2 : sameForm (mkT (tshape s) (plusList (tdata s) (tdata t))) u = true) by (apply sameForm_iff; cbn [tshape tdata]; rewrite plusList_length by auto; split; congruence).
      rewrite X1, X2. cbn [tshape tdata]. rewrite plusList_assoc. auto.
    + apply sameForm_iff in E1. destruct E1 as [A1 L1]. destruct (sameForm s (mkT (tshape t) (plusList (tdata t) (tdata u)))) eqn:E3; auto.
      apply sameForm_iff in E3. cbn [tshape tdata] in E3. rewrite plusList_length in E3 by auto. apply sameForm_iff in E3. congruence.
    + apply sameForm_iff in E2. destruct E2 as [A2 L2]. destruct (sameForm (mkT (tshape s) (plusList (tdata s) (tdata t))) u) eqn:E3; auto.
      apply sameForm_iff in E3. cbn [tshape tdata] in E3. rewrite plusList_length in E3 by auto. rewrite A2, L2 in E3. apply sameForm_iff in E3. congruence.
  - cbn [addVal]. match goal with |- context [sameForm ?a ?b] => destruct (sameForm a b) end; auto.
Qed.
(** Gradient tensors as the values of AutogradModel.  AutogradMeta.cpp:29-43. *)
Definition Tg : gvalues := GValues gval GNone addVal (fun x => eq_refl) addVal_comm addVal_assoc.

(** The functions.  [OReshape sh]: reshape, view, flatten, unflatten, squeeze and
    unsqueeze, by the shape of the result (ShapeModel has how it is computed).
    [ODropout]: with the draws of the mask.  The target of [ONll] is a tensor of
    integers.  FuncElemWise.h:39-141, FuncActivation.h:14-86, FuncReduce.h:54-66,
    FuncTransform.h:13-51, FuncNNLayer.h:14-75 and 143-210, FuncLoss.h:14-47. *)
Inductive nop :=
| OSin | OCos | ORelu | OSum | OReshape (sh : list nat) | OSoftmax (dim : Z) | OLogSoftmax (dim : Z)
| ODropout (p : R) (training : bool) (draws : list bool)
| OAdd | OSub | OMul | ODiv | OLinear | OConv (stride padding : dim2)
| OMse (red : reduction) | ONll (target : tensor Z) (red : reduction).

(** Model only: input [k]. *)
Definition inp (ins : list (tensor R)) (k : nat) : tensor R := nth k ins (mkT [] []).
(** [forward] of each function; [lo] and [M]: the lowest number and the bound on
    the argument of [std::exp] (SoftmaxModel).  Another number of arguments does
    not compile; the model fails.  The lines are those of [nop]. *)
Definition forward (lo M : R) (op : nop) (ins : list (tensor R)) : res (tensor R) :=
  match op, ins with
  | OSin, [a] => sinForward a
  | OCos, [a] => cosForward a
  | ORelu, [a] => reluForward a
  | OSum, [a] => sumForward a
  | OReshape sh, [a] => Ok (viewAs a sh)
  | OSoftmax dim, [a] => softmax lo M a dim
  | OLogSoftmax dim, [a] => logSoftmax lo M a dim
  | ODropout p training draws, [a] => rbind (dropoutForward a p training draws) (fun r => Ok (fst r))
  | OAdd, [a; b] => addForward 1 a b
  | OSub, [a; b] => subForward 1 a b
  | OMul, [a; b] => mulForward a b
  | ODiv, [a; b] => divForward a b
  | OLinear, [x; w] => linear (K := Rring) x w None
  | OLinear, [x; w; b] => linear (K := Rring) x w (Some b)
  | OConv stride padding, [x; w] => conv2d (K := Rring) x w None stride padding
  | OConv stride padding, [x; w; b] => conv2d (K := Rring) x w (Some b) stride padding
  | OMse red, [a; b] => mseLoss a b red
  | ONll target red, [a] => nllLoss a target red
  | _, _ => Fail
  end.
(** FuncElemWise.h:14-32: no dimension is to be reduced, so [reduceGrad] returns
    the gradient tensor it was given. *)
Definition keepsGrad (self gsh : list nat) : bool :=
  let ndim := Nat.max (length self) (length gsh) in
  forallb negb (map (fun i => (dim_at ndim self i =? 1) && negb (dim_at ndim gsh i =? 1)) (seq 0 ndim)).
(** Is the incoming gradient tensor itself handed to input [k]?  FuncElemWise.h:77-87,
    96-106 (add, the first operand of sub), FuncNNLayer.h:71 (dropout that does
    nothing). *)
Definition passesGrad (op : nop) (ins : list (tensor R)) (out : tensor R) (k : nat) : bool :=
  match op, k with
  | OAdd, _ => keepsGrad (tshape (inp ins k)) (tshape out)
  | OSub, 0 => keepsGrad (tshape (inp ins k)) (tshape out)
  | ODropout _ training _, _ => negb training
  | _, _ => false
  end.
(** [backward] of each function: the gradient of input [k], if that input requires
    one.  Simplification: the three gradients of conv2d are computed together
    (LinalgModel), so that one that is not needed could fail.
    FuncElemWise.h:43-140, FuncActivation.h:20-27, 51-62, 74-85, FuncReduce.h:58-65,
    FuncTransform.h:18-24, FuncNNLayer.h:25-39, 61-74, 181-209, FuncLoss.h:25-35. *)
Definition backRule (M : R) (op : nop) (ins : list (tensor R)) (out : tensor R) (k : nat) (grad : tensor R) : res (tensor R) :=
  let a := inp ins 0 in let b := inp ins 1 in
  let pick (p : res (tensor R) * res (tensor R)) := match k with 0 => fst p | 1 => snd p | _ => Fail end in
  match op with
  | OSin => sinBackward a grad
  | OCos => cosBackward a grad
  | ORelu => reluBackward a grad
  | OSum => sumBackward a grad
  | OReshape _ => Ok (viewAs grad (tshape a))
  | OSoftmax dim => softmaxBackward grad out dim
  | OLogSoftmax dim => logSoftmaxBackward M grad out dim
  | ODropout p training draws =>
    rbind (dropoutForward a p training draws) (fun r =>
    rbind (dropoutBackward true (snd r) grad) (fun q => match fst q with Some g => Ok g | None => Fail end))
  | OAdd => pick (addBackward a b grad)
  | OSub => pick (subBackward a b grad)
  | OMul => pick (mulBackward a b grad)
  | ODiv => pick (divBackward a b grad)
  | OLinear =>
    match k with
    | 0 => linearGradInput (K := Rring) grad b
    | 1 => linearGradWeight (K := Rring) grad a
    | 2 => linearGradBias (K := Rring) grad
    | _ => Fail
    end
  | OConv stride padding =>
    rbind (conv2dBackward (K := Rring) a b grad stride padding) (fun r =>
    match k with 0 => Ok (fst (fst r)) | 1 => Ok (snd (fst r)) | 2 => Ok (snd r) | _ => Fail end)
  | OMse red => match k with 0 => mseBackward grad a b red | _ => Fail end
  | ONll target red => nllBackward grad a target red
  end.
(** The rule as a function of gradient values.  Simplification: a gradient whose
    shape is not that of the result is [GBad]. *)
Definition lift (osh : list nat) (f : tensor R -> res (tensor R)) (a : gval) : gval :=
  match a with
  | GTensor t =>
    if list_eqb (tshape t) osh && (length (tdata t) =? numel osh)
    then match f t with Ok r => GTensor r | _ => GBad end else GBad
  | x => x
  end.

(** A statement: a leaf tensor of a shape, with or without requiresGrad, or a
    function applied to earlier tensors, which are numbered as they are made.
    Model only: see [runStmt] for the lines. *)
Inductive stmt := SLeaf (sh : list nat) (req : bool) | SApply (op : nop) (xs : list nat).
(** A tensor: its value, [requiresGrad()] and the function that made it.
    Tensor.h:282-283, Function.h:36-43. *)
Record node := Node { nval : tensor R; nreq : bool; nfn : fn Tg }.
(** What the function hands to input [k], tensor [x].  FuncElemWise.h:77-158 and
    the other rules. *)
Definition delivers (M : R) (op : nop) (ins : list (tensor R)) (out : tensor R) (k x : nat) : nat * delivery Tg :=
  (x, if passesGrad op ins out k then Pass else Fresh (V := Tg) (lift (tshape out) (backRule M op ins out k))).
(** Function.h:62-69 and 106-144, [Function<T>::apply]: the inputs that require
    grad are recorded; if there are none, nothing is.  Model only: a tensor that
    records nothing gets [FLeaf] as a placeholder, so that functions and tensors
    have the same numbers. *)
Definition record (M : R) (op : nop) (sel : list node) (xs : list nat) (out : tensor R) : node :=
  let ins := map nval sel in
  let ds := flat_map (fun q => if nreq (snd q) then [delivers M op ins out (fst (fst q)) (snd (fst q))] else [])
              (combine (combine (seq 0 (length xs)) xs) sel) in
  match ds with [] => Node out false FLeaf | _ => Node out true (FOp ds) end.
(** Model only: the tensors with the given numbers. *)
Definition select (st : list node) (xs : list nat) : option (list node) := seqopt (map (nth_error st) xs).
(** One statement; [theta] gives the elements of every leaf.  Tensor.cpp:17-20
    with 99-108; Function.h:87-147. *)
Definition runStmt (lo M : R) (theta : nat -> list R) (st : list node) (s : stmt) : res (list node) :=
  match s with
  | SLeaf sh req => Ok (st ++ [Node (mkT sh (theta (length st))) req FLeaf])
  | SApply op xs =>
    match select st xs with
    | None => Fail
    | Some sel => rbind (forward lo M op (map nval sel)) (fun out => Ok (st ++ [record M op sel xs out]))
    end
  end.
(** Model only: a program. *)
Fixpoint runFrom (lo M : R) (theta : nat -> list R) (p : list stmt) (st : list node) : res (list node) :=
  match p with
  | [] => Ok st
  | s :: p => rbind (runStmt lo M theta st s) (runFrom lo M theta p)
  end.
(** Model only: a whole program. *)
Definition run (lo M : R) (theta : nat -> list R) (p : list stmt) : res (list node) := runFrom lo M theta p [].
(** Tensor.cpp:116-123 and 185-191, [r.backward()]: the start is the scalar 1.
    [None]: a failed assertion, or nothing is done because the tensor has
    dimensions or does not require grad. *)
Definition backwardFrom (st : list node) (r : nat) : option (state Tg) :=
  match nth_error st r with
  | Some (Node v true _) =>
    if length (tshape v) =? 0 then backward (map nfn st) (State [GTensor (mkT [] [1%R]) : Tg] (fun _ => None) []) r 0 else None
  | _ => None
  end.
(** Tensor.h:126, [grad()] of tensor [l] after it. *)
Definition gradOfTensor (g : state Tg) (l : nat) : gval :=
  match gradOf g l with None => GNone | Some b => nth b (heap g) GNone end.
