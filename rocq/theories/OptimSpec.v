(** What the optimizers should do, in closed form over the history of gradients. *)
From Coq Require Import Reals List Arith Bool.
From Verif Require Import OptimModel.
Import ListNotations.
Open Scope R_scope.

(** The gradient of parameter [i] (of [n]) after the events [es]. *)
Definition gacc1 (n i : nat) (a : option R) (e : event) : option R :=
  match e with
  | EGrad j g => if j =? i then Some (match a with Some x => x + g | None => g end) else a
  | EZero => if i <? n then Some 0 else a
  | _ => a
  end.
Definition gradientOf (n i : nat) (es : list event) : option R := fold_left (gacc1 n i) es None.
Definition stepsIn (es : list event) : nat := length (filter (fun e => match e with EStep => true | _ => false end) es).
Definition rateAfter (lr0 : R) (es : list event) : R := fold_left (fun l e => match e with ELr l' => l' | _ => l end) es lr0.
(** The gradients used for parameter [i] in the steps of [es], oldest first,
    each with the number of the step: gradient plus [wd] times the parameter.
    [val p] is the parameter after the events [p]. *)
Fixpoint historyFrom (n i : nat) (wd : R) (val : list event -> R) (p rest : list event) : list (nat * R) :=
  match rest with
  | [] => []
  | e :: r =>
    (match e, gradientOf n i p with EStep, Some g => [(S (stepsIn p), g + wd * val p)] | _, _ => [] end)
    ++ historyFrom n i wd val (p ++ [e]) r
  end.
Definition history n i wd val es := historyFrom n i wd val [] es.

(** [b^(t-1) x_1 + ... + b x_(t-1) + x_t]. *)
Fixpoint dsum (b : R) (l : list R) : R := match l with [] => 0 | x :: r => b ^ length r * x + dsum b r end.
Definition ema (b : R) (l : list R) : R := (1 - b) * dsum b l.
Definition squares (l : list R) : list R := map (fun x => x * x) l.
Definition total (l : list R) : R := fold_right Rplus 0 l.
(** [f] of every non-empty prefix. *)
Fixpoint prefixesFrom {A B} (f : list A -> B) (p r : list A) : list B :=
  match r with [] => [] | x :: r => f (p ++ [x]) :: prefixesFrom f (p ++ [x]) r end.
Definition prefixes {A B} (f : list A -> B) (l : list A) : list B := prefixesFrom f [] l.

(** Directions, as functions of the history including the current step. *)
Definition sgdBuf (mu damp : R) (l : list R) : R :=
  match l with [] => 0 | g :: r => mu ^ length r * g + (1 - damp) * dsum mu r end.
Definition sgdDir (mu damp : R) (nesterov : bool) (l : list R) : R :=
  if Req_EM_T mu 0 then last l 0
  else if nesterov then last l 0 + mu * sgdBuf mu damp l else sgdBuf mu damp l.
Definition adagradDir (lrDecay init eps : R) (t : nat) (l : list R) : R :=
  last l 0 / (1 + INR (t - 1) * lrDecay) / (sqrt (init + total (squares l)) + eps).
Definition rmsRatio (alpha eps : R) (l : list R) : R := last l 0 / (sqrt (ema alpha (squares l)) + eps).
Definition rmsDir (alpha eps mu : R) (l : list R) : R :=
  if Req_EM_T mu 0 then rmsRatio alpha eps l else dsum mu (prefixes (rmsRatio alpha eps) l).
(** The centred variant divides by the root of the estimated variance. *)
Definition rmsCenteredDir (alpha eps : R) (l : list R) : R :=
  last l 0 / (sqrt (ema alpha (squares l) - ema alpha l * ema alpha l) + eps).
Fixpoint deltasFrom (rho eps : R) (p ds r : list R) : list R :=
  match r with
  | [] => ds
  | x :: r => deltasFrom rho eps (p ++ [x])
                (ds ++ [sqrt (ema rho (squares ds) + eps) / sqrt (ema rho (squares (p ++ [x])) + eps) * x]) r
  end.
Definition adadeltaDir (rho eps : R) (l : list R) : R := last (deltasFrom rho eps [] [] l) 0.
Definition vhat (beta2 : R) (l : list (nat * R)) : R := ema beta2 (squares (map snd l)) / (1 - beta2 ^ fst (last l (0%nat, 0))).
Definition adamDir (beta1 beta2 eps : R) (ams : bool) (t : nat) (l : list (nat * R)) : R :=
  ema beta1 (map snd l) / (1 - beta1 ^ t)
  / (sqrt (if ams then fold_left Rmax (prefixes (vhat beta2) l) 0 else vhat beta2 l) + eps).
