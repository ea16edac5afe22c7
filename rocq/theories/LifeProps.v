(* C98: dropping tensors never breaks or changes a backward pass, and nothing leaks. *)
From Coq Require Import List Bool Arith Lia.
From Verif Require Import AutogradModel AutogradSpec AutogradProofs LifeModel LifeSpec LifeProofs LifeProofs2 LifeProofs3 LifeProofs4.
Import ListNotations.

(* ---- Whatever variables the program has dropped, copied or assigned before, [v.backward()]
   runs, once each and consumers first, exactly the operations that [v] was computed from in
   the computation as written ([story_of], which ignores drops), passes the gradients on
   between them, and afterwards exactly those of the held variables have a gradient that had
   one or that [v] was computed from.
   Missing: programs that are not [plain]; see the counterexamples below. *)
Theorem backward_after_drops_partial : forall p w v f t, plain p -> run start p = Some w -> result_of w (story_of p) v f t -> can_run w (story_of p) f ->
  exists w', step w (SBackward v) = Some w' /\ exists cs, calls w' = calls w ++ cs
    /\ consumers_first (graph_of (story_of p)) f (map cfn cs) /\ flow w' (story_of p) cs /\ vars w' = vars w
    /\ forall v' u t', result_of w (story_of p) v' u t' -> (has_grad w' t' <-> has_grad w t' \/ reach (graph_of (story_of p)) f u).
Proof. intros p w v f t HP E HR HC. exact (backward_done w _ v f t (program_inv p w HP E) HR HC). Qed.
Print Assumptions backward_after_drops_partial.

(* ---- An operation without derivative, or a second pass through one that gave its saved data
   away, stops the program: it never gives a wrong gradient. *)
Theorem backward_refuses_partial : forall p w v f t, plain p -> run start p = Some w -> result_of w (story_of p) v f t -> ~ can_run w (story_of p) f ->
  step w (SBackward v) = None.
Proof. intros p w v f t HP E HR HC. exact (backward_refused w _ v f t (program_inv p w HP E) HR HC). Qed.
Print Assumptions backward_refuses_partial.

(* ---- The other statements on held variables never fail. *)
Theorem statements_succeed_partial : forall p w c, plain p -> run start p = Some w -> match c with
  | SApply _ _ _ ins => forall v, In v ins -> obj (vars w) v <> None
  | SCopy v | SDrop v => obj (vars w) v <> None
  | SNew _ => True
  | _ => False end -> exists w', step w c = Some w'.
Proof. intros p w c HP E H. exact (plain_progress w _ c (program_inv p w HP E) H). Qed.
Print Assumptions statements_succeed_partial.

(* ---- Nothing that a held variable needs is ever destroyed: all programs. *)
Theorem needed_exists : forall p w, run start p = Some w ->
  (forall m, needs_meta w m -> exists x, obj (metas w) m = Some x) /\ (forall f, needs_func w f -> exists x, obj (funcs w) f = Some x).
Proof. intros p w E. exact (nd_needs w (nd_run p start w nd_start E)). Qed.
Print Assumptions needed_exists.

(* ---- Everything else has been destroyed. *)
Theorem nothing_leaks_partial : forall p w, plain p -> run start p = Some w ->
  (forall m x, obj (metas w) m = Some x -> needs_meta w m) /\ (forall f x, obj (funcs w) f = Some x -> needs_func w f).
Proof.
  intros p w HP E. pose proof (program_inv p w HP E) as HI. pose proof (run_tight p start w tight_start E) as HT. split.
  - intros m x Em. exact (tight_needed_meta w _ m x HI HT Em).
  - intros f x Ef. exact (tight_needed w _ HI HT _ f x (le_n _) Ef).
Qed.
Print Assumptions nothing_leaks_partial.
(* In particular when the last variable is gone, so is every autograd object. *)
Theorem all_freed_partial : forall p w, plain p -> run start p = Some w -> (forall v, obj (vars w) v = None) ->
  (forall m, obj (metas w) m = None) /\ (forall f, obj (funcs w) f = None).
Proof.
  intros p w HP E. exact (tight_empty w _ (program_inv p w HP E) (run_tight p start w tight_start E)).
Qed.
Print Assumptions all_freed_partial.

(* ---- Programs for which these hypotheses hold. *)
(* h = x * y; z = exp(h); h and x dropped; z.backward(); then z, then y dropped. *)
Definition dropped : list stmt := [SNew true; SNew true; SApply true Keeps 1 [0; 1]; SApply true Once 1 [2]; SDrop 2; SDrop 0].
Example dropped_plain : plain dropped.
Proof. intros c Hc. cbn in Hc. repeat destruct Hc as [<-|Hc]; auto. easy. Qed.
Example dropped_runs : exists w, run start dropped = Some w /\ result_of w (story_of dropped) 3 3 (Tensor 3 (Some 3))
  /\ result_of w (story_of dropped) 1 1 (Tensor 1 (Some 1)) /\ can_run w (story_of dropped) 3 /\ obj (vars w) 2 = None.
Proof.
  eexists. split; [vm_compute; reflexivity|]. repeat split; auto; destruct u as [|[|[|[|[|u]]]]]; vm_compute in H0; try discriminate; try (injection H0 as <- <-); try discriminate; auto.
Qed.
Example dropped_backward : exists w, run start (dropped ++ [SBackward 3]) = Some w /\ map cfn (calls w) = [3; 2; 0; 1] /\ has_grad w (Tensor 1 (Some 1)).
Proof. eexists. split; [vm_compute; reflexivity|]. split; [reflexivity|]. exists 1. eexists. split; [|split]; reflexivity. Qed.
Example dropped_all : exists w, run start (dropped ++ [SBackward 3; SDrop 3; SDrop 1]) = Some w /\ (forall v, obj (vars w) v = None) /\ existing (metas w) = [] /\ existing (funcs w) = [].
Proof. eexists. split; [vm_compute; reflexivity|]. split; [|auto]. intros [|[|[|[|[|v]]]]]; reflexivity. Qed.
(* While z is held, the four functions and metas are kept; dropping it leaves y's alone. *)
Example dropped_kept : exists w, run start dropped = Some w /\ length (existing (metas w)) = 4 /\ length (existing (funcs w)) = 4.
Proof. eexists. split; [vm_compute; reflexivity|]. auto. Qed.
Example dropped_rest : exists w, run start (dropped ++ [SDrop 3]) = Some w /\ length (existing (metas w)) = 1 /\ length (existing (funcs w)) = 1.
Proof. eexists. split; [vm_compute; reflexivity|]. auto. Qed.
(* The second pass through exp is refused, and so is an operation without derivative. *)
Example dropped_twice : run start (dropped ++ [SBackward 3; SBackward 3]) = None.
Proof. reflexivity. Qed.
Example no_rule_refused : (exists w, run start [SNew true; SApply true NoRule 2 [0]; SDrop 0] = Some w) /\ run start [SNew true; SApply true NoRule 2 [0]; SDrop 0; SBackward 1] = None.
Proof. split; [eexists; vm_compute; reflexivity|reflexivity]. Qed.

(* ---- The same is false of the other programs. *)
(* [y = h.sum()] of a scalar [h] that requires gradients: [y.backward()] fails although sum and
   h's operation have derivatives; *)
Theorem sum_of_scalar_refuted : (exists w, run start [SNew true; SApply true Keeps 1 [0]; SSumScalar true 1] = Some w) /\
  run start [SNew true; SApply true Keeps 1 [0]; SSumScalar true 1; SBackward 2] = None.
Proof. split; [eexists; vm_compute; reflexivity|reflexivity]. Qed.
(* so does [h.backward()] itself, which worked before y was made; *)
Theorem sum_breaks_argument_refuted : (exists w, run start [SNew true; SApply true Keeps 1 [0]; SBackward 1] = Some w) /\
  run start [SNew true; SApply true Keeps 1 [0]; SSumScalar true 1; SBackward 1] = None.
Proof. split; [eexists; vm_compute; reflexivity|reflexivity]. Qed.
(* and the objects of h are never freed. *)
Theorem sum_of_scalar_leaks_refuted : exists w, run start [SNew true; SApply true Keeps 1 [0]; SSumScalar true 1; SDrop 0; SDrop 1; SDrop 2] = Some w
  /\ (forall v, obj (vars w) v = None) /\ length (existing (metas w)) = 1 /\ length (existing (funcs w)) = 1.
Proof. eexists. split; [vm_compute; reflexivity|]. split; [|auto]. intros [|[|[|[|v]]]]; reflexivity. Qed.
(* [x.setRequiresGrad(true)] once more, on a tensor that already requires gradients and was
   used: the later backward fails. *)
Theorem set_again_refuted : (exists w, run start [SNew true; SApply true Keeps 1 [0]; SBackward 1] = Some w) /\
  run start [SNew true; SApply true Keeps 1 [0]; SSetRequiresGrad 0 true; SBackward 1] = None.
Proof. split; [eexists; vm_compute; reflexivity|reflexivity]. Qed.
(* [b = a; a.setRequiresGrad(true)]: using b fails. *)
Theorem set_after_copy_refuted : (exists w, run start [SNew false; SCopy 0; SSetRequiresGrad 0 true; SApply true Keeps 1 [0]; SBackward 2] = Some w) /\
  run start [SNew false; SCopy 0; SSetRequiresGrad 0 true; SApply true Keeps 1 [1]] = None.
Proof. split; [eexists; vm_compute; reflexivity|reflexivity]. Qed.
(* Freezing and unfreezing x between the forward and the backward pass: x gets no gradient. *)
Theorem off_and_on_refuted : exists w t, run start [SNew true; SApply true Keeps 1 [0]; SSetRequiresGrad 0 false; SSetRequiresGrad 0 true; SBackward 1] = Some w
  /\ obj (vars w) 0 = Some t /\ flag w t = true /\ ~ has_grad w t.
Proof. eexists. eexists. split; [vm_compute; reflexivity|]. split; [reflexivity|]. split; [reflexivity|]. intros (m & x & E1 & E2 & E3). injection E1 as <-. injection E2 as <-. discriminate. Qed.
(* Freezing an intermediate result after the forward pass: backward fails. *)
Theorem freeze_middle_refuted : run start [SNew true; SApply true Keeps 1 [0]; SApply true Keeps 1 [1]; SSetRequiresGrad 1 false; SBackward 2] = None.
Proof. reflexivity. Qed.
Print Assumptions off_and_on_refuted.
