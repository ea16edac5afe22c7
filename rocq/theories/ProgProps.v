(** Properties C68 and C69: whole programs. *)
From Coq Require Import ZArith List Bool Arith Lia Reals Lra.
From Verif Require Import AutogradModel AutogradSpec GradModel ProgModel ProgSpec ProgProofs2 ProgProofs3 ProgProofs4 ProgProofs5 ProgProofs6 ProgProofs7.
Import ListNotations.
Open Scope nat_scope.

(** * C68: [backward()] gives the derivatives of the program *)
(** For every program and leaf values [theta], every leaf [l] that requires grad
    and every tensor [r] that depends on leaves that require grad:
    [r.backward()] leaves in [l.grad()] the derivative of [r] with respect to
    [l], with what was computed in no-grad mode held fixed.  Missing, see the
    refutations: in-place operators and [fill_] with gradients at stake,
    reductions of scalars ([gentle]); sums of tensors that are used again
    ([sums_once]). *)
Theorem backward_is_derivative_partial : forall theta p l r,
  gentle theta p [] [] -> sums_once p -> grad_leaf p l -> needs (at_ (run theta theta p []) r) = true ->
  exists st g d, execProg theta p start = Some st /\ backwardFrom st r = Some g /\ gradAfter st g l = Some d
  /\ derivable_pt_lim (fun t => moved (at_ (run theta (move theta l t) p []) r)) (theta l) d.
Proof. exact backward_right. Qed.
(** Without no-grad mode: the derivative of what the program computes when it is
    run with another value of the leaf. *)
Theorem backward_differentiates_program_partial : forall theta p l r,
  gentle theta p [] [] -> sums_once p -> grad_leaf p l -> needs (at_ (run theta theta p []) r) = true -> (forall en s, In (en, s) p -> en = true) ->
  exists st g d, execProg theta p start = Some st /\ backwardFrom st r = Some g /\ gradAfter st g l = Some d
  /\ derivable_pt_lim (fun t => base (at_ (run (move theta l t) (move theta l t) p []) r)) (theta l) d.
Proof.
  intros theta p l r HG HS HL HN HE. destruct (backward_right theta p l r HG HS HL HN) as (st & g & d & H1 & H2 & H3 & H4). exists st, g, d. split; auto. split; auto. split; auto.
  eapply derivable_lim_ext; [|exact H4]. intros t. cbn. apply rerun; auto. intros v. unfold at_. destruct v; cbn; auto.
Qed.
(** What the program computes: the values and flags of all its tensors. *)
Theorem program_values_partial : forall theta p, gentle theta p [] [] ->
  exists st, execProg theta p start = Some st /\ tensors st = length (run theta theta p [])
  /\ forall v, v < tensors st -> valueOf st v = Some (base (at_ (run theta theta p []) v)) /\ requiresGradOf st v = Some (needs (at_ (run theta theta p []) v)).
Proof.
  intros theta p HG. destruct (whole_values theta p start [] [] inv_start HG) as (st & used & X & I). exists st. split; auto. split; [apply (i_len _ _ _ I)|]. intros v Hv. unfold tensors in Hv.
  destruct (nth_error (vars st) v) as [h|] eqn:E; [|apply nth_error_None in E; lia]. destruct (i_var _ _ _ I v h E) as (_ & B & C & _). unfold valueOf, requiresGradOf. rewrite E. cbn. rewrite B, C. auto.
Qed.

Definition three (i : nat) : R := match i with 0 => 1%R | 1 => 2%R | _ => 3%R end.
Ltac now_compute := match goal with |- ?a = _ => let v := eval cbv -[Rplus Rmult Rminus Ropp Rdiv Rinv IZR sin cos Rpower ln Rlt_dec] in a in transitivity v; [vm_cast_no_check (eq_refl v)|reflexivity] end.
Ltac look := intros; cbv [run run1 at_ nth set_at app length un_math bin_math moved base needs Nat.eqb andb orb move three no_point].
(** y = x * 2; y *= 3: the gradient of x is 2, not 6. *)
Definition scaled_in_place : program := [(true, SLeaf true); (true, SLeaf false); (true, SLeaf false); (true, SBin BMul 0 1); (true, SIn BMul 3 2)].
Theorem inplace_operator_gradient_refuted : exists st g,
  execProg three scaled_in_place start = Some st /\ valueOf st 3 = Some (1 * 2 * 3)%R /\ backwardFrom st 3 = Some g /\ gradAfter st g 0 = Some (1 * 2)%R
  /\ derivable_pt_lim (fun t => base (at_ (run (move three 0 t) (move three 0 t) scaled_in_place []) 3)) 1%R 6%R.
Proof.
  eexists. eexists. split; [now_compute|]. split; [now_compute|]. split; [now_compute|]. split; [now_compute|].
  apply (derivable_lim_ext (fun t => t * 6)%R); [unfold scaled_in_place; look; ring|]. eapply derivable_lim_eq; [apply derivable_pt_lim_mult; [apply derivable_pt_lim_id|apply (derivable_const 6%R)]|unfold id; lra].
Qed.
(** x = a * 2; x += b: b gets no gradient. *)
Definition added_in_place : program := [(true, SLeaf true); (true, SLeaf true); (true, SLeaf false); (true, SBin BMul 0 2); (true, SIn BAdd 3 1)].
Theorem inplace_operand_gradient_refuted : exists st g,
  execProg three added_in_place start = Some st /\ backwardFrom st 3 = Some g /\ gradAfter st g 1 = Some 0%R
  /\ derivable_pt_lim (fun t => base (at_ (run (move three 1 t) (move three 1 t) added_in_place []) 3)) 2%R 1%R.
Proof.
  eexists. eexists. split; [now_compute|]. split; [now_compute|]. split; [now_compute|].
  apply (derivable_lim_ext (fun t => 3 + t)%R); [unfold added_in_place; look; ring|]. eapply derivable_lim_eq; [apply derivable_pt_lim_plus; [apply (derivable_const 3%R)|apply derivable_pt_lim_id]|lra].
Qed.
(** x += y when only y requires grad: x still does not, and [x.backward()] does
    nothing. *)
Definition requires_lost : program := [(true, SLeaf false); (true, SLeaf true); (true, SIn BAdd 0 1)].
Theorem inplace_requires_grad_refuted : exists st,
  execProg three requires_lost start = Some st /\ requiresGradOf st 0 = Some false /\ backwardFrom st 0 = None
  /\ derivable_pt_lim (fun t => base (at_ (run (move three 1 t) (move three 1 t) requires_lost []) 0)) 2%R 1%R.
Proof.
  eexists. split; [now_compute|]. split; [now_compute|]. split; [now_compute|].
  apply (derivable_lim_ext (fun t => 1 + t)%R); [unfold requires_lost; look; ring|]. eapply derivable_lim_eq; [apply derivable_pt_lim_plus; [apply (derivable_const 1%R)|apply derivable_pt_lim_id]|lra].
Qed.
(** y = x * w, then w is overwritten with 5 in no-grad mode: the gradient of x is
    the new w. *)
Definition overwritten : program := [(true, SLeaf true); (true, SLeaf true); (true, SBin BMul 0 1); (false, SFill 1 5%R)].
Theorem overwritten_operand_refuted : exists st g,
  execProg three overwritten start = Some st /\ valueOf st 2 = Some (1 * 2)%R /\ backwardFrom st 2 = Some g /\ gradAfter st g 0 = Some (1 * 5)%R
  /\ derivable_pt_lim (fun t => moved (at_ (run three (move three 0 t) overwritten []) 2)) 1%R 2%R.
Proof.
  eexists. eexists. split; [now_compute|]. split; [now_compute|]. split; [now_compute|]. split; [now_compute|].
  apply (derivable_lim_ext (fun t => t * 2)%R); [unfold overwritten; look; ring|]. eapply derivable_lim_eq; [apply derivable_pt_lim_mult; [apply derivable_pt_lim_id|apply (derivable_const 2%R)]|unfold id; lra].
Qed.
(** d = (a + b) + a: b's gradient is 2. *)
Definition added_twice : program := [(true, SLeaf true); (true, SLeaf true); (true, SBin BAdd 0 1); (true, SBin BAdd 2 0)].
Theorem sums_used_again_refuted : gentle three added_twice [] [] /\ exists st g,
  execProg three added_twice start = Some st /\ backwardFrom st 3 = Some g /\ gradAfter st g 1 = Some (1 + 1)%R
  /\ derivable_pt_lim (fun t => base (at_ (run (move three 1 t) (move three 1 t) added_twice []) 3)) 2%R 1%R.
Proof.
  split; [cbn; repeat split; auto; lia|]. eexists. eexists. split; [now_compute|]. split; [now_compute|]. split; [now_compute|].
  apply (derivable_lim_ext (fun t => 2 + t)%R); [unfold added_twice; look; ring|]. eapply derivable_lim_eq; [apply derivable_pt_lim_plus; [apply (derivable_const 2%R)|apply derivable_pt_lim_id]|lra].
Qed.
(** A program the theorem covers: w += w; s = sin(x * w); c = w * w in no-grad
    mode; z = s + y / c; and then y -= w. *)
Definition covered : program :=
  [(true, SLeaf true); (true, SLeaf false); (true, SLeaf true); (true, SIn BAdd 1 1); (true, SBin BMul 0 1); (true, SUn USin 3);
   (false, SBin BMul 1 1); (true, SBin BDiv 2 5); (true, SBin BAdd 4 6); (true, SIn BSub 2 1)].
Example covered_gentle : gentle three covered [] [] /\ sums_once covered /\ grad_leaf covered 2 /\ needs (at_ (run three three covered []) 7) = true.
Proof.
  split; [|split; [|split]].
  - cbn. repeat split; auto; try lia; try lra.
  - intros en b x y H. cbn in H. repeat (destruct H as [H|H]; [try discriminate; injection H; intros; subst; split; intros; try discriminate; split; reflexivity|]). contradiction.
  - exists [(true, SLeaf true); (true, SLeaf false)], true. eexists. split; reflexivity.
  - reflexivity.
Qed.

(** * C69: what a statement does to the tensors *)
(** An operation makes one new tensor, with the right value, that requires grad
    if gradients are recorded and an operand requires grad; all other tensors are
    untouched.  Missing, see the refutations: reshapes of tensors that require
    grad in no-grad mode; reductions of scalars that require grad. *)
Theorem operations_make_one_tensor_partial : forall theta st en, reachable st ->
  (forall u x v r, valueOf st x = Some v -> requiresGradOf st x = Some r -> (u = UReshape -> en = true \/ r = false) ->
    exists st', exec1 theta en (SUn u x) st = Some st' /\ tensors st' = S (tensors st) /\ (forall w, w < tensors st -> untouched st st' w)
    /\ valueOf st' (tensors st) = Some (un_math u v) /\ requiresGradOf st' (tensors st) = Some (en && r))
  /\ (forall b x y v w r q, valueOf st x = Some v -> requiresGradOf st x = Some r -> valueOf st y = Some w -> requiresGradOf st y = Some q -> arg_ok b v w ->
    exists st', exec1 theta en (SBin b x y) st = Some st' /\ tensors st' = S (tensors st) /\ (forall z, z < tensors st -> untouched st st' z)
    /\ valueOf st' (tensors st) = Some (bin_math b v w) /\ requiresGradOf st' (tensors st) = Some (en && (r || q)))
  /\ (forall x v, valueOf st x = Some v -> requiresGradOf st x = Some false ->
    exists st', exec1 theta en (SSum x) st = Some st' /\ tensors st' = S (tensors st) /\ (forall w, w < tensors st -> untouched st st' w)
    /\ valueOf st' (tensors st) = Some v /\ requiresGradOf st' (tensors st) = Some false).
Proof.
  intros theta st en HR. apply reachable_ok in HR. split; [|split].
  - intros u x v r HV HQ HU. destruct (un_seen theta en u x st v r) as (st' & X & A); auto. exists st'. split; auto. destruct (added_seen _ _ _ _ A) as (H1 & H2 & H3 & _). split; auto. split; auto. eapply added_untouched; eauto.
  - intros b x y v w r q H1 H2 H3 H4 HA. destruct (bin_seen theta en b x y st v w r q) as (st' & X & A); auto. exists st'. split; auto. destruct (added_seen _ _ _ _ A) as (G1 & G2 & G3 & _). split; auto. split; auto. eapply added_untouched; eauto.
  - intros x v HV HQ. apply sum_seen; auto.
Qed.
(** [x op= y] gives x the right value and touches no other tensor; x's flag stays. *)
Theorem inplace_operators_touch_one_tensor : forall theta st en b x y v w r, reachable st ->
  valueOf st x = Some v -> requiresGradOf st x = Some r -> valueOf st y = Some w -> arg_ok b v w ->
  exists st', exec1 theta en (SIn b x y) st = Some st' /\ tensors st' = tensors st /\ (forall z, z <> x -> untouched st st' z)
  /\ valueOf st' x = Some (bin_math b v w) /\ requiresGradOf st' x = Some r.
Proof.
  intros theta st en b x y v w r HR HV HQ HW HA. apply reachable_ok in HR. destruct (in_seen theta en b x y st v w r) as (st' & H1 & H2 & H3 & H4 & H5 & _); auto. exists st'. auto.
Qed.
(** [x.fill_(v)] too, in programs without reductions of scalars. *)
Theorem fill_touches_one_tensor_partial : forall theta theta' p st en x u v, no_reductions p -> execProg theta p start = Some st -> valueOf st x = Some u ->
  exists st', exec1 theta' en (SFill x v) st = Some st' /\ tensors st' = tensors st /\ (forall z, z <> x -> untouched st st' z)
  /\ valueOf st' x = Some v /\ requiresGradOf st' x = requiresGradOf st x /\ gradFnOf st' x = gradFnOf st x.
Proof.
  intros theta theta' p st en x u v HN HE HV. eapply fill_seen; eauto.
  - eapply reachable_wf; [apply wf_start|eauto].
  - eapply apart_run; [apply wf_start|apply apart_start|eauto|eauto].
Qed.
(** [s = x.sum()] of a scalar is x itself: filling x changes s. *)
Theorem fill_touches_one_tensor_refuted : exists st st',
  execProg three [(true, SLeaf false); (true, SSum 0)] start = Some st /\ valueOf st 1 = Some 1%R /\ exec1 three true (SFill 0 5%R) st = Some st' /\ valueOf st' 1 = Some 5%R.
Proof. eexists. eexists. split; [now_compute|]. split; [now_compute|]. split; now_compute. Qed.
(** [s = y.sum()] of a scalar [y = sin(x)] that requires grad replaces the
    history of y: afterwards neither s nor y can be differentiated. *)
Theorem reduction_of_scalar_refuted : exists st st',
  execProg three [(true, SLeaf true); (true, SUn USin 0)] start = Some st /\ backwardFrom st 1 <> None
  /\ exec1 three true (SSum 1) st = Some st' /\ gradFnOf st' 1 <> gradFnOf st 1 /\ backwardFrom st' 1 = None /\ backwardFrom st' 2 = None.
Proof. eexists. eexists. split; [now_compute|]. split; [discriminate|]. split; [now_compute|]. split; [discriminate|]. split; reflexivity. Qed.
(** In no-grad mode, reshaping or summing a scalar that requires grad fails. *)
Theorem no_grad_reshape_refuted : exists st, execProg three [(true, SLeaf true)] start = Some st
  /\ exec1 three false (SUn UReshape 0) st = None /\ exec1 three false (SSum 0) st = None /\ exec1 three false (SUn USin 0) st <> None.
Proof. eexists. split; [now_compute|]. split; [now_compute|]. split; [reflexivity|discriminate]. Qed.
(** More generally, in any program. *)
Theorem no_grad_reshape_always_fails : forall theta st x, reachable st -> requiresGradOf st x = Some true ->
  exec1 theta false (SUn UReshape x) st = None /\ exec1 theta false (SSum x) st = None.
Proof.
  intros theta st x HR HQ. unfold requiresGradOf in HQ. destruct (nth_error (vars st) x) as [h|] eqn:E; [|discriminate]. injection HQ as HQ. cbn [exec1]. rewrite E. unfold applyFn. cbn [unForward sumForward]. rewrite HQ. split; auto.
  unfold newTensor, getReq, getImpl. cbn [himpl impls]. rewrite app_nth2, Nat.sub_diag by auto. reflexivity.
Qed.

Print Assumptions backward_is_derivative_partial.
Print Assumptions backward_differentiates_program_partial.
Print Assumptions program_values_partial.
Print Assumptions operations_make_one_tensor_partial.
Print Assumptions inplace_operators_touch_one_tensor.
Print Assumptions fill_touches_one_tensor_partial.
Print Assumptions no_grad_reshape_always_fails.
