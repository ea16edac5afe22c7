(** C31 and C32: learning-rate schedule and optimizers. *)
From Coq Require Import Reals List Arith Bool Lia Lra ZArith.
From Verif Require Import OptimModel OptimSpec OptimProofs OptimProofs2.
Import ListNotations.
Open Scope R_scope.

(** * C31 *)
Theorem steplr_closed_form : forall stepSize gamma lr0 t, (0 < stepSize)%Z ->
  exists s, stepMany stepSize gamma t (makeStepLR lr0 (-1)) = Some s
  /\ optLr s = lr0 * gamma ^ Z.to_nat (Z.of_nat t / stepSize) /\ lastLr s = optLr s /\ lastEpoch s = Z.of_nat t.
Proof.
  intros s gamma lr0 t Hs. cbn [makeStepLR]. unfold makeStepLR, schedStep, baseGetLr. cbn [optLr lastEpoch stepCount lastLr].
  destruct (steplr_from s gamma t (mkSched lr0 (-1 + 1) (0 + 1) lr0) Hs ltac:(cbn; lia)) as (y & E1 & E2 & E3 & E4 & E5). exists y. split; [exact E1|].
  cbn [lastEpoch optLr] in *. rewrite Z.div_0_l in E4 by lia. rewrite Z.sub_0_r in E4. split; [exact E4|]. split; [|lia].
  destruct t; [cbn in E1; inversion E1; reflexivity|apply E5; discriminate].
Qed.
(** Resuming with lastEpoch = k >= 0: the first step is the constructor's and
    never multiplies, so the rate continues relative to epoch k+1. *)
Theorem steplr_resumed : forall stepSize gamma lr0 k t, (0 < stepSize)%Z -> (0 <= k)%Z ->
  exists s, stepMany stepSize gamma t (makeStepLR lr0 k) = Some s
  /\ optLr s = lr0 * gamma ^ Z.to_nat ((k + 1 + Z.of_nat t) / stepSize - (k + 1) / stepSize).
Proof.
  intros s gamma lr0 k t Hs Hk. unfold makeStepLR, schedStep, baseGetLr. cbn [optLr lastEpoch stepCount lastLr].
  destruct (steplr_from s gamma t (mkSched lr0 (k + 1) (0 + 1) lr0) Hs ltac:(cbn; lia)) as (y & E1 & E2 & E3 & E4 & E5). exists y. auto.
Qed.
(** A zero step size is undefined behaviour at the first step, and stepping to
    the same epoch twice multiplies twice. *)
Theorem steplr_zero_step_size_refuted : forall gamma lr0 t, stepMany 0 gamma (S t) (makeStepLR lr0 (-1)) = None.
Proof. intros gamma lr0 t. induction t as [|t IH]; [reflexivity|]. cbn [stepMany] in *. rewrite IH. reflexivity. Qed.
Theorem steplr_step_to_epoch_refuted : forall gamma lr0, exists s0 s1 s2, makeStepLR lr0 (-1) = Some s0
  /\ schedStep (stepGetLr 10 gamma) (Some 10%Z) s0 = Some s1 /\ schedStep (stepGetLr 10 gamma) (Some 10%Z) s1 = Some s2
  /\ lastEpoch s2 = 10%Z /\ optLr s2 = lr0 * gamma * gamma.
Proof. intros. do 3 eexists. repeat split; reflexivity. Qed.
Example steplr_example : exists s, stepMany 3 (1/2) 7 (makeStepLR 8 (-1)) = Some s /\ optLr s = 2.
Proof. destruct (steplr_closed_form 3 (1/2) 8 7 ltac:(lia)) as (s & A & B & _). exists s. split; auto. rewrite B. change (Z.to_nat (Z.of_nat 7 / 3)) with 2%nat. cbn. lra. Qed.

(** * C32 *)
(** In all of the following [val es] is the value of parameter [i] after the
    events [es]; a step moves it by the current rate times a direction computed
    from the gradients of the steps so far. *)
Theorem sgd_follows_recurrence_partial : forall n mu damp wd nesterov lr0 th es i, (i < n)%nat -> mu = 0 \/ wd <> 0 ->
  let val := fun es => theta (train n (SGD mu damp wd nesterov) lr0 th es) i in
  val (es ++ [EStep]) = match gradientOf n i es with
    | None => val es
    | Some _ => val es - rateAfter lr0 es * sgdDir mu damp nesterov (map snd (history n i wd val (es ++ [EStep])))
    end.
Proof.
  intros n mu d wd nest lr0 th es i Hi HC. cbv beta zeta. destruct (Req_EM_T mu 0) as [->|Hmu].
  - rewrite (sgd_plain n d wd nest lr0 th es i Hi). unfold sgdDir. destruct (Req_EM_T 0 0); [reflexivity|contradiction].
  - destruct HC as [HC|HC]; [contradiction|]. rewrite (proj2 (sgd_both n mu d wd nest lr0 th Hmu es i Hi)). unfold aliased. destruct (Req_EM_T wd 0); [contradiction|reflexivity].
Qed.
(** With momentum and no weight decay the buffer is the gradient tensor itself
    until the second step, so the second gradient takes the place of the first. *)
Theorem sgd_momentum_without_decay : forall n mu damp nesterov lr0 th es i, (i < n)%nat -> mu <> 0 ->
  let val := fun es => theta (train n (SGD mu damp 0 nesterov) lr0 th es) i in
  val (es ++ [EStep]) = match gradientOf n i es with
    | None => val es
    | Some _ => val es - rateAfter lr0 es * sgdDir mu damp nesterov
                  (match map snd (history n i 0 val (es ++ [EStep])) with _ :: g2 :: r => g2 :: g2 :: r | l => l end)
    end.
Proof.
  intros n mu d nest lr0 th es i Hi Hmu. cbv beta zeta. rewrite (proj2 (sgd_both n mu d 0 nest lr0 th Hmu es i Hi)). unfold aliased. destruct (Req_EM_T 0 0); [|contradiction]. destruct (map snd _) as [|g1 [|g2 l]]; reflexivity.
Qed.
Theorem sgd_momentum_refuted : exists n mu damp nesterov lr0 th es i, (i < n)%nat /\ mu <> 0 /\ gradientOf n i es <> None /\
  let val := fun es => theta (train n (SGD mu damp 0 nesterov) lr0 th es) i in
  val (es ++ [EStep]) <> val es - rateAfter lr0 es * sgdDir mu damp nesterov (map snd (history n i 0 val (es ++ [EStep]))).
Proof.
  exists 1%nat, (1/2), 0, false, 1, (fun _ => 10), [EGrad 0 1; EStep; EZero; EGrad 0 2], 0%nat. split; [lia|]. split; [lra|]. split; [discriminate|].
  cbv beta zeta. set (val := fun es => theta (train 1 (SGD (1 / 2) 0 0 false) 1 (fun _ => 10) es) 0).
  pose proof (sgd_momentum_without_decay 1 (1/2) 0 false 1 (fun _ => 10) [EGrad 0 1; EStep; EZero; EGrad 0 2] 0 ltac:(lia) ltac:(lra)) as H. cbv beta zeta in H. fold val in H.
  intros C. change (val ([EGrad 0 1; EStep; EZero; EGrad 0 2] ++ [EStep]) = val [EGrad 0 1; EStep; EZero; EGrad 0 2] - rateAfter 1 [EGrad 0 1; EStep; EZero; EGrad 0 2] * sgdDir (1 / 2) 0 false (map snd (history 1 0 0 val ([EGrad 0 1; EStep; EZero; EGrad 0 2] ++ [EStep])))) in C.
  unfold val at 1 in C. rewrite H in C. fold val in C. clear H.
  replace (gradientOf 1 0 [EGrad 0 1; EStep; EZero; EGrad 0 2]) with (Some (0 + 2)) in C by reflexivity. revert C.
  replace (map snd (history 1 0 0 val ([EGrad 0 1; EStep; EZero; EGrad 0 2] ++ [EStep]))) with [1; 2].
  2: { unfold history. cbn -[val]. rewrite !Rmult_0_l, !Rplus_0_r, Rplus_0_l. reflexivity. }
  unfold sgdDir. destruct (Req_EM_T (1/2) 0); [lra|]. change (theta (train 1 (SGD (1 / 2) 0 0 false) 1 (fun _ => 10) [EGrad 0 1; EStep; EZero; EGrad 0 2]) 0) with (val [EGrad 0 1; EStep; EZero; EGrad 0 2]).
  generalize (val [EGrad 0 1; EStep; EZero; EGrad 0 2]). intros v. unfold rateAfter. cbn. lra.
Qed.
Theorem adagrad_follows_recurrence : forall n lrDecay wd initAcc eps lr0 th es i, (i < n)%nat ->
  let val := fun es => theta (train n (Adagrad lrDecay wd initAcc eps) lr0 th es) i in
  val (es ++ [EStep]) = match gradientOf n i es with
    | None => val es
    | Some _ => val es - rateAfter lr0 es * adagradDir lrDecay initAcc eps (S (stepsIn es)) (map snd (history n i wd val (es ++ [EStep])))
    end.
Proof. exact adagrad_theta. Qed.
Theorem rmsprop_follows_recurrence_partial : forall n alpha eps wd mu lr0 th es i, (i < n)%nat ->
  let val := fun es => theta (train n (RMSprop alpha eps wd mu false) lr0 th es) i in
  val (es ++ [EStep]) = match gradientOf n i es with
    | None => val es
    | Some _ => val es - rateAfter lr0 es * rmsDir alpha eps mu (map snd (history n i wd val (es ++ [EStep])))
    end.
Proof. exact rms_theta. Qed.
Theorem rmsprop_centered_refuted : exists n alpha eps lr0 th es i, (i < n)%nat /\ gradientOf n i es <> None /\
  let val := fun es => theta (train n (RMSprop alpha eps 0 0 true) lr0 th es) i in
  val (es ++ [EStep]) <> val es - rateAfter lr0 es * rmsCenteredDir alpha eps (map snd (history n i 0 val (es ++ [EStep]))).
Proof.
  exists 1%nat, (1/2), 1, 1, (fun _ => 10), [EGrad 0 4], 0%nat. split; [lia|]. split; [discriminate|]. cbv beta zeta.
  set (val := fun es => theta (train 1 (RMSprop (1 / 2) 1 0 0 true) 1 (fun _ => 10) es) 0).
  assert (E0 : val [EGrad 0 4] = 10) by reflexivity.
  assert (E1 : val ([EGrad 0 4] ++ [EStep]) = 10 - 4 / 5).
  { unfold val. cbn. unfold rmsBody, getDecayedGrad. cbn. destruct (Req_EM_T 0 0); [|contradiction]. cbn. lra. }
  replace (map snd (history 1 0 0 val ([EGrad 0 4] ++ [EStep]))) with [4].
  2: { unfold history. cbn -[val]. rewrite Rmult_0_l, Rplus_0_r. reflexivity. }
  change (val ([EGrad 0 4] ++ [EStep]) <> val [EGrad 0 4] - rateAfter 1 [EGrad 0 4] * rmsCenteredDir (1 / 2) 1 [4]). rewrite E0, E1.
  unfold rmsCenteredDir, ema. cbn. replace ((1 - 1 / 2) * (1 * (4 * 4) + 0) - (1 - 1 / 2) * (1 * 4 + 0) * ((1 - 1 / 2) * (1 * 4 + 0))) with (2 * 2) by field.
  rewrite sqrt_square by lra. unfold rateAfter. cbn. lra.
Qed.
Theorem adadelta_follows_recurrence : forall n rho eps wd lr0 th es i, (i < n)%nat ->
  let val := fun es => theta (train n (AdaDelta rho eps wd) lr0 th es) i in
  val (es ++ [EStep]) = match gradientOf n i es with
    | None => val es
    | Some _ => val es - rateAfter lr0 es * adadeltaDir rho eps (map snd (history n i wd val (es ++ [EStep])))
    end.
Proof. exact adadelta_theta. Qed.
Theorem adam_follows_recurrence : forall n beta1 beta2 eps wd amsGrad lr0 th es i, (i < n)%nat ->
  let val := fun es => theta (train n (Adam beta1 beta2 eps wd amsGrad) lr0 th es) i in
  val (es ++ [EStep]) = match gradientOf n i es with
    | None => val es
    | Some _ => val es - rateAfter lr0 es * adamDir beta1 beta2 eps amsGrad (S (stepsIn es)) (history n i wd val (es ++ [EStep]))
    end.
Proof. exact adam_theta. Qed.
Theorem adamw_follows_recurrence_partial : forall n beta1 beta2 eps wd amsGrad lr0 th es i, (i < n)%nat -> gradientOf n i es <> None ->
  let val := fun es => theta (train n (AdamW beta1 beta2 eps wd amsGrad) lr0 th es) i in
  val (es ++ [EStep]) = val es * (1 - rateAfter lr0 es * wd)
    - rateAfter lr0 es * adamDir beta1 beta2 eps amsGrad (S (stepsIn es)) (history n i 0 val (es ++ [EStep])).
Proof.
  intros n b1 b2 eps wd ams lr0 th es i Hi HG. cbv beta zeta. rewrite (adamW_theta n b1 b2 eps wd ams lr0 th es i Hi). destruct (gradientOf n i es); [reflexivity|contradiction].
Qed.
(** AdamW also shrinks parameters that have no gradient. *)
Theorem adamw_without_gradient_refuted : forall n beta1 beta2 eps wd amsGrad lr0 th i, (i < n)%nat -> th i * (lr0 * wd) <> 0 ->
  let val := fun es => theta (train n (AdamW beta1 beta2 eps wd amsGrad) lr0 th es) i in
  gradientOf n i [] = None /\ val [EStep] <> val [].
Proof.
  intros n b1 b2 eps wd ams lr0 th i Hi HN. cbv beta zeta. split; [reflexivity|]. pose proof (adamW_theta n b1 b2 eps wd ams lr0 th [] i Hi) as H. cbv beta zeta in H. cbn [app] in H. rewrite H.
  cbn. intros C. apply HN. unfold rateAfter in C. cbn in C. lra.
Qed.
(** Nothing but a step changes a parameter, only registered parameters change,
    and what happens to the other parameters is irrelevant. *)
Theorem only_steps_change_parameters : forall n a lr0 th es e i, e <> EStep -> theta (train n a lr0 th (es ++ [e])) i = theta (train n a lr0 th es) i.
Proof. exact other_theta. Qed.
Theorem unregistered_parameters_unchanged : forall n a lr0 th es i, (n <= i)%nat -> theta (train n a lr0 th es) i = th i.
Proof. exact beyond_theta. Qed.
Theorem parameters_do_not_interfere : forall n a lr0 th th' es i, (i < n)%nat -> th i = th' i ->
  theta (train n a lr0 th es) i = theta (train n a lr0 th' (filter (fun e => match e with EGrad j _ => j =? i | _ => true end) es)) i.
Proof. exact independent. Qed.
Theorem no_gradient_no_change : forall n a lr0 th es i, (i < n)%nat -> (forall b1 b2 e w m, a <> AdamW b1 b2 e w m) -> gradientOf n i es = None ->
  theta (train n a lr0 th (es ++ [EStep])) i = theta (train n a lr0 th es) i.
Proof.
  intros n a lr0 th es i Hi HA HG. destruct a as [mu d wd nest|ld wd ia eps|al eps wd mu cen|rho eps wd|b1 b2 eps wd ams|b1 b2 eps wd ams].
  6: { exfalso. eapply HA. reflexivity. }
  1: destruct (Req_EM_T mu 0) as [->|Hmu]; [pose proof (sgd_plain n d wd nest lr0 th es i Hi) as H|pose proof (proj2 (sgd_both n mu d wd nest lr0 th Hmu es i Hi)) as H].
  3: pose proof (adagrad_theta n ld wd ia eps lr0 th es i Hi) as H.
  4: destruct cen; [|pose proof (rms_theta n al eps wd mu lr0 th es i Hi) as H].
  6: pose proof (adadelta_theta n rho eps wd lr0 th es i Hi) as H.
  7: pose proof (adam_theta n b1 b2 eps wd ams lr0 th es i Hi) as H.
  4: { rewrite train_snoc. cbn [handle]. destruct (step_at n (RMSprop al eps wd mu true) (train n (RMSprop al eps wd mu true) lr0 th es) i Hi) as (s1 & (A1 & A2 & A3 & A4 & A5 & A6 & _) & (B1 & _)).
       pose proof (slots_inv n (RMSprop al eps wd mu true) lr0 th es) as (_ & HV & _). specialize (HV i). rewrite HG in HV.
       assert (HN : gradH s1 i = None) by (rewrite A6; cbn; destruct (gradH _ i); [discriminate|reflexivity]).
       rewrite B1. cbn [body]. unfold rmsBody. rewrite decayed_none by exact HN. exact A1. }
  all: cbv beta zeta in H; rewrite HG in H; exact H.
Qed.
Example sgd_example : let val := fun es => theta (train 2 (SGD (1/2) 0 1 false) 1 (fun _ => 4) es) 1 in
  gradientOf 2 1 [EGrad 1 2; EStep; EZero] = Some 0 /\ val ([EGrad 1 2] ++ [EStep]) = -2 /\ val ([EGrad 1 2; EStep; EZero] ++ [EStep]) = -3.
Proof.
  cbv beta zeta. split; [reflexivity|].
  assert (E1 : theta (train 2 (SGD (1 / 2) 0 1 false) 1 (fun _ => 4) ([EGrad 1 2] ++ [EStep])) 1 = -2).
  { rewrite sgd_follows_recurrence_partial by (lia || (right; lra)). unfold history, sgdDir. destruct (Req_EM_T (1/2) 0); [lra|]. cbn. unfold rateAfter. cbn. lra. }
  split; [exact E1|]. rewrite sgd_follows_recurrence_partial by (lia || (right; lra)).
  assert (E2 : theta (train 2 (SGD (1 / 2) 0 1 false) 1 (fun _ => 4) [EGrad 1 2; EStep; EZero]) 1 = -2).
  { change [EGrad 1 2; EStep; EZero] with (([EGrad 1 2] ++ [EStep]) ++ [EZero]). rewrite only_steps_change_parameters by discriminate. exact E1. }
  unfold history, sgdDir. destruct (Req_EM_T (1/2) 0); [lra|]. cbn -[train]. rewrite E2. change (theta (train 2 (SGD (1 / 2) 0 1 false) 1 (fun _ => 4) [EGrad 1 2]) 1) with 4. unfold rateAfter. cbn. lra.
Qed.
Print Assumptions steplr_closed_form.
Print Assumptions steplr_resumed.
Print Assumptions steplr_zero_step_size_refuted.
Print Assumptions steplr_step_to_epoch_refuted.
Print Assumptions sgd_follows_recurrence_partial.
Print Assumptions sgd_momentum_without_decay.
Print Assumptions sgd_momentum_refuted.
Print Assumptions adagrad_follows_recurrence.
Print Assumptions rmsprop_follows_recurrence_partial.
Print Assumptions rmsprop_centered_refuted.
Print Assumptions adadelta_follows_recurrence.
Print Assumptions adam_follows_recurrence.
Print Assumptions adamw_follows_recurrence_partial.
Print Assumptions adamw_without_gradient_refuted.
Print Assumptions only_steps_change_parameters.
Print Assumptions unregistered_parameters_unchanged.
Print Assumptions parameters_do_not_interfere.
Print Assumptions no_gradient_no_change.
