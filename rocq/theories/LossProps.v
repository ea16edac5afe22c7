(** C51: losses and their gradients.  [tensor_of sh F] is the tensor of shape [sh]
    with element [F idx] at [idx]; [bidx sh o] is where an operand of shape [sh] is read
    for result position [o] (C06); [is_gradient] is in GradSpec. *)
From Coq Require Import ZArith List Bool Arith Lia Reals Lra.
From Verif Require Import ShapeModel ShapeSpec ShapeProofs TensorModel TensorSpec TensorLemmas BcastModel BcastSpec BcastProofs BcastProps BufModel CutModel CutSpec ReduceModel ReduceSpec GradModel GradSpec GradProofs AdvModel FillModel LossModel LossSpec LossProofs.
Import ListNotations.
Open Scope R_scope.

(** ** Mean squared error *)
Theorem mse_value_partial : forall sh1 sh2 sh F G red, positive sh1 -> positive sh2 -> is_broadcast [sh1; sh2] sh ->
  mseLoss (tensor_of sh1 F) (tensor_of sh2 G) red
  = Ok (reduced_loss red sh (fun o => (F (bidx sh1 o) - G (bidx sh2 o)) ^ 2)).
Proof. exact mse_any_of. Qed.
Theorem mse_rejects_partial : forall a b red, positive (tshape a) -> positive (tshape b) ->
  (~ exists sh, is_broadcast [tshape a; tshape b] sh) -> mseLoss a b red = Fail.
Proof.
  intros a b red Ha Hb H. unfold mseLoss, binary. rewrite (elementwise_rejects_partial R R); auto. repeat constructor; auto.
Qed.
(** The gradient, for every incoming gradient, as long as the target is not the
    larger of the two. *)
Theorem mse_gradient_partial : forall sh tsh F G H red, positive sh -> positive tsh -> is_broadcast [sh; tsh] sh ->
  is_gradient (fun x => mseLoss x (tensor_of tsh G) red) sh F (loss_grad red sh H)
    (mseBackward (loss_grad red sh H) (tensor_of sh F) (tensor_of tsh G) red).
Proof. intros. apply mse_grad; auto. Qed.
(** A target larger than the input: the gradient has the target's shape. *)
Theorem mse_gradient_refuted : forall F G H red,
  ~ is_gradient (fun x => mseLoss x (tensor_of [2%nat] G) red) [1%nat] F (loss_grad red [2%nat] H)
    (mseBackward (loss_grad red [2%nat] H) (tensor_of [1%nat] F) (tensor_of [2%nat] G) red).
Proof.
  intros F G H red (r & D & E & ED & _). destruct red; cbn in E; injection E as <-; discriminate ED.
Qed.

(** ** Negative log likelihood.  [T b] is the class that target [t b] names for row
    [b] (a negative target counts from the end). *)
Theorem nll_value_partial : forall B C rest F t T red, (forall b, (b < B)%nat -> dim_is C (t [b]) (T b)) -> (numel (B :: rest) <> 0)%nat ->
  nllLoss (tensor_of (B :: C :: rest) F) (tensor_of [B] t) red
  = Ok (reduced_loss red (B :: rest) (fun o => - F (nth 0 o 0%nat :: T (nth 0 o 0%nat) :: skipn 1 o))).
Proof. intros. apply nll_forward_of; auto. Qed.
Theorem nll_rejects : forall grad input target red, length (tshape target) <> 1%nat ->
  nllLoss input target red = Fail /\ nllBackward grad input target red = Fail.
Proof.
  intros grad input target red H. unfold nllLoss, nllBackward. destruct (Nat.eqb_spec (length (tshape target)) 1) as [E|]; [destruct (H E)|]. auto.
Qed.
(** For a matrix of log probabilities the gradient is right if and only if the
    incoming gradient is 1. *)
Theorem nll_gradient_partial : forall B C F t T red H, (forall b, (b < B)%nat -> dim_is C (t [b]) (T b)) -> (0 < B)%nat ->
  is_gradient (fun x => nllLoss x (tensor_of [B] t) red) [B; C] F (loss_grad red [B] H)
    (nllBackward (loss_grad red [B] H) (tensor_of [B; C] F) (tensor_of [B] t) red)
  <-> match red with NONE => forall b, (b < B)%nat -> H [b] = 1 | _ => H [] = 1 end.
Proof. intros B C F t T red H HT. apply (nll_grad_iff B C F t T); auto. Qed.
Theorem nll_gradient_refuted : forall F,
  ~ is_gradient (fun x => nllLoss x (tensor_of [1%nat] (fun _ => 0%Z)) MEAN) [1%nat; 2%nat] F (tensor_of [] (fun _ => 2))
    (nllBackward (tensor_of [] (fun _ => 2)) (tensor_of [1%nat; 2%nat] F) (tensor_of [1%nat] (fun _ => 0%Z)) MEAN).
Proof.
  intros F G. change (tensor_of [] (fun _ : list nat => 2)) with (loss_grad MEAN [1%nat] (fun _ => 2)) in G.
  apply (nll_grad_iff 1 2 F (fun _ => 0%Z) (fun _ => 0%nat)) in G; try lra; try lia. intros b Hb. split; [lia|left; auto].
Qed.
(** With more dimensions the mean is over all terms but the gradient is divided by
    the batch size only. *)
Theorem nll_gradient_rank3_refuted : forall F,
  ~ is_gradient (fun x => nllLoss x (tensor_of [1%nat] (fun _ => 0%Z)) MEAN) [1; 1; 2]%nat F (tensor_of [] (fun _ => 1))
    (nllBackward (tensor_of [] (fun _ => 1)) (tensor_of [1; 1; 2]%nat F) (tensor_of [1%nat] (fun _ => 0%Z)) MEAN).
Proof.
  intros F (r & D & E & ED & _ & HD). cbn in E. injection E as <-. cbn in ED. injection ED as E0 E1.
  assert (V : valid [1; 1; 2]%nat [0; 0; 0]%nat) by (repeat constructor).
  specialize (HD _ V). rewrite <- E0 in HD.
  assert (HT : LossProofs.picks_class 1 1 (fun _ => 0%Z) (fun _ => 0%nat)) by (intros b Hb; split; [lia|left; auto]).
  assert (Q : derivable_pt_lim (fun x => weigh (tdata (tensor_of [] (fun _ : list nat => 1))) (nllLoss (tensor_of [1; 1; 2]%nat (put F [0; 0; 0]%nat x)) (tensor_of [1%nat] (fun _ => 0%Z)) MEAN)) (F [0; 0; 0]%nat) (- (1 / 2))).
  { apply (dlim_ext _ (fun x => (- (1 / 2)) * x + - F [0; 0; 1]%nat / 2)).
    - intro x. rewrite (nll_forward_of 1 1 [2%nat] _ _ (fun _ => 0%nat)) by (auto; discriminate). unfold reduced_loss, average, weigh, put, sum. cbn. field.
    - eapply dlim_val; [|apply (derivable_pt_lim_plus (fun x => - (1 / 2) * x) (fct_cte (- F [0; 0; 1]%nat / 2))); [apply (derivable_pt_lim_scal id); apply derivable_pt_lim_id|apply derivable_pt_lim_const]]. lra. }
  pose proof (uniqueness_limite _ _ _ _ HD Q). lra.
Qed.
(** Targets that are missing are read outside the target, classes out of range are
    read from another row, and inputs without a class dimension are read as if they
    had one. *)
Theorem nll_targets_refuted :
  (forall F red, nllLoss (tensor_of [2%nat; 2%nat] F) (tensor_of [1%nat] (fun _ => 0%Z)) red = UB)
  /\ (forall F, nllLoss (tensor_of [2%nat; 2%nat] F) (tensor_of [2%nat] (fun o => if (nth 0 o 0 =? 0)%nat then 2%Z else 0%Z)) NONE
     = Ok (tensor_of [2%nat] (fun _ => F [1; 0]%nat * -1)))
  /\ (forall F red, nllLoss (tensor_of [2%nat] F) (tensor_of [2%nat] (fun _ => 0%Z)) red = UB).
Proof. repeat split; intros; try destruct red; try reflexivity. Qed.

Example mse_case : is_broadcast [[2; 3]; [3]]%nat [2; 3]%nat /\ positive [2; 3]%nat.
Proof.
  split; [|repeat constructor]. split; [reflexivity|]. intros [|[|p]] Hp; cbn in Hp; try lia; (split; [intros s [<-|[<-|[]]]; cbn; auto|right; eexists; split; [left; reflexivity|reflexivity]]).
Qed.
Example nll_case : forall F, nllLoss (tensor_of [2%nat; 3%nat] F) (tensor_of [2%nat] (fun o => if (nth 0 o 0 =? 0)%nat then 2%Z else (-3)%Z)) SUM = Ok (tensor_of [] (fun _ => - F [0; 2]%nat + (- F [1; 0]%nat + 0)))
  /\ forall b, (b < 2)%nat -> dim_is 3 ((fun o => if (nth 0 o 0 =? 0)%nat then 2%Z else (-3)%Z) [b]) (if (b =? 0)%nat then 2 else 0)%nat.
Proof.
  intro F. assert (H : forall b, (b < 2)%nat -> dim_is 3 ((fun o => if (nth 0 o 0 =? 0)%nat then 2%Z else (-3)%Z) [b]) (if (b =? 0)%nat then 2 else 0)%nat).
  { intros [|[|b]] Hb; [split; cbn; lia|split; cbn; lia|lia]. }
  split; auto. rewrite (nll_value_partial 2 3 [] F _ _ SUM H) by discriminate. reflexivity.
Qed.

Print Assumptions mse_value_partial.
Print Assumptions mse_rejects_partial.
Print Assumptions mse_gradient_partial.
Print Assumptions mse_gradient_refuted.
Print Assumptions nll_value_partial.
Print Assumptions nll_rejects.
Print Assumptions nll_gradient_partial.
Print Assumptions nll_gradient_refuted.
Print Assumptions nll_gradient_rank3_refuted.
Print Assumptions nll_targets_refuted.
