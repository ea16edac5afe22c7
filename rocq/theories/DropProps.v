(** C52: dropout. *)
From Coq Require Import ZArith List Bool Arith Lia Reals Lra.
From Verif Require Import ShapeModel ShapeSpec ShapeProofs TensorModel TensorSpec BcastModel BcastSpec CutModel GradModel GradSpec DropModel DropSpec DropProofs.
Import ListNotations.
Open Scope R_scope.

(** Evaluation mode. *)
Theorem dropout_eval : forall t p draws, exists ctx, dropoutForward t p false draws = Ok (t, ctx)
  /\ forall grad, dropoutBackward true ctx grad = Ok (Some grad, []).
Proof. intros t p draws. exists [SBool false]. split; reflexivity. Qed.
(** Training: [M i] says whether element [i] survives.  The gradient uses the same
    [M] and scale. *)
Theorem dropout_train_partial : forall sh F p M, positive sh -> exists ctx,
  dropoutForward (tensor_of sh F) p true (map M (indices sh)) = Ok (tensor_of sh (fun i => if M i : bool then F i / (1 - p) else 0), ctx)
  /\ forall H, dropoutBackward true ctx (tensor_of sh H) = Ok (Some (tensor_of sh (fun i => if M i : bool then H i / (1 - p) else 0)), []).
Proof.
  intros sh F p M P. eexists. unfold dropoutForward. cbn [negb]. change (tshape (tensor_of sh F)) with sh. rewrite masked_of by auto. cbn [rbind]. split; [reflexivity|].
  intro H. cbn [dropoutBackward negb app]. rewrite masked_of by auto. reflexivity.
Qed.
(** That is the derivative of the forward pass with the same draws. *)
Theorem dropout_gradient_partial : forall sh F H p M, positive sh -> exists ctx out g,
  dropoutForward (tensor_of sh F) p true (map M (indices sh)) = Ok (out, ctx)
  /\ dropoutBackward true ctx (tensor_of sh H) = Ok (Some g, [])
  /\ is_gradient (fun x => rbind (dropoutForward x p true (map M (indices sh))) (fun r => Ok (fst r))) sh F (tensor_of sh H) (Ok g).
Proof.
  intros sh F H p M P. destruct (dropout_train_partial sh F p M P) as (ctx & E & B). eexists. eexists. eexists. split; [exact E|]. split; [apply B|]. apply dropout_grad; auto.
Qed.
(** Every sequence of draws is of the form used above. *)
Theorem dropout_every_mask : forall sh (draws : list bool), length draws = numel sh -> exists M, draws = map M (indices sh).
Proof. intros sh draws H. eexists. apply draws_map; auto. Qed.
(** The draws are independent with the parameter the code gives them: an element
    is zeroed with probability [p], and keeps its expected value. *)
Theorem dropout_zeroes_with_probability_p_partial : forall sh F p idx, positive sh -> 0 <= p < 1 -> valid sh idx -> F idx <> 0 ->
  expected (dropoutParam p) (numel sh) (fun d => if Req_EM_T (elem (dropoutForward (tensor_of sh F) p true d) idx) 0 then 1 else 0) = p.
Proof. exact forward_zero. Qed.
Theorem dropout_mean_partial : forall sh F p idx, positive sh -> 0 <= p < 1 -> valid sh idx ->
  expected (dropoutParam p) (numel sh) (fun d => elem (dropoutForward (tensor_of sh F) p true d) idx) = F idx.
Proof. exact forward_mean. Qed.
(** [expected] is an expectation: the weights add up to 1 and every sequence of [n] bits
    is counted. *)
Theorem expected_is_probability : forall q n, expected q n (fun _ => 1) = 1 /\ forall d, In d (all_draws n) <-> length d = n.
Proof. intros q n. split; [apply expected_const|]. intro d. split; [apply all_draws_length|apply all_draws_in]. Qed.
(** An input that needs no gradient is left alone; a second backward pass through the
    same call fails, in both modes. *)
Theorem dropout_backward_twice : forall t p training draws out ctx grad g rest, dropoutForward t p training draws = Ok (out, ctx) ->
  dropoutBackward true ctx grad = Ok (g, rest) -> forall grad', dropoutBackward true rest grad' = Fail /\ dropoutBackward false rest grad' = Ok (None, rest).
Proof.
  intros t p training draws out ctx grad g rest E B grad'. split; [|reflexivity].
  unfold dropoutForward in E. destruct training; cbn [negb] in E.
  - destruct (dropoutMasked t _ _); cbn [rbind] in E; try discriminate. injection E as <- <-. cbn in B. destruct (dropoutMasked grad _ _); cbn [rbind] in B; try discriminate. injection B as <- <-. reflexivity.
  - injection E as <- <-. cbn in B. injection B as <- <-. reflexivity.
Qed.
(** The other entry point, [op::dropout], which attention calls with its dropout
    probability, keeps an element with that probability. *)
Theorem dropout_op_refuted : forall sh F p idx, 0 < p < 1 -> valid sh idx -> F idx <> 0 ->
  expected (dropoutOpParam p) (numel sh) (fun d => if Req_EM_T (elem (rbind (dropoutOp (tensor_of sh F) p d) (fun t => Ok (t, tt))) idx) 0 then 1 else 0) = 1 - p.
Proof. exact op_zero. Qed.

Example dropout_case : exists ctx, dropoutForward (mkT [2%nat] [3; 5]) (1 / 4) true [true; false] = Ok (mkT [2%nat] [3 * 1 / (1 - 1 / 4); 5 * 0 / (1 - 1 / 4)], ctx) /\ positive [2%nat] /\ 0 <= 1 / 4 < 1.
Proof. eexists. split; [reflexivity|]. split; [repeat constructor|lra]. Qed.

Print Assumptions dropout_eval.
Print Assumptions dropout_train_partial.
Print Assumptions dropout_gradient_partial.
Print Assumptions dropout_every_mask.
Print Assumptions dropout_zeroes_with_probability_p_partial.
Print Assumptions dropout_mean_partial.
Print Assumptions expected_is_probability.
Print Assumptions dropout_backward_twice.
Print Assumptions dropout_op_refuted.
