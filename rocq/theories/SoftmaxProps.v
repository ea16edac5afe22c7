(** C43: softmax and log-softmax. *)
From Coq Require Import ZArith List Bool Arith Lia Reals Lra.
From Verif Require Import ShapeModel ShapeSpec TensorModel TensorSpec TensorLemmas BcastModel CutSpec ReduceModel ReduceSpec GradSpec LineModel SoftmaxModel SoftmaxSpec SoftmaxProofs SoftmaxProofs2.
Import ListNotations.
Open Scope R_scope.

(** For every shape, every existing dimension, every input and every start value
    of the maximum scan; [M] is any bound from which [exp] overflows. *)
Theorem softmax_value : forall lo M sh F dim k, dim_is (length sh) dim k -> 0 <= M ->
  softmax lo M (tensor_of sh F) dim = Ok (tensor_of sh (fun idx => exp (F idx) / line_sum (fun i => exp (F i)) k (nth k sh 0%nat) idx)).
Proof. exact softmax_ok. Qed.
Theorem softmax_distribution : forall lo M sh F dim k, dim_is (length sh) dim k -> 0 <= M ->
  exists G, softmax lo M (tensor_of sh F) dim = Ok (tensor_of sh G)
  /\ forall idx, valid sh idx -> 0 < G idx /\ line_sum G k (nth k sh 0%nat) idx = 1.
Proof.
  intros lo M sh F dim k Hd HM. eexists. split; [apply softmax_ok; eauto|]. intros idx V. pose proof (proj1 Hd).
  split; [apply softmax_at_pos|apply softmax_at_sum]; auto.
Qed.
Theorem softmax_shift : forall lo lo' M sh F c dim k, dim_is (length sh) dim k -> 0 <= M -> constant_along k c ->
  softmax lo M (tensor_of sh (fun idx => F idx + c idx)) dim = softmax lo' M (tensor_of sh F) dim
  /\ logSoftmax lo M (tensor_of sh (fun idx => F idx + c idx)) dim = logSoftmax lo' M (tensor_of sh F) dim.
Proof.
  intros lo lo' M sh F c dim k Hd HM Hc. rewrite !(softmax_ok _ M sh _ dim k Hd HM), !(logSoftmax_ok _ M sh _ dim k Hd HM).
  split; f_equal; apply tensor_of_ext; intros idx _; rewrite softmax_at_shift; auto.
Qed.
Theorem softmax_order : forall lo M sh F dim k, dim_is (length sh) dim k -> 0 <= M ->
  exists G, softmax lo M (tensor_of sh F) dim = Ok (tensor_of sh G)
  /\ forall idx j, valid sh idx -> let idx' := with_coord true k idx j in G idx < G idx' <-> F idx < F idx'.
Proof.
  intros lo M sh F dim k Hd HM. eexists. split; [apply softmax_ok; eauto|]. intros idx j V. apply softmax_at_order; auto. apply Hd.
Qed.
Theorem logsoftmax_is_log : forall lo M sh F dim k, dim_is (length sh) dim k -> 0 <= M ->
  exists G, softmax lo M (tensor_of sh F) dim = Ok (tensor_of sh G)
  /\ logSoftmax lo M (tensor_of sh F) dim = Ok (tensor_of sh (fun idx => ln (G idx))).
Proof. intros lo M sh F dim k Hd HM. eexists. split; [apply softmax_ok; eauto|apply logSoftmax_ok; auto]. Qed.
Theorem softmax_gradient : forall lo M sh F H dim k, dim_is (length sh) dim k -> 0 <= M ->
  is_gradient (fun t => softmax lo M t dim) sh F (tensor_of sh H) (softmaxGrad lo M (tensor_of sh F) dim (tensor_of sh H)).
Proof. exact softmax_grad. Qed.
Theorem logsoftmax_gradient : forall lo M sh F H dim k, dim_is (length sh) dim k -> 0 <= M ->
  is_gradient (fun t => logSoftmax lo M t dim) sh F (tensor_of sh H) (logSoftmaxGrad lo M (tensor_of sh F) dim (tensor_of sh H)).
Proof. exact logSoftmax_grad. Qed.
(** A dimension that does not exist, or a gradient of another shape, is rejected. *)
Theorem softmax_rejects : forall lo M sh F dim, (forall k, ~ dim_is (length sh) dim k) ->
  softmax lo M (tensor_of sh F) dim = Fail /\ logSoftmax lo M (tensor_of sh F) dim = Fail.
Proof. exact softmax_bad. Qed.
Theorem softmax_backward_rejects : forall M sh1 sh2 Y H dim, (sh1 <> sh2 \/ forall k, ~ dim_is (length sh2) dim k) ->
  softmaxBackward (tensor_of sh1 H) (tensor_of sh2 Y) dim = Fail /\ logSoftmaxBackward M (tensor_of sh1 H) (tensor_of sh2 Y) dim = Fail.
Proof. exact softmaxBack_bad. Qed.
(** The intermediate sum of a line of representable numbers is between 1 and the
    number of elements: it can neither overflow nor underflow. *)
Theorem softmax_sum_range : forall lo M l, 0 <= M -> (forall v, In v l -> lo <= v) -> l <> [] ->
  exists es, expLine M (scanMax lo l) l = Some es /\ (forall e, In e es -> 0 < e <= 1) /\ 1 <= total es <= INR (length l).
Proof. exact expLine_range. Qed.

Example softmax_case : dim_is (length [2; 3; 2]%nat) (-2) 1 /\ valid [2; 3; 2]%nat [1; 2; 0]%nat
  /\ with_coord true 1 [1; 2; 0]%nat 0 = [1; 0; 0]%nat
  /\ constant_along 1 (fun idx => INR (nth 0 idx 0%nat)).
Proof.
  split; [split; [simpl; lia|right; reflexivity]|]. split; [repeat constructor|]. split; [reflexivity|].
  intros [|a idx] j; reflexivity.
Qed.
Example softmax_two : exists y, softmax (-1000) 88 (tensor_of [2]%nat (fun idx => match idx with [O] => 0 | _ => ln 3 end)) 0 = Ok y
  /\ tdata y = [1 / 4; 3 / 4].
Proof.
  eexists. split; [apply (softmax_ok _ _ _ _ _ 0%nat); [split; [simpl; lia|auto]|lra]|]. cbn. unfold softmax_at, line_sum. cbn.
  unfold sum. cbn. rewrite exp_0, exp_ln by lra. f_equal; [|f_equal]; lra.
Qed.
Example softmax_reject_case : forall k, ~ dim_is (length [2; 3]%nat) 2 k.
Proof. intros k [H [E|E]]; simpl in *; lia. Qed.

Print Assumptions softmax_value.
Print Assumptions softmax_distribution.
Print Assumptions softmax_shift.
Print Assumptions softmax_order.
Print Assumptions logsoftmax_is_log.
Print Assumptions softmax_gradient.
Print Assumptions logsoftmax_gradient.
Print Assumptions softmax_rejects.
Print Assumptions softmax_backward_rejects.
Print Assumptions softmax_sum_range.
