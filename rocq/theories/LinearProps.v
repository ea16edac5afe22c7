(** C53: the linear layer and its gradients, over every commutative ring. *)
From Coq Require Import ZArith List Bool Arith Lia.
From Verif Require Import ShapeModel ShapeSpec ShapeProofs TensorModel TensorSpec TensorLemmas BcastModel BcastSpec BcastProofs BufModel CutModel CutSpec ReduceModel ReduceSpec ReduceProofs LinalgModel LinalgSpec LinalgProps LinearModel LinearSpec LinearProofs.
Import ListNotations.

(** Every number of leading dimensions (also none); no dimension of size 0 except
    possibly the inner one. *)
Theorem linear_value_partial : forall {K : cring} lead k n (X W b : list nat -> K), positive lead -> n <> 0 ->
  exists Y, linear (tensor_of (lead ++ [k]) X) (tensor_of [n; k] W) (Some (tensor_of [n] b)) = Ok (tensor_of (lead ++ [n]) Y)
  /\ forall r j, valid lead r -> j < n -> Y (r ++ [j]) = affine k X W b r j.
Proof. exact @linear_of. Qed.
Theorem linear_no_bias_partial : forall {K : cring} lead k n (X W : list nat -> K), positive lead -> n <> 0 ->
  exists Y, linear (tensor_of (lead ++ [k]) X) (tensor_of [n; k] W) None = Ok (tensor_of (lead ++ [n]) Y)
  /\ forall r j, valid lead r -> j < n -> Y (r ++ [j]) = affine k X W (fun _ => zero) r j.
Proof. exact @linear_nobias_of. Qed.
Theorem linear_rejects : forall {K : cring} ba m k k' n (x w : tensor K) b, tshape x = ba ++ [m; k] -> tshape w = [n; k'] -> k <> k' ->
  linear x w b = Fail.
Proof. intros K ba m k k' n x w b Hx Hw H. unfold linear. rewrite (matmul_rejects_inner_size ba [] x w false true m k k' n); auto. Qed.
(** The gradient of the input: every number of leading dimensions. *)
Theorem linear_input_gradient_partial : forall {K : cring} lead k n (G W : list nat -> K) b, positive lead -> n <> 0 -> k <> 0 ->
  exists D, linearGradInput (tensor_of (lead ++ [n]) G) (tensor_of [n; k] W) = Ok (tensor_of (lead ++ [k]) D)
  /\ is_adjoint (lead ++ [k]) (lead ++ [n]) (fun x => linear x (tensor_of [n; k] W) (option_map (tensor_of [n]) b)) G D.
Proof.
  intros K lead k n G W b P Hn Hk. destruct (grad_input_of lead k n G W P Hn Hk) as (D & E & H). exists D. split; auto. intros X X' Y Y'. apply H.
Qed.
(** The gradients of weight and bias: matrices. *)
Theorem linear_weight_gradient_partial : forall {K : cring} m k n (G X : list nat -> K) b, n <> 0 -> m <> 0 ->
  exists D, linearGradWeight (tensor_of [m; n] G) (tensor_of [m; k] X) = Ok (tensor_of [n; k] D)
  /\ is_adjoint [n; k] [m; n] (fun w => linear (tensor_of [m; k] X) w (option_map (tensor_of [n]) b)) G D.
Proof.
  intros K m k n G X b Hn Hm. destruct (grad_weight_of m k n G X Hn Hm) as (D & E & H). exists D. split; auto. intros W W' Y Y'. apply H.
Qed.
Theorem linear_bias_gradient_partial : forall {K : cring} m k n (G X W : list nat -> K), n <> 0 -> m <> 0 ->
  exists D, linearGradBias (tensor_of [m; n] G) = Ok (tensor_of [n] D)
  /\ is_adjoint [n] [m; n] (fun b => linear (tensor_of [m; k] X) (tensor_of [n; k] W) (Some b)) G D.
Proof.
  intros K m k n G X W Hn Hm. destruct (grad_bias_of m k n G Hn Hm) as (D & E & H). exists D. split; auto. intros b b' Y Y'. apply H.
Qed.
(** With one more leading dimension the gradients of weight and bias never have the
    shape of weight and bias: they are not summed over the batch. *)
Theorem linear_batched_gradients_refuted : forall {K : cring} B m k n (G X : list nat -> K), B * m * n * k <> 0 ->
  (exists D, linearGradWeight (tensor_of [B; m; n] G) (tensor_of [B; m; k] X) = Ok (tensor_of [B; n; k] D))
  /\ (exists D, linearGradBias (tensor_of [B; m; n] G) = Ok (tensor_of [m; n] D)).
Proof.
  intros K B m k n G X H. split.
  - destruct (matmul_batched_partial [B] [B] [B] true false n m k G X) as (D & E & _).
    + repeat constructor. nia.
    + repeat constructor. nia.
    + split; [reflexivity|]. intros p Hp. split; [intros s [<-|[<-|[]]]; auto|right; exists [B]; cbn; auto].
    + left. auto.
    + right. nia.
    + exists D. exact E.
  - eexists. unfold linearGradBias, sumOnDim. rewrite (sumOnDims_correct [B; m; n] [0%Z] [true; false; false]); [reflexivity|discriminate|discriminate|].
    split; [reflexivity|]. split; [intros d [<-|[]]; exists 0; split; cbn; lia|]. intros [|[|[|[|q]]]]; cbn [nth]; split; try discriminate; auto;
      try (intros _; exists 0%Z; split; [left; auto|split; cbn; lia]); intros (d & [<-|[]] & [H1 H2]); cbn in *; lia.
Qed.
(** A single vector as input: the layer accepts it, the gradient of the weight is
    rejected (or, for a square weight, a scalar), and that of the bias is a scalar. *)
Theorem linear_vector_gradients_refuted : forall {K : cring} k n (G X : list nat -> K), n <> 0 -> k <> 0 ->
  linearGradWeight (tensor_of [n] G) (tensor_of [k] X) = (if n =? k then Ok (tensor_of [] (fun _ => sum (fun p => mul (G [p]) (X [p])) (seq 0 n))) else Fail)
  /\ (exists D, linearGradBias (tensor_of [n] G) = Ok (tensor_of [] D)).
Proof.
  intros K k n G X Hn Hk. split.
  - destruct (Nat.eqb_spec n k) as [<-|H]; [apply matmul_vectors|]. assert (E : (n =? k) = false) by (apply Nat.eqb_neq; auto).
    unfold linearGradWeight, matmul, matmulDetail. change (tshape (tensor_of [n] G)) with [n]. change (tshape (tensor_of [k] X)) with [k].
    cbn -[broadcastBatch gemm Nat.eqb]. change (1 =? 1) with true. cbn -[broadcastBatch gemm Nat.eqb]. rewrite E. reflexivity.
  - eexists. unfold linearGradBias, sumOnDim. rewrite (sumOnDims_correct [n] [0%Z] [true]); [reflexivity|discriminate|discriminate|].
    split; [reflexivity|]. split; [intros d [<-|[]]; exists 0; split; cbn; lia|]. intros [|[|q]]; cbn [nth]; split; try discriminate; auto;
      try (intros _; exists 0%Z; split; [left; auto|split; cbn; lia]); intros (d & [<-|[]] & [H1 H2]); cbn in *; lia.
Qed.

Example linear_case : linear (K := Zring) (mkT [1; 2; 2] [1; 2; 3; 4]%Z) (mkT [3; 2] [1; 0; 0; 1; 1; 1]%Z) (Some (mkT [3] [10; 20; 30]%Z))
    = Ok (mkT [1; 2; 3] [11; 22; 33; 13; 24; 37]%Z)
  /\ linearGradInput (K := Zring) (mkT [1; 2; 3] [1; 1; 1; 0; 0; 1]%Z) (mkT [3; 2] [1; 0; 0; 1; 1; 1]%Z) = Ok (mkT [1; 2; 2] [2; 2; 1; 1]%Z)
  /\ linearGradWeight (K := Zring) (mkT [2; 3] [1; 1; 1; 0; 0; 1]%Z) (mkT [2; 2] [1; 2; 3; 4]%Z) = Ok (mkT [3; 2] [1; 2; 1; 2; 4; 6]%Z)
  /\ linearGradBias (K := Zring) (mkT [2; 3] [1; 1; 1; 0; 0; 1]%Z) = Ok (mkT [3] [1; 1; 2]%Z).
Proof. repeat split. Qed.

Print Assumptions linear_value_partial.
Print Assumptions linear_no_bias_partial.
Print Assumptions linear_rejects.
Print Assumptions linear_input_gradient_partial.
Print Assumptions linear_weight_gradient_partial.
Print Assumptions linear_bias_gradient_partial.
Print Assumptions linear_batched_gradients_refuted.
Print Assumptions linear_vector_gradients_refuted.
