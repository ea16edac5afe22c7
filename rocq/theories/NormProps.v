(** C56: layer norm and RMS norm. *)
From Coq Require Import ZArith List Bool Arith Lia Reals Lra.
From Verif Require Import ShapeModel ShapeSpec TensorModel TensorSpec TensorLemmas BcastModel ReduceModel ReduceSpec NormModel NormSpec NormProofs.
Import ListNotations.
Open Scope R_scope.

(** Input of any shape whose last dimension has [n] > 0 elements, optional weight
    and bias of [n] elements. *)
Theorem layer_norm_value_partial : forall sh F w b eps n, sh <> [] -> last sh 0%nat = n -> n <> 0%nat ->
  layerNorm (tensor_of sh F) [n] (vector_of n w) (vector_of n b) eps
  = Ok (tensor_of sh (fun idx => let j := last idx 0%nat in
      shifted b j (scaled w j ((F idx - row_mean F n idx) / sqrt (row_var F n idx + eps))))).
Proof. exact layerNorm_ok. Qed.
Theorem rms_norm_value_partial : forall sh F w eps n, sh <> [] -> last sh 0%nat = n -> n <> 0%nat ->
  rmsNorm (tensor_of sh F) [n] (vector_of n w) eps
  = Ok (tensor_of sh (fun idx => scaled w (last idx 0%nat) (F idx / sqrt (row_mean_square F n idx + eps)))).
Proof. exact rmsNorm_ok. Qed.
(** Before the affine step every row has mean 0 and variance var / (var + eps). *)
Theorem layer_norm_rows_partial : forall sh F eps n, sh <> [] -> last sh 0%nat = n -> n <> 0%nat -> 0 < eps ->
  exists G, layerNorm (tensor_of sh F) [n] None None eps = Ok (tensor_of sh G)
  /\ forall idx, valid sh idx -> row_mean G n idx = 0 /\ row_var G n idx = row_var F n idx / (row_var F n idx + eps).
Proof.
  intros sh F eps n Hs Hn Hz He. eexists. split; [exact (layerNorm_ok sh F None None eps n Hs Hn Hz)|]. intros idx V. cbv zeta. cbn [scaled shifted].
  pose proof (valid_nonnil sh idx Hs V) as Hi. destruct (normalised_stats F (row_of n idx) eps (row_nonnil n idx Hz) He) as [A B].
  unfold row_mean, row_var.
  assert (E : forall i, In i (row_of n idx) -> (F i - average F (row_of n i)) / sqrt (variance false F (row_of n i) + eps)
     = (F i - average F (row_of n idx)) / sqrt (variance false F (row_of n idx) + eps)) by (intros i H; rewrite (row_in n idx i Hi H); auto).
  split.
  - rewrite (average_ext _ _ _ E). exact A.
  - rewrite variance_average in *. rewrite (average_ext _ _ _ E). rewrite <- B. apply average_ext. intros i H. rewrite (E i H). auto.
Qed.
Theorem rms_norm_rows_partial : forall sh F eps n, sh <> [] -> last sh 0%nat = n -> n <> 0%nat -> 0 < eps ->
  exists G, rmsNorm (tensor_of sh F) [n] None eps = Ok (tensor_of sh G)
  /\ forall idx, valid sh idx -> row_mean_square G n idx = row_mean_square F n idx / (row_mean_square F n idx + eps).
Proof.
  intros sh F eps n Hs Hn Hz He. eexists. split; [exact (rmsNorm_ok sh F None eps n Hs Hn Hz)|]. intros idx V. cbn [scaled].
  pose proof (valid_nonnil sh idx Hs V) as Hi. pose proof (rms_stats F (row_of n idx) eps (row_nonnil n idx Hz) He) as A. cbv zeta in A.
  unfold row_mean_square. unfold row_mean_square in *. rewrite <- A. apply average_ext. intros i H. rewrite (row_in n idx i Hi H). auto.
Qed.
(** A result depends on its own row only. *)
Theorem norm_rows_independent_partial : forall sh F F' w b eps n, sh <> [] -> last sh 0%nat = n -> n <> 0%nat ->
  exists G G' H H', layerNorm (tensor_of sh F) [n] (vector_of n w) (vector_of n b) eps = Ok (tensor_of sh G)
  /\ layerNorm (tensor_of sh F') [n] (vector_of n w) (vector_of n b) eps = Ok (tensor_of sh G')
  /\ rmsNorm (tensor_of sh F) [n] (vector_of n w) eps = Ok (tensor_of sh H)
  /\ rmsNorm (tensor_of sh F') [n] (vector_of n w) eps = Ok (tensor_of sh H')
  /\ forall idx, valid sh idx -> F idx = F' idx -> (forall i, In i (row_of n idx) -> F i = F' i) -> G idx = G' idx /\ H idx = H' idx.
Proof.
  intros sh F F' w b eps n Hs Hn Hz. eexists _, _, _, _. split; [apply layerNorm_ok; auto|]. split; [apply layerNorm_ok; auto|].
  split; [apply rmsNorm_ok; auto|]. split; [apply rmsNorm_ok; auto|].
  intros idx V E0 E. cbv zeta. unfold row_mean, row_var, row_mean_square. rewrite !variance_average. rewrite (average_ext F F' _ E), E0.
  rewrite (average_ext (fun i => (F i - average F' (row_of n idx)) * (F i - average F' (row_of n idx))) (fun i => (F' i - average F' (row_of n idx)) * (F' i - average F' (row_of n idx)))) by (intros i H; rewrite (E i H); auto).
  rewrite (average_ext (fun i => F i * F i) (fun i => F' i * F' i)) by (intros i H; rewrite (E i H); auto). auto.
Qed.
(** A normalised shape other than the last dimension is rejected. *)
Theorem norm_rejects : forall sh F ns w b eps, sh <> [] -> last sh 0%nat <> 0%nat -> ns <> [last sh 0%nat] ->
  layerNorm (tensor_of sh F) ns w b eps = Fail /\ rmsNorm (tensor_of sh F) ns w eps = Fail.
Proof. intros. split; apply normWith_bad; auto. Qed.
(** Not covered above: a weight of the wrong size is read past its end, a scalar
    input and rows without elements are undefined behaviour. *)
Theorem norm_weight_size_refuted : forall eps, exists t w, layerNorm t [2%nat] (Some w) None eps = UB /\ rmsNorm t [2%nat] (Some w) eps = UB.
Proof. intro. exists (mkT [2%nat] [1; 2]), (mkT [1%nat] [1]). split; reflexivity. Qed.
Theorem norm_empty_refuted : forall eps, layerNorm (mkT [3; 0]%nat []) [0%nat] None None eps = UB /\ layerNorm (mkT [] [1]) [1%nat] None None eps = UB.
Proof. intro. split; reflexivity. Qed.

Example norm_case : [2; 2]%nat <> [] /\ last [2; 2]%nat 0%nat = 2%nat /\ row_of 2 [1; 0]%nat = [[1; 0]; [1; 1]]%nat /\
  let F := fun idx => INR (2 * nth 0 idx 0 + nth 1 idx 0)%nat in row_mean F 2 [1; 0]%nat = 5 / 2 /\ row_var F 2 [1; 0]%nat = 1 / 4.
Proof.
  split; [discriminate|]. split; [reflexivity|]. split; [reflexivity|]. unfold row_mean, row_var, variance, average, row_of, sum. cbn. split; lra.
Qed.

Print Assumptions layer_norm_value_partial.
Print Assumptions rms_norm_value_partial.
Print Assumptions layer_norm_rows_partial.
Print Assumptions rms_norm_rows_partial.
Print Assumptions norm_rows_independent_partial.
Print Assumptions norm_rejects.
Print Assumptions norm_weight_size_refuted.
Print Assumptions norm_empty_refuted.
