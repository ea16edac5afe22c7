(** C09, C57: permute, transpose, tril, triu. *)
From Coq Require Import ZArith List Bool Arith Lia Permutation.
From Verif Require Import ShapeModel ShapeSpec ShapeProofs TensorModel TensorSpec TensorLemmas BcastModel BufModel BufProofs PermModel PermSpec PermProofs PermProofs2.
Import ListNotations.

(** C09.  Element [idx] of the source is element [permuted ds idx] of the
    result, whose shape is the permuted shape (every index of the result is such
    a [permuted ds idx], see [permute_onto]). *)
Theorem permute_moves : forall A sh (F : list nat -> A) dims ds, names (length sh) dims ds -> is_perm (length sh) ds ->
  exists G, permute (tensor_of sh F) dims = Ok (tensor_of (permuted ds sh) G)
         /\ forall idx, valid sh idx -> G (permuted ds idx) = F idx.
Proof. exact @permute_exists. Qed.
Theorem permute_onto : forall sh ds ridx, is_perm (length sh) ds -> valid (permuted ds sh) ridx ->
  exists idx, valid sh idx /\ permuted ds idx = ridx.
Proof.
  intros sh ds ridx P V. destruct (inverse_exists _ _ P) as (es & PE & I1 & I2).
  assert (LR : length (permuted ds sh) = length sh) by (unfold permuted; rewrite map_length; apply is_perm_length; auto).
  exists (permuted es ridx). split.
  - pose proof (permuted_valid (length sh) es _ _ PE LR V) as Q. rewrite (permuted_inverse (length sh)) in Q; auto. apply is_perm_length; auto.
  - apply (permuted_inverse (length sh)); auto; [apply is_perm_length; auto|]. rewrite (valid_length _ _ V); auto.
Qed.
(** Permuting with the inverse permutation restores the tensor. *)
Theorem permute_inverse_restores : forall A sh (F : list nat -> A) dims dims' ds es,
  names (length sh) dims ds -> is_perm (length sh) ds -> names (length sh) dims' es -> is_perm (length sh) es ->
  inverse_of (length sh) ds es ->
  exists r, permute (tensor_of sh F) dims = Ok r /\ permute r dims' = Ok (tensor_of sh F).
Proof. exact @permute_back. Qed.
Theorem permute_inverse_exists : forall n ds, is_perm n ds -> exists es, is_perm n es /\ inverse_of n ds es /\ inverse_of n es ds.
Proof. exact inverse_exists. Qed.
(** Without arguments the dimensions are reversed. *)
Theorem permute_all_reverses : forall A sh (F : list nat -> A),
  permuteAll (tensor_of sh F) = Ok (tensor_of (rev sh) (fun idx => F (rev idx))).
Proof. exact @permuteAll_correct. Qed.
(** transpose exchanges two dimensions, on every path of the code. *)
Theorem transpose_swaps : forall A sh (F : list nat -> A) d0 d1 a b,
  names (length sh) [d0; d1] [a; b] ->
  exists G, transpose (tensor_of sh F) d0 d1 = Ok (tensor_of (swapped a b sh) G)
         /\ forall idx, valid sh idx -> G (swapped a b idx) = F idx.
Proof.
  intros A sh F d0 d1 a b H. inversion H as [|? ? ? ? H1 H2]; subst. inversion H2 as [|? ? ? ? H3 H4]; subst.
  apply transpose_correct; apply axis_some; auto.
Qed.
Theorem transpose_rejects : forall A (t : tensor A) d0 d1,
  let out d := (d < - Z.of_nat (length (tshape t)) \/ Z.of_nat (length (tshape t)) <= d)%Z in
  out d0 \/ out d1 -> transpose t d0 d1 = Fail.
Proof. intros A t d0 d1 out H. apply transpose_fails. destruct H; [left|right]; apply axis_none; auto. Qed.
Example permute_ex :
  permute (mkT [2;3] [1;2;3;4;5;6]) [1;0]%Z = Ok (mkT [3;2] [1;4;2;5;3;6])
  /\ names 3 [-1;0;1]%Z [2;0;1] /\ is_perm 3 [2;0;1] /\ inverse_of 3 [2;0;1] [1;2;0]
  /\ permute (mkT [1;2;2] [1;2;3;4]) [-1;0;1]%Z = Ok (mkT [2;1;2] [1;3;2;4])
  /\ transpose (mkT [2;1;2] [1;2;3;4]) 0 (-2)%Z = Ok (mkT [1;2;2] [1;2;3;4])
  /\ transpose (mkT [2;2;2] [1;2;3;4;5;6;7;8]) 0 2 = Ok (mkT [2;2;2] [1;5;3;7;2;6;4;8]).
Proof.
  split; [reflexivity|]. split; [repeat constructor; simpl; lia|]. split.
  - unfold is_perm. simpl. apply (perm_trans (l' := [0;2;1])); [apply perm_swap|]. apply perm_skip, perm_swap.
  - split; [|repeat split]. split; auto. intros [|[|[|i]]] H; auto; lia.
Qed.
(** The gradient.  By adjointness the right gradient of permute at [idx] is the
    incoming gradient at the permuted index ([permuted_back]) ... *)
Theorem permute_gradient_is_permuted_back : forall (K : cring) sh ds (X G Y : list nat -> K), is_perm (length sh) ds ->
  (forall idx, valid sh idx -> Y (permuted ds idx) = X idx) ->
  sum (fun ridx => mul (Y ridx) (G ridx)) (indices (permuted ds sh))
  = sum (fun idx => mul (X idx) (permuted_back ds G idx)) (indices sh).
Proof. exact @permuted_adjoint. Qed.
(** ... and the code delivers it when only size-1 dimensions are moved. *)
Theorem permute_gradient_partial : forall A sh (G : list nat -> A) ds, is_perm (length sh) ds -> moves_only_ones sh ds ->
  permuteBackward sh (tensor_of (permuted ds sh) G) = tensor_of sh (permuted_back ds G).
Proof. exact @permute_backward. Qed.
Example permute_gradient_ex : moves_only_ones [2;1;3] [1;0;2] /\ is_perm 3 [1;0;2]
  /\ permuteBackward [2;1;3] (mkT [1;2;3] [1;2;3;4;5;6]) = mkT [2;1;3] [1;2;3;4;5;6].
Proof. repeat split. apply perm_swap. Qed.
(** Otherwise it is wrong: the gradient of a 2 x 2 transpose comes back
    untransposed. *)
Theorem permute_gradient_refuted : exists sh ds (G : list nat -> nat), is_perm (length sh) ds /\
  permuteBackward sh (tensor_of (permuted ds sh) G) <> tensor_of sh (permuted_back ds G).
Proof.
  exists [2;2], [1;0], (fun idx => 10 * nth 0 idx 0 + nth 1 idx 0). split; [apply perm_swap|]. discriminate.
Qed.

(** C57.  On every matrix of the batch. *)
Theorem tril_keeps : forall A (z : A) bsh r c (F : list nat -> A) diag,
  tril z (tensor_of (bsh ++ [r; c]) F) diag
  = Ok (tensor_of (bsh ++ [r; c]) (fun idx =>
      let i := Z.of_nat (nth (length bsh) idx 0) in let j := Z.of_nat (nth (length bsh + 1) idx 0) in
      if (j <=? i + diag)%Z then F idx else z)).
Proof. intros. rewrite Nat.add_1_r. apply (triangle_correct z true). Qed.
Theorem triu_keeps : forall A (z : A) bsh r c (F : list nat -> A) diag,
  triu z (tensor_of (bsh ++ [r; c]) F) diag
  = Ok (tensor_of (bsh ++ [r; c]) (fun idx =>
      let i := Z.of_nat (nth (length bsh) idx 0) in let j := Z.of_nat (nth (length bsh + 1) idx 0) in
      if (i + diag <=? j)%Z then F idx else z)).
Proof. intros. rewrite Nat.add_1_r. apply (triangle_correct z false). Qed.
Theorem tril_triu_decompose : forall (K : cring) bsh r c (F : list nat -> K) diag,
  exists L U, tril zero (tensor_of (bsh ++ [r; c]) F) diag = Ok (tensor_of (bsh ++ [r; c]) L)
  /\ triu zero (tensor_of (bsh ++ [r; c]) F) (diag + 1) = Ok (tensor_of (bsh ++ [r; c]) U)
  /\ forall idx, add (L idx) (U idx) = F idx.
Proof.
  intros. rewrite tril_keeps, triu_keeps. eexists. eexists. split; [reflexivity|]. split; [reflexivity|].
  intro idx. cbv zeta. destruct (Z.leb_spec (Z.of_nat (nth (length bsh + 1) idx 0)) (Z.of_nat (nth (length bsh) idx 0) + diag)),
    (Z.leb_spec (Z.of_nat (nth (length bsh) idx 0) + (diag + 1)) (Z.of_nat (nth (length bsh + 1) idx 0))); try lia.
  - apply add_0_r. - apply add_0_l.
Qed.
Example tril_ex : tril 0 (mkT [2;2;3] [1;2;3;4;5;6;7;8;9;1;2;3]) 0 = Ok (mkT [2;2;3] [1;0;0;4;5;0;7;0;0;1;2;0])
  /\ triu 0 (mkT [2;3] [1;2;3;4;5;6]) 1 = Ok (mkT [2;3] [0;2;3;0;0;6]).
Proof. split; reflexivity. Qed.

Print Assumptions permute_moves.
Print Assumptions permute_onto.
Print Assumptions permute_inverse_restores.
Print Assumptions permute_inverse_exists.
Print Assumptions permute_all_reverses.
Print Assumptions transpose_swaps.
Print Assumptions transpose_rejects.
Print Assumptions permute_gradient_is_permuted_back.
Print Assumptions permute_gradient_partial.
Print Assumptions permute_gradient_refuted.
Print Assumptions tril_keeps.
Print Assumptions triu_keeps.
Print Assumptions tril_triu_decompose.
