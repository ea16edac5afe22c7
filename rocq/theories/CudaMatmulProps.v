(** C80: matrix multiplication of CUDA tensors. *)
From Coq Require Import List Arith ZArith Bool Lia.
From Verif Require Import ShapeModel ShapeSpec ShapeProofs TensorModel TensorSpec TensorLemmas BcastModel BcastSpec BufModel PermModel CutModel
  ReduceModel ReduceSpec LinalgModel LinalgSpec LinalgProofs LinalgProofs2 CudaMatmulModel CudaMatmulProofs CudaMatmulProofs2.
Import ListNotations.

(** [at_ trans r c] is the shape of an r x c matrix stored (transposed), and the
    position of element (r, c) in it. *)
Theorem cuda_matmul_2d_partial : forall {K : cring} transA transB m k n (A B : list nat -> K),
  0 < m -> 0 < k -> 0 < n -> (Z.of_nat m < 2 ^ 31)%Z -> (Z.of_nat k < 2 ^ 31)%Z -> (Z.of_nat n < 2 ^ 31)%Z ->
  exists C, matmulCuda (tensor_of (at_ transA m k) A) (tensor_of (at_ transB k n) B) transA transB = Ok (tensor_of [m; n] C)
  /\ forall i j, i < m -> j < n -> C [i; j] = sum (fun p => mul (A (at_ transA i p)) (B (at_ transB p j))) (seq 0 k).
Proof.
  intros K ta tb m k n A B Pm Pk Pn Im Ik In'. eexists. split; [apply flat; unfold sized; auto 8|]. intros i j _ _. reflexivity.
Qed.
(** Batches, broadcast.  More than the CPU gets right: shapes of different lengths
    are accepted as long as nothing has to be repeated. *)
Theorem cuda_matmul_batched_partial : forall {K : cring} ba bb bs transA transB m k n (A B : list nat -> K),
  positive ba -> positive bb -> is_broadcast [ba; bb] bs ->
  length ba = length bb \/ ba = [] \/ bb = [] \/ (numel ba = numel bs /\ numel bb = numel bs) ->
  0 < m -> 0 < k -> 0 < n -> (Z.of_nat m < 2 ^ 31)%Z -> (Z.of_nat k < 2 ^ 31)%Z -> (Z.of_nat n < 2 ^ 31)%Z -> (Z.of_nat (numel bs) < 2 ^ 31)%Z ->
  exists C, matmulCuda (tensor_of (ba ++ at_ transA m k) A) (tensor_of (bb ++ at_ transB k n) B) transA transB = Ok (tensor_of (bs ++ [m; n]) C)
  /\ forall be i j, valid bs be -> i < m -> j < n -> C (be ++ [i; j]) = batch_product ba bb transA transB k A B be i j.
Proof.
  intros K ba bb bs ta tb m k n A B Pa Pb HB HL Pm Pk Pn Im Ik In' Is. eexists. split; [apply batched; auto; unfold sized; auto 8|].
  intros be i j V Hi Hj. unfold mprod. cbv zeta. rewrite <- (valid_length _ _ V). rewrite firstn_app, skipn_app, Nat.sub_diag, firstn_all, skipn_all.
  cbn [firstn skipn app]. rewrite app_nil_r. reflexivity.
Qed.
(** Vectors: inner product, row times matrix, matrix times column. *)
Theorem cuda_matmul_vectors_partial : forall {K : cring} k (A B : list nat -> K) transA transB, 0 < k -> (Z.of_nat k < 2 ^ 31)%Z ->
  matmulCuda (tensor_of [k] A) (tensor_of [k] B) transA transB = Ok (tensor_of [] (fun _ => sum (fun p => mul (A [p]) (B [p])) (seq 0 k))).
Proof. exact @vec_vec. Qed.
Theorem cuda_matmul_row_vector_partial : forall {K : cring} k n (A B : list nat -> K) transA transB,
  0 < k -> 0 < n -> (Z.of_nat k < 2 ^ 31)%Z -> (Z.of_nat n < 2 ^ 31)%Z ->
  matmulCuda (tensor_of [k] A) (tensor_of (at_ transB k n) B) transA transB
  = Ok (tensor_of [n] (fun idx => sum (fun p => mul (A [p]) (B (at_ transB p (nth 0 idx 0)))) (seq 0 k))).
Proof. intros. apply vec_mat. unfold sized. lia. Qed.
Theorem cuda_matmul_column_vector_partial : forall {K : cring} m k (A B : list nat -> K) transA transB,
  0 < m -> 0 < k -> (Z.of_nat m < 2 ^ 31)%Z -> (Z.of_nat k < 2 ^ 31)%Z ->
  matmulCuda (tensor_of (at_ transA m k) A) (tensor_of [k] B) transA transB
  = Ok (tensor_of [m] (fun idx => sum (fun p => mul (A (at_ transA (nth 0 idx 0) p)) (B [p])) (seq 0 k))).
Proof. intros. apply mat_vec. unfold sized. lia. Qed.
(** The device does not matter. *)
Theorem cuda_matmul_as_cpu_partial : forall {K : cring} ba bb bs transA transB m k n (A B : list nat -> K),
  positive ba -> positive bb -> is_broadcast [ba; bb] bs -> length ba = length bb \/ ba = [] \/ bb = [] ->
  0 < m -> 0 < k -> 0 < n -> (Z.of_nat m < 2 ^ 31)%Z -> (Z.of_nat k < 2 ^ 31)%Z -> (Z.of_nat n < 2 ^ 31)%Z -> (Z.of_nat (numel bs) < 2 ^ 31)%Z ->
  let a := tensor_of (ba ++ at_ transA m k) A in let b := tensor_of (bb ++ at_ transB k n) B in
  matmulCuda a b transA transB = matmul a b transA transB.
Proof.
  intros K ba bb bs ta tb m k n A B Pa Pb HB HL Pm Pk Pn Im Ik In' Is a b. unfold a, b. rewrite (batched ba bb bs) by (auto; unfold sized; tauto || auto 8).
  symmetry. apply matmul_correct; auto. right. nia.
Qed.
(** What is rejected. *)
Theorem cuda_matmul_rejects_scalar : forall {K : cring} (a b : tensor K) transA transB,
  tshape a = [] \/ tshape b = [] -> matmulCuda a b transA transB = Fail.
Proof. exact @scalar. Qed.
Theorem cuda_matmul_rejects_inner_size : forall {K : cring} ba bb (a b : tensor K) transA transB m k k' n,
  tshape a = ba ++ at_ transA m k -> tshape b = bb ++ at_ transB k' n -> k <> k' -> matmulCuda a b transA transB = Fail.
Proof. exact @inner_size. Qed.
Theorem cuda_matmul_rejects_batches : forall {K : cring} ba bb (a b : tensor K) transA transB m k k' n, positive ba -> positive bb ->
  tshape a = ba ++ at_ transA m k -> tshape b = bb ++ at_ transB k' n ->
  (~ exists bs, is_broadcast [ba; bb] bs) -> matmulCuda a b transA transB = Fail.
Proof. exact @batches. Qed.

(** An empty sum, or no columns: the CPU answers, cuBLAS rejects the leading
    dimension 0 and the process aborts. *)
Theorem cuda_matmul_empty_refuted : forall {K : cring} m n transB (A B : list nat -> K),
  (matmulCuda (tensor_of [m; 0] A) (tensor_of (at_ transB 0 n) B) false transB = Fail
   /\ matmul (tensor_of [m; 0] A) (tensor_of (at_ transB 0 n) B) false transB = Ok (tensor_of [m; n] (fun _ => zero)))
  /\ forall k transA, matmulCuda (tensor_of (at_ transA m k) A) (tensor_of (at_ transB k 0) B) transA transB = Fail
     /\ matmul (tensor_of (at_ transA m k) A) (tensor_of (at_ transB k 0) B) transA transB = Ok (tensor_of [m; 0] (fun _ => zero)).
Proof.
  intros K m n tb A B. split; [split; [apply no_inner|]|intros k ta; split; [apply no_columns|]].
  - rewrite (matmul_flat false tb m 0 n). unfold tensor_of. do 2 f_equal. apply map_ext_in. intros idx Hi. apply indices_in in Hi.
    inversion Hi as [|? ? ? ? ? Hl]; subst. inversion Hl as [|? ? ? ? ? Hl2]; subst. inversion Hl2. reflexivity.
  - rewrite matmul_flat. unfold tensor_of. do 2 f_equal. apply map_ext_in. intros idx Hi. apply indices_in in Hi.
    inversion Hi as [|? ? ? ? ? Hl]; subst. inversion Hl as [|? ? ? ? Hlt Hl2]; subst. lia.
Qed.
(** Sizes are cut to 32 bits: of an inner size 2^32 + 1 only the first product is
    taken. *)
Theorem cuda_matmul_large_refuted : exists k (A B C : list nat -> Zring), Z.of_nat k = (2 ^ 32 + 1)%Z
  /\ matmulCuda (tensor_of [1; k] A) (tensor_of [k; 1] B) false false = Ok (tensor_of [1; 1] C)
  /\ C [0; 0] <> sum (fun p => mul (A [0; p]) (B [p; 0])) (seq 0 k).
Proof.
  assert (Hk : Z.of_nat (Z.to_nat (2 ^ 32 + 1)) = (2 ^ 32 + 1)%Z) by (apply Z2Nat.id; discriminate).
  exists (Z.to_nat (2 ^ 32 + 1)), (fun _ => 1%Z), (fun _ => 1%Z), (fun _ => 1%Z). split; [exact Hk|]. revert Hk. generalize (Z.to_nat (2 ^ 32 + 1)) as k. intros k Hk. split.
  - apply (wide (K := Zring) k (fun _ => 1%Z) (fun _ => 1%Z) Hk).
  - change (1%Z <> sum (K := Zring) (fun _ => 1%Z) (seq 0 k)). rewrite sum_const, seq_length, Hk. discriminate.
Qed.
(** Batch shapes of different lengths that do repeat: as wrong as on the CPU. *)
Theorem cuda_matmul_batch_rank_refuted : exists (A B C : list nat -> Zring) (be : list nat),
  matmulCuda (tensor_of ([2; 2] ++ [1; 1]) A) (tensor_of ([2] ++ [1; 1]) B) false false = Ok (tensor_of ([2; 2] ++ [1; 1]) C)
  /\ is_broadcast [[2; 2]; [2]] [2; 2] /\ valid [2; 2] be
  /\ C (be ++ [0; 0]) <> batch_product [2; 2] [2] false false 1 A B be 0 0.
Proof.
  exists (fun _ => 1%Z), (fun idx => Z.of_nat (nth 0 idx 0%nat) + 1)%Z, (fun _ => 1%Z), [0; 1].
  split; [reflexivity|]. split; [|split; [repeat constructor|discriminate]].
  split; [reflexivity|]. intros [|[|p]] Hp; cbn in Hp; try lia; unfold from_right; cbn; (split; [intros s [<-|[<-|[]]]; cbn; auto|]); right; exists [2; 2]; cbn; auto.
Qed.

Example cuda_matmul_met :
  matmulCuda (K := Zring) (mkT [2; 2; 1] [1; 2; 3; 4]%Z) (mkT [1; 2; 2] [1; 5; 0; 1]%Z) true true = Ok (mkT [2; 1; 2] [11; 2; 23; 4]%Z)
  /\ matmulCuda (K := Zring) (mkT [2; 2] [1; 2; 3; 4]%Z) (mkT [2; 3] [1; 5; 0; 1; 0; 1]%Z) false false = Ok (mkT [2; 3] [3; 5; 2; 7; 15; 4]%Z)
  /\ positive [1; 2] /\ positive [2] /\ is_broadcast [[1; 2]; [2]] [1; 2] /\ numel [1; 2] = numel [2].
Proof.
  split; [reflexivity|]. split; [reflexivity|]. split; [repeat constructor|]. split; [repeat constructor|]. split; [|reflexivity].
  split; [reflexivity|]. intros [|[|p]] Hp; cbn in Hp; try lia; unfold from_right; cbn; (split; [intros s [<-|[<-|[]]]; cbn; auto|]); auto.
  right. exists [2]. cbn; auto.
Qed.

Print Assumptions cuda_matmul_2d_partial.
Print Assumptions cuda_matmul_batched_partial.
Print Assumptions cuda_matmul_as_cpu_partial.
Print Assumptions cuda_matmul_empty_refuted.
Print Assumptions cuda_matmul_large_refuted.
