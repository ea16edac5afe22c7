(** C17-C20, C60: matrix multiplication, windows, convolution, max pooling. *)
From Coq Require Import ZArith List Bool Arith Lia.
From Verif Require Import ShapeModel ShapeSpec ShapeProofs TensorModel TensorSpec TensorLemmas BcastModel BcastSpec BufModel PermModel CutModel
  ReduceModel ReduceSpec LinalgModel LinalgSpec LinalgProofs LinalgProofs2 LinalgProofs3 LinalgProofs4 LinalgProofs5.
Import ListNotations.

(** * C17 *)
(** [at_ trans r c] is the shape of an r x c matrix stored (transposed). *)
Theorem matmul_2d : forall {K : cring} transA transB m k n (A B : list nat -> K),
  matmul (tensor_of (at_ transA m k) A) (tensor_of (at_ transB k n) B) transA transB
  = Ok (tensor_of [m; n] (on2 zero (product (fun i p => A (at_ transA i p)) (fun p j => B (at_ transB p j)) k))).
Proof. exact @matmul_flat. Qed.
(** Batched operands.  Missing: both operands batched with different numbers of
    batch dimensions, an empty product with a batch, and zero-size batches (see
    the refutations). *)
Theorem matmul_batched_partial : forall {K : cring} ba bb bs transA transB m k n (A B : list nat -> K),
  positive ba -> positive bb -> is_broadcast [ba; bb] bs ->
  length ba = length bb \/ ba = [] \/ bb = [] -> bs = [] \/ m * n <> 0 ->
  exists C, matmul (tensor_of (ba ++ at_ transA m k) A) (tensor_of (bb ++ at_ transB k n) B) transA transB = Ok (tensor_of (bs ++ [m; n]) C)
  /\ forall be i j, valid bs be -> i < m -> j < n -> C (be ++ [i; j]) = batch_product ba bb transA transB k A B be i j.
Proof.
  intros K ba bb bs ta tb m k n A B Pa Pb HB HL Hmn. eexists. split; [apply matmul_correct; auto|].
  intros be i j V Hi Hj. unfold mprod. cbv zeta. rewrite <- (valid_length _ _ V). rewrite firstn_app, skipn_app, Nat.sub_diag, firstn_all, skipn_all.
  cbn [firstn skipn app]. rewrite app_nil_r. reflexivity.
Qed.
(** Vectors: inner product, row times matrix, matrix times column. *)
Theorem matmul_vectors : forall {K : cring} k (A B : list nat -> K) transA transB,
  matmul (tensor_of [k] A) (tensor_of [k] B) transA transB = Ok (tensor_of [] (fun _ => sum (fun p => mul (A [p]) (B [p])) (seq 0 k))).
Proof. exact @matmul_vec_vec. Qed.
Theorem matmul_row_vector : forall {K : cring} k n (A B : list nat -> K) transA transB,
  matmul (tensor_of [k] A) (tensor_of (at_ transB k n) B) transA transB
  = Ok (tensor_of [n] (fun idx => sum (fun p => mul (A [p]) (B (at_ transB p (nth 0 idx 0)))) (seq 0 k))).
Proof. exact @matmul_vec_mat. Qed.
Theorem matmul_column_vector : forall {K : cring} m k (A B : list nat -> K) transA transB,
  matmul (tensor_of (at_ transA m k) A) (tensor_of [k] B) transA transB
  = Ok (tensor_of [m] (fun idx => sum (fun p => mul (A (at_ transA (nth 0 idx 0) p)) (B [p])) (seq 0 k))).
Proof. exact @matmul_mat_vec. Qed.
Theorem dot_is_inner_product : forall {K : cring} sh (A B : list nat -> K),
  dotProduct (tensor_of sh A) (tensor_of sh B) = Ok (tensor_of [] (fun _ => inner sh A B)).
Proof. exact @dot_correct. Qed.
(** What is rejected. *)
Theorem matmul_rejects_scalar : forall {K : cring} (a b : tensor K) transA transB,
  tshape a = [] \/ tshape b = [] -> matmul a b transA transB = Fail.
Proof. exact @matmul_scalar. Qed.
Theorem matmul_rejects_inner_size : forall {K : cring} ba bb (a b : tensor K) transA transB m k k' n,
  tshape a = ba ++ at_ transA m k -> tshape b = bb ++ at_ transB k' n -> k <> k' -> matmul a b transA transB = Fail.
Proof. exact @matmul_inner. Qed.
Theorem matmul_rejects_batches : forall {K : cring} ba bb (a b : tensor K) transA transB m k k' n, positive ba -> positive bb ->
  tshape a = ba ++ at_ transA m k -> tshape b = bb ++ at_ transB k' n ->
  (~ exists bs, is_broadcast [ba; bb] bs) -> matmul a b transA transB = Fail.
Proof. exact @matmul_batch. Qed.

(** Batch ranks 1 and 2: batch [0; 1] of the result is computed from batch 0 of
    the second operand, or (when that operand has a single batch) from
    outside it. *)
Theorem matmul_batch_rank_refuted : exists (A B C : list nat -> Zring) (be : list nat),
  matmul (tensor_of ([1; 2] ++ [1; 1]) A) (tensor_of ([2] ++ [1; 1]) B) false false = Ok (tensor_of ([1; 2] ++ [1; 1]) C)
  /\ is_broadcast [[1; 2]; [2]] [1; 2] /\ valid [1; 2] be
  /\ C (be ++ [0; 0]) <> batch_product [1; 2] [2] false false 1 A B be 0 0.
Proof.
  exists (fun _ => 1%Z), (fun idx => Z.of_nat (nth 0 idx 0%nat) + 1)%Z, (fun _ => 1%Z), [0; 1]. split; [reflexivity|]. split; [|split; [repeat constructor|discriminate]].
  split; [reflexivity|]. intros [|[|p]] Hp; cbn in Hp; try lia; unfold from_right; cbn; (split; [intros s [<-|[<-|[]]]; cbn; auto|]); auto.
  right. exists [2]. cbn; auto.
Qed.
Theorem matmul_batch_rank_reads_outside_refuted : exists (A B : list nat -> Zring),
  is_broadcast [[2; 2]; [1]] [2; 2]
  /\ matmul (tensor_of ([2; 2] ++ [2; 1]) A) (tensor_of ([1] ++ [1; 2]) B) false false <> UB
  /\ matmul (tensor_of ([1] ++ [2; 1]) A) (tensor_of ([2; 2] ++ [1; 2]) B) false false = UB.
Proof.
  exists (fun _ => 1%Z), (fun _ => 1%Z). split; [|split; [discriminate|reflexivity]].
  split; [reflexivity|]. intros [|[|p]] Hp; cbn in Hp; try lia; unfold from_right; cbn; (split; [intros s [<-|[<-|[]]]; cbn; auto|]); right; exists [2; 2]; cbn; auto.
Qed.
(** A vector times a batch of matrices keeps a dimension of size 1 that the
    2-D case drops; a batch times a vector with one batch loses the batch. *)
Theorem matmul_vector_batch_refuted : exists (A B : list nat -> Zring) C,
  matmul (tensor_of [2] A) (tensor_of [3; 2; 2] B) false false = Ok (tensor_of [3; 1; 2] C)
  /\ exists D, matmul (tensor_of [1; 3; 2] A) (tensor_of [2] B) false false = Ok (tensor_of [3] D)
  /\ exists E, matmul (tensor_of [2; 3; 2] A) (tensor_of [2] B) false false = Ok (tensor_of [2; 3; 1] E).
Proof.
  exists (fun _ => 1%Z), (fun _ => 1%Z), (fun _ => 2%Z). split; [reflexivity|]. exists (fun _ => 2%Z). split; [reflexivity|]. exists (fun _ => 2%Z). reflexivity.
Qed.
(** An empty product with a batch dimension divides by zero. *)
Theorem matmul_empty_batch_refuted : matmul (K := Zring) (mkT [2; 0; 3] []) (mkT [3; 4] (repeat 1%Z 12)) false false = UB.
Proof. reflexivity. Qed.

Example ex_matmul : matmul (K := Zring) (mkT [2; 2; 1] [1; 2; 3; 4]%Z) (mkT [1; 2; 2] [1; 5; 0; 1]%Z) true true = Ok (mkT [2; 1; 2] [11; 2; 23; 4]%Z)
  /\ matmul (K := Zring) (mkT [2; 2; 1] [1; 2; 3; 4]%Z) (mkT [2; 2] [1; 5; 0; 1]%Z) true true = Ok (mkT [2; 1; 2] [11; 2; 23; 4]%Z).
Proof. repeat split. Qed.
Example ex_matmul_hyps : positive [2; 1] /\ positive [1; 3] /\ is_broadcast [[2; 1]; [1; 3]] [2; 3].
Proof.
  split; [repeat constructor|]. split; [repeat constructor|]. split; [reflexivity|].
  intros [|[|p]] Hp; cbn in Hp; try lia; unfold from_right; cbn; (split; [intros s [<-|[<-|[]]]; cbn; auto|]); right; [exists [1; 3]|exists [2; 1]]; cbn; auto.
Qed.

(** * C18 *)
(** Row (b, y, x), column (c, i, j) of the matrix is the element (i, j) of the
    window at (y, x) of channel c of image b. *)
Theorem im2col_windows : forall {K : cring} n c h w kernel stride padding (X : list nat -> K), windows h w kernel stride padding ->
  let oh := positions h (dh kernel) (dh stride) (dh padding) in
  let ow := positions w (dw kernel) (dw stride) (dw padding) in
  exists M, im2col (tensor_of [n; c; h; w] X) kernel stride padding = Ok (tensor_of [n * (oh * ow); c * dh kernel * dw kernel] M)
  /\ forall b ch y x i j, b < n -> ch < c -> y < oh -> x < ow -> i < dh kernel -> j < dw kernel ->
       M [(b * oh + y) * ow + x; (ch * dh kernel + i) * dw kernel + j]
       = pixel h w X b ch (place (dh stride) (dh padding) y i) (place (dw stride) (dw padding) x j).
Proof.
  intros K n c h w kernel stride padding X HW oh ow. eexists. split; [apply im2col_exact; auto|].
  intros b ch y x i j Hb Hc Hy Hx Hi Hj. cbv beta.
  change [(b * oh + y) * ow + x; (ch * dh kernel + i) * dw kernel + j] with (target h w kernel stride padding [b; ch; y; x; i; j]).
  rewrite untarget_target by (repeat constructor; auto). apply source_pixel.
Qed.
(** Every pixel receives the sum of the entries that were read from it. *)
Theorem col2im_collects : forall {K : cring} n c h w kernel stride padding (Y : list nat -> K), windows h w kernel stride padding ->
  let oh := positions h (dh kernel) (dh stride) (dh padding) in
  let ow := positions w (dw kernel) (dw stride) (dw padding) in
  exists D, col2im (tensor_of [n * (oh * ow); c * dh kernel * dw kernel] Y) [n; c; h; w] kernel stride padding = Ok (tensor_of [n; c; h; w] D)
  /\ forall b ch y x, valid [n; c; h; w] [b; ch; y; x] ->
       D [b; ch; y; x] = sum (fun q => match q with
         | [oy; ox; i; j] => if ((place (dh stride) (dh padding) oy i =? Z.of_nat y) && (place (dw stride) (dw padding) ox j =? Z.of_nat x))%Z
                             then Y [(b * oh + oy) * ow + ox; (ch * dh kernel + i) * dw kernel + j] else zero
         | _ => zero end) (indices [oh; ow; dh kernel; dw kernel]).
Proof.
  intros K n c h w kernel stride padding Y HW oh ow. eexists. split; [apply col2im_exact; auto|].
  intros b ch y x V. apply gathered_4; auto.
Qed.
Theorem col2im_adjoint : forall {K : cring} n c h w kernel stride padding (X Y : list nat -> K), windows h w kernel stride padding ->
  let oh := positions h (dh kernel) (dh stride) (dh padding) in
  let ow := positions w (dw kernel) (dw stride) (dw padding) in
  let mat := [n * (oh * ow); c * dh kernel * dw kernel] in
  exists M D, im2col (tensor_of [n; c; h; w] X) kernel stride padding = Ok (tensor_of mat M)
  /\ col2im (tensor_of mat Y) [n; c; h; w] kernel stride padding = Ok (tensor_of [n; c; h; w] D)
  /\ inner mat M Y = inner [n; c; h; w] X D.
Proof.
  intros K n c h w kernel stride padding X Y HW oh ow mat. eexists. eexists. split; [apply im2col_exact; auto|]. split; [apply col2im_exact; auto|].
  apply adjoint; auto.
Qed.
(** A [C, H, W] image is a batch of one; other ranks are rejected. *)
Theorem im2col_single_image : forall {K : cring} c h w kernel stride padding (X : list nat -> K),
  im2col (tensor_of [c; h; w] X) kernel stride padding = im2col (tensor_of [1; c; h; w] (fun idx => X (tl idx))) kernel stride padding.
Proof.
  intros K c h w kernel stride padding X. unfold im2col. change (tshape (tensor_of ?s ?F)) with s. rewrite geometry_3.
  replace (tdata (tensor_of [1; c; h; w] (fun idx => X (tl idx)))) with (tdata (tensor_of [c; h; w] X)); auto.
  cbn [tensor_of tdata]. change (indices [1; c; h; w]) with (map (cons 0) (indices [c; h; w]) ++ []). rewrite app_nil_r, map_map. reflexivity.
Qed.
Theorem im2col_rejects_rank : forall {K : cring} (t : tensor K) kernel stride padding,
  length (tshape t) <> 3 -> length (tshape t) <> 4 -> im2col t kernel stride padding = Fail.
Proof.
  intros K t kernel stride padding H3 H4. unfold im2col, geometry. destruct (tshape t) as [|a [|b [|c [|d [|e s]]]]]; auto; cbn in *; lia.
Qed.
(** A kernel larger than the padded image is not rejected when it is too large
    by less than the stride: the division truncates towards zero, and one window
    is produced. *)
Theorem im2col_kernel_too_large_refuted : exists (X : list nat -> Zring) M, ~ windows 2 2 (D2 3 3) (D2 2 2) (D2 0 0)
  /\ im2col (tensor_of [1; 1; 2; 2] X) (D2 3 3) (D2 2 2) (D2 0 0) = Ok (tensor_of [1; 9] M).
Proof.
  exists (fun _ => 1%Z), (fun idx => match idx with [_; 0] | [_; 1] | [_; 3] | [_; 4] => 1%Z | _ => 0%Z end). split; [|reflexivity].
  intros [[_ H] _]. cbn in H. lia.
Qed.
Example ex_im2col : windows 2 3 (D2 2 2) (D2 1 2) (D2 1 0)
  /\ im2col (K := Zring) (mkT [1; 1; 2; 3] [1; 2; 3; 4; 5; 6]%Z) (D2 2 2) (D2 1 2) (D2 1 0) = Ok (mkT [3; 4] [0; 0; 1; 2; 1; 2; 4; 5; 4; 5; 0; 0]%Z)
  /\ col2im (K := Zring) (mkT [3; 4] [1; 1; 1; 1; 1; 1; 1; 1; 1; 1; 1; 1]%Z) [1; 1; 2; 3] (D2 2 2) (D2 1 2) (D2 1 0) = Ok (mkT [1; 1; 2; 3] [2; 2; 0; 2; 2; 0]%Z).
Proof. split; [repeat split; cbn; lia|]. split; reflexivity. Qed.

(** * C19 *)
(** What conv2d computes, for every batch and channel count: the right values,
    stored with the channel last although the shape says it is second. *)
Theorem conv2d_channels_last : forall {K : cring} n c h w oc kh kw stride padding (X W : list nat -> K) (B : option (list nat -> K)),
  windows h w (D2 kh kw) stride padding -> oc <> 0 ->
  let oh := positions h kh (dh stride) (dh padding) in
  let ow := positions w kw (dw stride) (dw padding) in
  B = None \/ n * (oh * ow) <> 0 ->
  conv2d (tensor_of [n; c; h; w] X) (tensor_of [oc; c; kh; kw] W) (option_map (tensor_of [oc]) B) stride padding
  = Ok (channels_last n oc oh ow (fun b y x o =>
      add (correlation c h w kh kw stride padding X W b o y x) (match B with None => zero | Some B => B [o] end))).
Proof. intros K n c h w oc kh kw stride padding X W B HW Hoc oh ow HB. apply conv_nhwc; auto. Qed.
(** Hence the documented result for one output channel or one position. *)
Theorem conv2d_nchw_partial : forall {K : cring} n c h w oc kh kw stride padding (X W : list nat -> K) (B : option (list nat -> K)),
  windows h w (D2 kh kw) stride padding -> oc <> 0 ->
  let oh := positions h kh (dh stride) (dh padding) in
  let ow := positions w kw (dw stride) (dw padding) in
  B = None \/ n * (oh * ow) <> 0 -> oc = 1 \/ oh * ow = 1 ->
  conv2d (tensor_of [n; c; h; w] X) (tensor_of [oc; c; kh; kw] W) (option_map (tensor_of [oc]) B) stride padding
  = Ok (tensor_of [n; oc; oh; ow] (on4 zero (fun b o y x =>
      add (correlation c h w kh kw stride padding X W b o y x) (match B with None => zero | Some B => B [o] end)))).
Proof.
  intros K n c h w oc kh kw stride padding X W B HW Hoc oh ow HB H1. rewrite conv2d_channels_last by auto. fold oh ow. rewrite one_layout by auto. reflexivity.
Qed.
(** Two output channels, two positions: element [0; 0; 0; 1] is not the
    correlation of channel 0 at position (0, 1). *)
Theorem conv2d_nchw_refuted : exists (X W Y : list nat -> Zring),
  windows 1 2 (D2 1 1) (D2 1 1) (D2 0 0)
  /\ conv2d (tensor_of [1; 1; 1; 2] X) (tensor_of [2; 1; 1; 1] W) None (D2 1 1) (D2 0 0) = Ok (tensor_of [1; 2; 1; 2] Y)
  /\ Y [0; 0; 0; 1] <> correlation 1 1 2 1 1 (D2 1 1) (D2 0 0) X W 0 0 0 1.
Proof.
  exists (fun idx => Z.of_nat (nth 3 idx 0%nat) + 1)%Z, (fun idx => if (nth 0 idx 0 =? 0)%nat then 1 else 10)%Z,
    (fun idx => match idx with [_; 0; _; 0] => 1%Z | [_; 0; _; 1] => 10%Z | [_; 1; _; 0] => 2%Z | _ => 20%Z end).
  split; [repeat split; cbn; lia|]. split; [reflexivity|discriminate].
Qed.
Theorem conv2d_rejects : forall {K : cring} (x wt : tensor K) b stride padding,
  (length (tshape x) <> 4 \/ length (tshape wt) <> 4 \/ nth 1 (tshape x) 0 <> nth 1 (tshape wt) 0) -> conv2d x wt b stride padding = Fail.
Proof.
  intros K x wt b stride padding H. unfold conv2d.
  destruct (tshape x) as [|x0 [|x1 [|x2 [|x3 [|x4 sx]]]]]; auto. destruct (tshape wt) as [|w0 [|w1 [|w2 [|w3 [|w4 sw]]]]]; auto.
  cbn [length nth] in H. rewrite (proj2 (Nat.eqb_neq x1 w1)) by lia. auto.
Qed.
Example ex_conv2d : conv2d (K := Zring) (mkT [1; 2; 2; 2] [1; 2; 3; 4; 5; 6; 7; 8]%Z) (mkT [1; 2; 2; 1] [1; 0; 0; 1]%Z) (Some (mkT [1] [100]%Z)) (D2 1 1) (D2 0 0)
  = Ok (mkT [1; 1; 1; 2] [108; 110]%Z).
Proof. reflexivity. Qed.

(** * C60 *)
(** The gradients are the adjoints of the maps x -> conv2d(x, w),
    w -> conv2d(x, w) and of adding the bias, as conv2d computes them. *)
Theorem conv2d_backward_adjoint : forall {K : cring} n c h w oc kh kw stride padding (X W G : list nat -> K),
  windows h w (D2 kh kw) stride padding -> oc <> 0 ->
  let out := [n; oc; positions h kh (dh stride) (dh padding); positions w kw (dw stride) (dw padding)] in
  let conv X W B := conv2d (tensor_of [n; c; h; w] X) (tensor_of [oc; c; kh; kw] W) B stride padding in
  exists dX dW dB : list nat -> K,
  conv2dBackward (tensor_of [n; c; h; w] X) (tensor_of [oc; c; kh; kw] W) (tensor_of out G) stride padding
  = Ok (tensor_of [n; c; h; w] dX, tensor_of [oc; c; kh; kw] dW, tensor_of [oc] dB)
  /\ (forall X', exists Y : list nat -> K, conv X' W None = Ok (tensor_of out Y) /\ inner out Y G = inner [n; c; h; w] X' dX)
  /\ (forall W', exists Y : list nat -> K, conv X W' None = Ok (tensor_of out Y) /\ inner out Y G = inner [oc; c; kh; kw] W' dW)
  /\ (numel out <> 0 -> forall B, exists Y Y0 : list nat -> K, conv X W (Some (tensor_of [oc] B)) = Ok (tensor_of out Y)
        /\ conv X W None = Ok (tensor_of out Y0) /\ inner out Y G = add (inner out Y0 G) (inner [oc] B dB)).
Proof.
  intros K n c h w oc kh kw stride padding X W G HW Hoc out conv. destruct (conv_backward n c h w oc kh kw stride padding HW Hoc X W G) as (dX & dW & dB & H1 & H2 & H3 & H4).
  exists dX, dW, dB. split; auto. split; auto. split; auto. intros Hn. apply H4. unfold out in Hn. rewrite !numel_cons, numel_nil in Hn. nia.
Qed.
Example ex_conv2d_backward : conv2dBackward (K := Zring) (mkT [1; 1; 2; 2] [1; 2; 3; 4]%Z) (mkT [1; 1; 1; 2] [1; -1]%Z) (mkT [1; 1; 2; 1] [1; 2]%Z) (D2 1 1) (D2 0 0)
  = Ok (mkT [1; 1; 2; 2] [1; -1; 2; -2]%Z, mkT [1; 1; 1; 2] [7; 10]%Z, mkT [1] [3]%Z).
Proof. reflexivity. Qed.

(** * C20 *)
(** [lt] is the order of the element type, [lo] the value the scan starts from;
    it must not exceed 0 (the padding) or any element. *)
Theorem max_pool_channels_last : forall {K : cring} n c h w kernel stride padding (lt : K -> K -> bool) lo X,
  windows h w kernel stride padding -> dh kernel * dw kernel <> 0 ->
  total_order lt -> lt zero lo = false -> (forall idx, valid [n; c; h; w] idx -> lt (X idx) lo = false) ->
  let oh := positions h (dh kernel) (dh stride) (dh padding) in
  let ow := positions w (dw kernel) (dw stride) (dw padding) in
  exists V I, maxPool lt lo (tensor_of [n; c; h; w] X) kernel stride padding
    = Ok (channels_last n c oh ow V, mkT [n * (oh * ow) * c] (tdata (tensor_of [n; oh; ow; c] (on4 0 I))))
  /\ forall b y x ch, b < n -> y < oh -> x < ow -> ch < c -> first_max lt (window h w kernel stride padding X b ch y x) (V b y x ch) (I b y x ch).
Proof. intros K n c h w kernel stride padding lt lo X HW Hk O Hz HX oh ow. apply pool_forward; auto. Qed.
Theorem max_pool_nchw_partial : forall {K : cring} n c h w kernel stride padding (lt : K -> K -> bool) lo X,
  windows h w kernel stride padding -> dh kernel * dw kernel <> 0 ->
  total_order lt -> lt zero lo = false -> (forall idx, valid [n; c; h; w] idx -> lt (X idx) lo = false) ->
  let oh := positions h (dh kernel) (dh stride) (dh padding) in
  let ow := positions w (dw kernel) (dw stride) (dw padding) in
  c = 1 \/ oh * ow = 1 ->
  exists V I, option_map fst (match maxPool lt lo (tensor_of [n; c; h; w] X) kernel stride padding with Ok p => Some p | _ => None end)
    = Some (tensor_of [n; c; oh; ow] (on4 zero V))
  /\ forall b ch y x, b < n -> ch < c -> y < oh -> x < ow -> first_max lt (window h w kernel stride padding X b ch y x) (V b ch y x) (I b ch y x).
Proof.
  intros K n c h w kernel stride padding lt lo X HW Hk O Hz HX oh ow H1.
  destruct (pool_forward n c h w kernel stride padding HW Hk lt lo X O Hz HX) as (V & I & E & M).
  exists (fun b ch y x => V b y x ch), (fun b ch y x => I b y x ch). split; [|intros; apply M; auto].
  rewrite E. cbn [option_map fst]. fold oh ow. rewrite one_layout by auto. reflexivity.
Qed.
(** Two channels, two positions: element [0; 0; 0; 1] is the maximum of a window
    of the other channel. *)
Theorem max_pool_nchw_refuted : exists (X V : list nat -> Zring) I,
  windows 1 2 (D2 1 1) (D2 1 1) (D2 0 0)
  /\ maxPool (K := Zring) Z.ltb (-100)%Z (tensor_of [1; 2; 1; 2] X) (D2 1 1) (D2 1 1) (D2 0 0) = Ok (tensor_of [1; 2; 1; 2] V, I)
  /\ ~ In (V [0; 0; 0; 1]) (window 1 2 (D2 1 1) (D2 1 1) (D2 0 0) X 0 0 0 1).
Proof.
  exists (fun idx => match idx with [_; 0; _; 0] => 1%Z | [_; 0; _; 1] => 2%Z | [_; 1; _; 0] => 3%Z | _ => 4%Z end),
    (fun idx => match idx with [_; 0; _; 0] => 1%Z | [_; 0; _; 1] => 3%Z | [_; 1; _; 0] => 2%Z | _ => 4%Z end), (mkT [4] [0; 0; 0; 0]).
  split; [repeat split; cbn; lia|]. split; [reflexivity|]. intros [H|[]]. discriminate.
Qed.
(** The backward pass sends each output gradient to the pixel that was chosen:
    it is the adjoint of reading the chosen pixels, in the same layout. *)
Theorem max_pool_backward_routes : forall {K : cring} n c h w kernel stride padding (I : nat -> nat -> nat -> nat -> nat) (G : list nat -> K),
  windows h w kernel stride padding -> dh kernel * dw kernel <> 0 ->
  let oh := positions h (dh kernel) (dh stride) (dh padding) in
  let ow := positions w (dw kernel) (dw stride) (dw padding) in
  (forall b y x ch, b < n -> y < oh -> x < ow -> ch < c -> I b y x ch < dh kernel * dw kernel) ->
  exists dX, maxPoolBackward [n; c; h; w] (mkT [n * (oh * ow) * c] (tdata (tensor_of [n; oh; ow; c] (on4 0 I)))) (tensor_of [n; c; oh; ow] G) kernel stride padding
    = Ok (tensor_of [n; c; h; w] dX)
  /\ forall X S, tensor_of [n; c; oh; ow] S = channels_last n c oh ow (fun b y x ch =>
         pixel h w X b ch (place (dh stride) (dh padding) y (I b y x ch / dw kernel)) (place (dw stride) (dw padding) x (I b y x ch mod dw kernel))) ->
       inner [n; c; oh; ow] S G = inner [n; c; h; w] X dX.
Proof. intros K n c h w kernel stride padding I G HW Hk oh ow HI. apply pool_backward; auto. Qed.
Example ex_max_pool : maxPool (K := Zring) Z.ltb (-100)%Z (mkT [1; 1; 2; 4] [1; 5; -2; -7; 3; 2; -1; -3]%Z) (D2 2 2) (D2 2 2) (D2 0 0)
  = Ok (mkT [1; 1; 1; 2] [5; -1]%Z, mkT [2] [1; 2])
  /\ maxPoolBackward (K := Zring) [1; 1; 2; 4] (mkT [2] [1; 2]) (mkT [1; 1; 1; 2] [10; 20]%Z) (D2 2 2) (D2 2 2) (D2 0 0) = Ok (mkT [1; 1; 2; 4] [0; 10; 0; 0; 0; 0; 20; 0]%Z).
Proof. split; reflexivity. Qed.

Print Assumptions matmul_batched_partial.
Print Assumptions col2im_adjoint.
Print Assumptions conv2d_backward_adjoint.
Print Assumptions max_pool_channels_last.
Print Assumptions max_pool_backward_routes.
