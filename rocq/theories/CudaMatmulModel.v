(* Matrix multiplication of CUDA tensors: src/Operation/OpLinalg.cpp with the gemm
   routines of OpLinalgCuda.cuh:142-369, which call cuBLAS.  cuBLAS is not in the
   repository: what its routines do is taken from its manual (cublasGemm below).
   The result is a fresh buffer whose elements start out undefined.  Elements are
   those of a commutative ring (no rounding). *)
From Coq Require Import List Arith ZArith Bool.
From Verif Require Import ShapeModel TensorModel BcastModel BufModel PermModel CutModel LinalgModel.
Import ListNotations.

(* static_cast<int> (and the implicit conversions to int of the arguments of cuBLAS)
   of a size: 32 bits, two's complement. *)
Definition toInt (n : nat) : Z := ((Z.of_nat n + 2 ^ 31) mod 2 ^ 32 - 2 ^ 31)%Z.

(* The cuBLAS manual, cublas<t>gemm: element (i, j) of op(X), where X is stored by
   columns with leading dimension ld and op transposes or not. *)
Definition colMajor (trans : bool) (ld i j : nat) : nat := if trans then j + i * ld else i + j * ld.

(* The cuBLAS manual, cublas<t>gemm, CUBLAS_STATUS_INVALID_VALUE: the sizes and the
   leading dimensions that are accepted. *)
Definition cublasAccepts (transa transb : bool) (m n k lda ldb ldc batchCount : Z) : bool :=
  ((0 <=? m) && (0 <=? n) && (0 <=? k) && (0 <=? batchCount)
   && (Z.max 1 (if transa then k else m) <=? lda) && (Z.max 1 (if transb then n else k) <=? ldb) && (Z.max 1 m <=? ldc))%Z.

(* The cuBLAS manual, cublas<t>gemm, gemmBatched and gemmStridedBatched with
   alpha = 1 and beta = 0: C = op(A) op(B) for every triple of matrices, given by
   their offsets.  A rejected call makes CUBLAS_CHECK abort (CUDAUtils.h:64-72). *)
Definition cublasGemm {K : cring} (transa transb : bool) (m n k : Z) (a : list K) (lda : Z) (b : list K) (ldb : Z) (ldc : Z)
    (batchCount : Z) (offs : list (nat * nat * nat)) (c : list (option K)) : res (list (option K)) :=
  if negb (cublasAccepts transa transb m n k lda ldb ldc batchCount) then Fail else
  match loop (firstn (Z.to_nat batchCount) offs) c (fun c o =>
          loop (list_prod (seq 0 (Z.to_nat n)) (seq 0 (Z.to_nat m))) c (fun c ji =>
            obind (loop (seq 0 (Z.to_nat k)) zero (fun acc p =>
              obind (rd a (fst (fst o) + colMajor transa (Z.to_nat lda) (snd ji) p)) (fun x =>
              obind (rd b (snd (fst o) + colMajor transb (Z.to_nat ldb) p (fst ji))) (fun y =>
              Some (add acc (mul x y)))))) (fun v =>
            put c (snd o + colMajor false (Z.to_nat ldc) (snd ji) (fst ji)) v))) with
  | None => UB
  | Some c => Ok c
  end.

(* OpLinalgCuda.cuh:142-155, 210-226, 292-307 (gemmCudaF32Impl,
   gemmStridedBatchedCudaF32Impl, gemmBatchedCudaF32Impl) and the same for Half and
   BFloat16: operands swapped, since cuBLAS stores matrices by columns. *)
Definition gemmCuda {K : cring} (c : list (option K)) (a b : list K) (m k n : nat) (batchCount : Z) (offs : list (nat * nat * nat)) (transA transB : bool) : res (list (option K)) :=
  let lda := toInt (if transA then m else k) in
  let ldb := toInt (if transB then k else n) in
  let ldc := toInt n in
  cublasGemm transB transA (toInt n) (toInt m) (toInt k) b ldb a lda ldc batchCount (map (fun o => (snd (fst o), fst (fst o), snd o)) offs) c.

(* OpLinalg.cpp:112-129: a dimension of one operand is 1 where that of the other is
   not.  Shapes without their last two dimensions; a missing dimension counts as 1. *)
Definition needsBroadcast (ba bb : list nat) (retBatchDims : nat) : bool :=
  let dim b i := if retBatchDims - length b <=? i then nth (i - (retBatchDims - length b)) b 0 else 1 in
  existsb (fun i => let aDim := dim ba i in let bDim := dim bb i in
    ((aDim =? 1) && (1 <? bDim)) || ((bDim =? 1) && (1 <? aDim))) (seq 0 retBatchDims).

(* OpLinalg.cpp:50-238 matmulOpImplDetail on CUDA. *)
Definition matmulDetailCuda {K : cring} (a b : tensor K) (transA transB : bool) : res (tensor K) :=
  let sa := tshape a in
  let sb := tshape b in
  if (length sa =? 0) || (length sb =? 0) then Fail else
  let prependA := length sa =? 1 in
  let appendB := length sb =? 1 in
  let shapeA := if prependA then 1 :: sa else sa in
  let shapeB := if appendB then sb ++ [1] else sb in
  let transA := if prependA then false else transA in
  let transB := if appendB then false else transB in
  let la := length shapeA in
  let lb := length shapeB in
  let k := nth (la - if transA then 2 else 1) shapeA 0 in
  if negb (k =? nth (lb - if transB then 1 else 2) shapeB 0) then Fail else
  match broadcastBatch shapeA shapeB 2 with
  | None => Fail
  | Some ret =>
    let rdim := length ret in
    let m := nth (la - if transA then 1 else 2) shapeA 0 in
    let n := nth (lb - if transB then 2 else 1) shapeB 0 in
    let bs := firstn (rdim - 2) ret in
    let rsh := bs ++ [m; n] in
    let retTensor := fresh (numel rsh) in
    if 2 <? rdim then
      if m * n =? 0 then UB (* division by zero *) else
      let batchSize := numel rsh / (m * n) in
      if needsBroadcast (firstn (la - 2) shapeA) (firstn (lb - 2) shapeB) (rdim - 2) then
        (* 150-201 *)
        let aStrides := makePaddedStrides (tstrides a) rdim in
        let bStrides := makePaddedStrides (tstrides b) rdim in
        let ptrs := map (fun batch => (batchOffset sa aStrides bs batch, batchOffset sb bStrides bs batch, batch * m * n)) (seq 0 batchSize) in
        rbind (gemmCuda retTensor (tdata a) (tdata b) m k n (toInt batchSize) ptrs transA transB) (fun c =>
        rbind (finish rsh (Some c)) (fun r => Ok (squeezed r prependA appendB m)))
      else
        (* 131-147 *)
        let strided := map (fun batch => (batch * (m * k), batch * (k * n), batch * (m * n))) (seq 0 batchSize) in
        rbind (gemmCuda retTensor (tdata a) (tdata b) m k n (toInt batchSize) strided transA transB) (fun c =>
        rbind (finish rsh (Some c)) (fun r => Ok (squeezed r prependA appendB m)))
    else
      (* 219-224 *)
      rbind (gemmCuda retTensor (tdata a) (tdata b) m k n 1 [(0, 0, 0)] transA transB) (fun c =>
      rbind (finish rsh (Some c)) (fun r => Ok (squeezed (if prependA then viewAs r [n] else r) prependA appendB m)))
  end.
(* OpLinalg.cpp:240-266 matmulOpImpl on CUDA. *)
Definition matmulCuda {K : cring} (a b : tensor K) (transA transB : bool) : res (tensor K) :=
  match tshape a, tshape b with
  | [a0; a1], [b0; b1] =>
    let m := if transA then a1 else a0 in
    let k := if transA then a0 else a1 in
    let n := if transB then b0 else b1 in
    if negb (k =? (if transB then b1 else b0)) then Fail else
    rbind (gemmCuda (fresh (m * n)) (tdata a) (tdata b) m k n 1 [(0, 0, 0)] transA transB) (fun c => finish [m; n] (Some c))
  | _, _ => matmulDetailCuda a b transA transB
  end.
