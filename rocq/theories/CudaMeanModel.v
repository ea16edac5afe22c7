(* Means and variances of CUDA tensors: src/Operation/OpReduceCuda.cuh, over the
   real numbers.

   A host function is the tensors it returns and the launches it makes, in order.
   Buffers are passed in: s is the one-element buffer of the scale factor. *)
From Coq Require Import List Arith ZArith Bool Reals.
From Verif Require Import ShapeModel TensorModel BcastModel BufModel ReduceModel GpuModel CudaModel CudaFillModel CudaReduceModel.
Import ListNotations.

(* Tensor::scalar (Tensor.cpp:29-33) and mulInplace with it
   (OpElemWiseCuda.cuh:426-435), as in OpReduceCuda.cuh:735, 749, 784, 827. *)
Definition scaleCuda (t : dtensor) (r : R) (s : nat) : res (list (launch R)) :=
  match elementwiseOutCuda (fun vs => (nth 0 vs 0 * nth 1 vs 0)%R) [t; mkD s []] t with
  | UB => UB | Fail => Fail
  | Ok l => Ok [fillCuda s r 1; l]
  end.

(* Model only: a sum (CudaReduceModel) with what follows it; op has the number
   of elements of the result. *)
Definition afterSum (sum : res (list nat * option (list (launch R)))) (t : dtensor) (out s : nat) (r : nat -> R) : res (dtensor * list (launch R)) :=
  match sum with
  | UB => UB | Fail => Fail
  | Ok (_, None) => Ok (t, [])
  | Ok (rsh, Some ls) =>
    match scaleCuda (mkD out rsh) (r (numel rsh)) s with
    | UB => UB | Fail => Fail
    | Ok l => Ok (mkD out rsh, ls ++ l)
    end
  end.

(* OpReduceCuda.cuh:727-737 reduceOpMeanCudaImpl. *)
Definition meanCuda (t : dtensor) (out tmp s : nat) : res (dtensor * list (launch R)) :=
  match dshape t with
  | [] => Ok (t, [])
  | _ => afterSum (sumAllCuda (K := Rring) t out tmp) t out s (fun _ => 1 / INR (numel (dshape t)))%R
  end.

(* OpReduceCuda.cuh:739-752 reduceOpMeanDimsCudaImpl; 754-757 with dims = {dim}. *)
Definition meanDimsCuda (t : dtensor) (dims : list Z) (keepDims : bool) (out tmp tr s : nat) : res (dtensor * list (launch R)) :=
  match dshape t with
  | [] => Ok (t, [])
  | _ =>
    match dims with
    | [] => Fail
    | _ => afterSum (sumDimsCuda (K := Rring) t dims keepDims out tmp tr) t out s (fun n => INR n / INR (numel (dshape t)))%R
    end
  end.

(* OpReduceCuda.cuh:398-406 kSquaredDiff. *)
Definition kSquaredDiff (output input mean : nat) (n : Z) : launch R :=
  kernel1d n (fun index => Ld (input, index) (fun x => Ld (mean, 0%Z) (fun mu =>
    let diff := (x - mu)%R in St (output, index) (diff * diff)%R Done))).

(* OpReduceCuda.cuh:759-786 reduceOpVarMeanCudaImpl: the variance, the mean.  mo,
   mt and ms are the buffers of the mean, sq the squares, vo, vt and vs those of
   the variance. *)
Definition varMeanCuda (t : dtensor) (unbiased : bool) (mo mt ms sq vo vt vs : nat) : res (dtensor * dtensor * list (launch R)) :=
  match dshape t with
  | [] => Ok (mkD vo [], t, [fillCuda vo 0%R 1])
  | sh =>
    match meanCuda t mo mt ms with
    | UB => UB | Fail => Fail
    | Ok (meanVal, ls) =>
      let n := numel sh in
      match reduceMerge Rplus 0%R indexAll vo sq vt (Z.of_nat n) 1, scaleCuda (mkD vo []) (varFactor (INR n) unbiased) vs with
      | Some l2, Ok l3 => Ok (mkD vo [], meanVal, ls ++ kSquaredDiff sq (dbuf t) (dbuf meanVal) (Z.of_nat n) :: l2 ++ l3)
      | Some _, Fail => Fail
      | _, _ => UB
      end
    end
  end.

(* OpReduceCuda.cuh:90-103 cudaGetReduceDstIndex; the state is (retIdx, stride),
   from the last dimension. *)
Definition dstIndexCuda (sh : list nat) (ax : list bool) (idx : Z) : Z :=
  fst (fold_right (fun (p : nat * nat * bool) (acc : Z * Z) =>
         let '(d, st, reduced) := p in
         if reduced then acc
         else (fst acc + (idx / Z.of_nat st) mod Z.of_nat d * snd acc, snd acc * Z.of_nat d)%Z)
       (0%Z, 1%Z) (combine (combine sh (strides sh)) ax)).

(* OpReduceCuda.cuh:386-393: the loop, n elements from inIdx on. *)
Fixpoint squareLoads (n : nat) (p : nat) (dst : Z -> Z) (outIdx : Z) (mean : R) (inIdx : Z) (sum : R) (k : R -> thr R) : thr R :=
  match n with
  | O => k sum
  | S n =>
    if (dst inIdx =? outIdx)%Z
    then Ld (p, inIdx) (fun x => let diff := (x - mean)%R in squareLoads n p dst outIdx mean (inIdx + 1)%Z (sum + diff * diff)%R k)
    else squareLoads n p dst outIdx mean (inIdx + 1)%Z sum k
  end.

(* OpReduceCuda.cuh:371-396 kReduceMultiDimVar. *)
Definition kReduceMultiDimVar (ret : nat) (t : dtensor) (mean : nat) (ax : list bool) (n : Z) : launch R :=
  kernel1d n (fun outIdx => Ld (mean, outIdx) (fun mu =>
    squareLoads (numel (dshape t)) (dbuf t) (dstIndexCuda (dshape t) ax) outIdx mu 0%Z 0%R (fun sum => St (ret, outIdx) sum Done))).

(* OpReduceCuda.cuh:788-829 reduceOpVarMeanDimsCudaImpl, 831-835 with dims =
   {dim}: the mean always keeps the dimensions. *)
Definition varMeanDimsCuda (t : dtensor) (dims : list Z) (unbiased keepDims : bool) (mo mt mtr ms vo vs : nat) : res (dtensor * dtensor * list (launch R)) :=
  match dshape t with
  | [] => Ok (mkD vo [], t, [fillCuda vo 0%R 1])
  | sh =>
    match dims with
    | [] => Fail
    | _ =>
      match marks (length sh) dims with
      | None => Fail
      | Some ax =>
        match meanDimsCuda t dims true mo mt mtr ms with
        | UB => UB | Fail => Fail
        | Ok (meanVal, ls) =>
          let rsh := getReduceShape sh ax keepDims in
          let n := Z.of_nat (numel rsh) in
          match scaleCuda (mkD vo rsh) (varFactor (INR (numel sh) / INR (numel rsh)) unbiased) vs with
          | UB => UB | Fail => Fail
          | Ok l3 => Ok (mkD vo rsh, meanVal, ls ++ fillCuda vo 0%R n :: kReduceMultiDimVar vo t (dbuf meanVal) ax n :: l3)
          end
        end
      end
    end
  end.
