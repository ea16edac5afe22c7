(* The fused gate of a feed-forward layer: src/Operation/OpFusedCpu.h and
   OpFusedCuda.cuh.  Elements are real numbers (no rounding, no half precision). *)
From Coq Require Import List Arith ZArith Bool Reals.
From Verif Require Import ShapeModel TensorModel BcastModel BufModel GpuModel CudaModel.
Import ListNotations.

(* OpElemWiseCpu.h:123-128 OpCpuSilu and OpElemWiseCuda.cuh:124-131 OpCudaSilu. *)
Definition silu (a : R) : R := (a / (1 + exp (- a)))%R.

(* OpFusedCpu.h:14-39 siluMulOpCpuImpl.  A scalar has no last dimension: size(-1)
   reads outside the shape (TensorImpl.h:61). *)
Definition siluMul (self : tensor R) : res (tensor R) :=
  match rev (tshape self) with
  | [] => UB
  | lastDim :: pre =>
    if negb (lastDim mod 2 =? 0) then Fail else
    let halfLastDim := lastDim / 2 in
    let retShape := rev (halfLastDim :: pre) in
    if lastDim =? 0 then UB (* division by zero *) else
    let numSlices := numel (tshape self) / lastDim in
    finish retShape (loop (seq 0 numSlices) (fresh (numel retShape)) (fun ret i =>
      let offsetIn := i * lastDim in
      let offsetOut := i * halfLastDim in
      loop (seq 0 halfLastDim) ret (fun ret j =>
        obind (rd (tdata self) (offsetIn + j)) (fun gateVal =>
        obind (rd (tdata self) (offsetIn + j + halfLastDim)) (fun upVal =>
        put ret (offsetOut + j) (silu gateVal * upVal)%R)))))
  end.

(* OpFusedCuda.cuh:15-29 kSiluMul, launched by 45-46. *)
Definition kSiluMul (ret self : nat) (halfLastDim n : Z) : launch R :=
  kernel1d n (fun index =>
    let sliceIdx := (index / halfLastDim)%Z in
    let innerIdx := (index mod halfLastDim)%Z in
    let gateIdx := (sliceIdx * halfLastDim * 2 + innerIdx)%Z in
    let upIdx := (gateIdx + halfLastDim)%Z in
    Ld (self, gateIdx) (fun gateVal => Ld (self, upIdx) (fun upVal => St (ret, index) (silu gateVal * upVal)%R Done))).

(* OpFusedCuda.cuh:31-48 siluMulOpCudaImpl. *)
Definition siluMulCuda (self : dtensor) (out : nat) : res (list nat * launch R) :=
  match rev (dshape self) with
  | [] => UB
  | lastDim :: pre =>
    if negb (lastDim mod 2 =? 0) then Fail else
    let halfLastDim := lastDim / 2 in
    let retShape := rev (halfLastDim :: pre) in
    Ok (retShape, kSiluMul out (dbuf self) (Z.of_nat halfLastDim) (Z.of_nat (numel retShape)))
  end.
