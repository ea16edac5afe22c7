(* Minima and maxima of CUDA tensors: src/Operation/OpReduceCuda.cuh.

   The order is given by its comparison lt; e is defaultVal(), lines 31-33 and
   48-50.  Minima are the maxima of the reversed order.  Words of memory are
   elements or int64 indices (CudaMoveModel); a host function is the shape of
   its result and its launches, as in CudaReduceModel. *)
From Coq Require Import List Arith ZArith Bool.
From Verif Require Import ShapeModel TensorModel BcastModel BufModel ReduceModel GpuModel CudaModel CudaFillModel CudaMoveModel CudaReduceModel.
Import ListNotations.

(* OpReduceCuda.cuh:37-40 OpCudaReduceMax::apply with cuda::max (CUDAMath.h:31-33);
   OpCudaReduceMin::apply (20-23) with cuda::min (CUDAMath.h:26-28) is that of the
   reversed order. *)
Definition maxOf {A} (lt : A -> A -> bool) (a b : A) : A := if lt b a then a else b.

(* Model only: ==, for an order. *)
Definition sameVal {A} (lt : A -> A -> bool) (a b : A) : bool := negb (lt a b) && negb (lt b a).

(* ---- values only ---- *)

(* OpReduceCuda.cuh:638-649 with OpCudaReduceMax and OpCudaReduceMin, as
   registered at OpReduceCuda.cu:23, 28. *)
Definition maxAllCuda {A} (lt : A -> A -> bool) (lowest : A) (t : dtensor) (out tmp : nat) : res (list nat * option (list (launch A))) :=
  reduceAllCuda (maxOf lt) lowest t out tmp.
(* OpReduceCuda.cuh:638-649, OpReduceCuda.cu:23. *)
Definition minAllCuda {A} (lt : A -> A -> bool) (highest : A) (t : dtensor) (out tmp : nat) : res (list nat * option (list (launch A))) :=
  reduceAllCuda (fun a b => if lt a b then a else b) highest t out tmp.

(* ---- with indices, within a warp ---- *)

(* Model only: a load of an element. *)
Definition ldEl {A} (a : addr) (k : A -> thr (word A)) : thr (word A) :=
  Ld a (fun w => match w with El x => k x | Ix _ => Trap end).

(* OpReduceCuda.cuh:149-150: the two shuffles. *)
Definition shflBoth {A} (val : A) (idx : Z) (d : nat) (k : A -> Z -> thr (word A)) : thr (word A) :=
  Shfl (El val) d (fun o => match o with
    | El otherVal => Shfl (Ix idx) d (fun o => match o with Ix otherIdx => k otherVal otherIdx | El _ => Trap end)
    | Ix _ => Trap
    end).

(* OpReduceCuda.cuh:151-154: which of the two a lane keeps. *)
Definition keepOf {A} (lt : A -> A -> bool) (mine other : A * Z) : A * Z :=
  if sameVal lt (maxOf lt (fst other) (fst mine)) (fst other) then other else mine.

(* OpReduceCuda.cuh:147-155, for given offsets. *)
Fixpoint shufflesIdx {A} (lt : A -> A -> bool) (offs : list nat) (mine : A * Z) (k : A * Z -> thr (word A)) : thr (word A) :=
  match offs with
  | [] => k mine
  | d :: r => shflBoth (fst mine) (snd mine) d (fun otherVal otherIdx => shufflesIdx lt r (keepOf lt mine (otherVal, otherIdx)) k)
  end.

(* OpReduceCuda.cuh:145-156 cudaWarpReduceIdx. *)
Definition warpReduceIdx {A} (lt : A -> A -> bool) (mine : A * Z) (k : A * Z -> thr (word A)) : thr (word A) :=
  shufflesIdx lt [16; 8; 4; 2; 1] mine k.

(* ---- with indices, within a block ---- *)

(* OpReduceCuda.cuh:110-115 CudaReduceIndexAll: (inIdx, outIdx). *)
Definition indexAll2 (segLength segCount : Z) (g : nat) (index : Z) : option (Z * Z) :=
  let idx := (if (index <? segLength)%Z then index else -1)%Z in Some (idx, idx).

(* OpReduceCuda.cuh:127-135 CudaReduceIndexLastDim: (inIdx, outIdx). *)
Definition indexLastDim2 (segLength segCount : Z) (g : nat) (index : Z) : option (Z * Z) :=
  if (segCount =? 0)%Z then None else
  let segDim := ((Z.of_nat g * Z.of_nat blockSize) mod 2 ^ 32 / segCount)%Z in
  if (segDim =? 0)%Z then None else
  let segIdx := (index / segDim)%Z in
  let segTid := (index mod segDim)%Z in
  Some ((if (segTid <? segLength)%Z then segTid + segIdx * segLength else -1)%Z, segTid).

(* OpReduceCuda.cuh:202-223: thread t of a block of bd threads, from the load
   of inValues[inIdx] on.  sharedVal is array 0, sharedIdx array 1; inI is
   inIndices, None for nullptr; the results go to outIndices[b] and outValues[b],
   neither of which is nullptr in lines 472-473 and 480-481. *)
Definition mergeIdxThread {A} (lt : A -> A -> bool) (e : A) (bd : nat) (inV : nat) (inI : option nat) (inIdx outIdx : Z) (oV oI : addr) (t : nat) : thr (word A) :=
  let second :=
    let fin r := if (t =? 0)%nat then St oI (Ix (snd r)) (St oV (El (fst r)) Done) else Done in
    if (t <? 32)%nat then
      if (t <? bd / 32)%nat then
        SLd (0%nat, Z.of_nat t) (fun w => match w with
          | El val => SLd (1%nat, Z.of_nat t) (fun w => match w with Ix idx => warpReduceIdx lt (val, idx) fin | El _ => Trap end)
          | Ix _ => Trap
          end)
      else warpReduceIdx lt (e, -1)%Z fin
    else Done in
  let body mine := warpReduceIdx lt mine (fun r =>
    if (t mod 32 =? 0)%nat
    then SSt (0%nat, Z.of_nat (t / 32)) (El (fst r)) (SSt (1%nat, Z.of_nat (t / 32)) (Ix (snd r)) (Sync second))
    else Sync second) in
  if (0 <=? inIdx)%Z
  then ldEl (inV, inIdx) (fun val =>
         match inI with
         | Some p => ldIx (p, inIdx) (fun idx => body (val, idx))
         | None => body (val, outIdx)
         end)
  else body (e, -1)%Z.

(* OpReduceCuda.cuh:188-224 kReduceIdxMerge on g blocks. *)
Definition kReduceIdxMerge {A} (lt : A -> A -> bool) (e : A) (indexer : Z -> Z -> nat -> Z -> option (Z * Z))
  (outV outI inV : nat) (inI : option nat) (segLength segCount : Z) (g : nat) : launch (word A) :=
  mkLaunch g blockSize (shared32 2) (fun b t =>
    match indexer segLength segCount g (gidx blockSize b t) with
    | None => Trap
    | Some (inIdx, outIdx) => mergeIdxThread lt e blockSize inV inI inIdx outIdx (outV, Z.of_nat b) (outI, Z.of_nat b) t
    end).

(* OpReduceCuda.cuh:459-493 ReducerCuda::reduceIdxMerge; values and indices may
   be nullptr. *)
Definition reduceIdxMerge {A} (lt : A -> A -> bool) (e : A) (indexer : Z -> Z -> nat -> Z -> option (Z * Z))
  (values indices : option nat) (inp tmpV tmpI : nat) (n m : Z) : option (list (launch (word A))) :=
  let blocks := gridSize (Z.of_nat blockSize) n 1 in
  let g k := Z.to_nat ((m * k) mod 2 ^ 32) in
  match mergeRounds 8 (fun curr next => kReduceIdxMerge lt e indexer tmpV tmpI tmpV (Some tmpI) curr m (g next)) blocks with
  | None => None
  | Some rounds =>
    Some (kReduceIdxMerge lt e indexer tmpV tmpI inp None n m (g blocks) :: rounds
          ++ (match values with Some v => [copyDevice v tmpV (Z.to_nat m)] | None => [] end)
          ++ (match indices with Some i => [copyDevice i tmpI (Z.to_nat m)] | None => [] end))
  end.

(* OpReduceCuda.cuh:651-662 reduceOpArgMinMaxCudaImpl with OpCudaReduceMax; the
   result is made by Tensor::scalar, filled with 0. *)
Definition argmaxCuda {A} (lt : A -> A -> bool) (lowest : A) (t : dtensor) (out tmpV tmpI : nat) : res (list nat * list (launch (word A))) :=
  match dshape t with
  | [] => Ok ([], [fillCuda out (Ix 0%Z) 1])
  | sh => match reduceIdxMerge lt lowest indexAll2 None (Some out) (dbuf t) tmpV tmpI (Z.of_nat (numel sh)) 1 with
          | None => UB
          | Some ls => Ok ([], fillCuda out (Ix 0%Z) 1 :: ls)
          end
  end.
(* OpReduceCuda.cuh:651-662 with OpCudaReduceMin. *)
Definition argminCuda {A} (lt : A -> A -> bool) (highest : A) (t : dtensor) (out tmpV tmpI : nat) : res (list nat * list (launch (word A))) :=
  argmaxCuda (fun a b => lt b a) highest t out tmpV tmpI.

(* ---- with indices, one thread per result ---- *)

(* OpReduceCuda.cuh:279-286, 308-315: n loads, stride apart, the next one of
   index j. *)
Fixpoint scanIdx {A} (lt : A -> A -> bool) (n : nat) (p : nat) (srcIdx stride : Z) (j : Z) (target : A) (targetIdx : Z) (k : A -> Z -> thr (word A)) : thr (word A) :=
  match n with
  | O => k target targetIdx
  | S n => ldEl (p, srcIdx) (fun val =>
      if sameVal lt (maxOf lt val target) val
      then scanIdx lt n p (srcIdx + stride)%Z stride (j + 1)%Z val j k
      else scanIdx lt n p (srcIdx + stride)%Z stride (j + 1)%Z target targetIdx k)
  end.

(* OpReduceCuda.cuh:269-290 kReduceIdxDimFirstOrLast. *)
Definition kReduceIdxDimFirstOrLast {A} (lt : A -> A -> bool) (e : A) (first : bool) (outV outI inp : nat) (total segLength segCount : Z) : launch (word A) :=
  kernelFor total segCount (fun index =>
    scanIdx lt (Z.to_nat segLength) inp (if first then index else index * segLength)%Z (if first then segCount else 1)%Z 0%Z e 0%Z
      (fun val idx => St (outV, index) (El val) (St (outI, index) (Ix idx) Done))).

(* OpReduceCuda.cuh:292-320 kReduceIdxDim, launched by 625-627. *)
Definition kReduceIdxDim {A} (lt : A -> A -> bool) (e : A) (outV outI : nat) (rsh : list nat) (t : dtensor) (dim : nat) : launch (word A) :=
  let sh := dshape t in
  kernelFor (Z.of_nat (numel sh)) (Z.of_nat (numel rsh)) (fun index =>
    scanIdx lt (nth dim sh 0%nat) (dbuf t) (srcIndexCuda rsh (strides sh) index dim) (Z.of_nat (nth dim (strides sh) 0%nat)) 0%Z e 0%Z
      (fun val idx => St (outV, index) (El val) (St (outI, index) (Ix idx) Done))).

(* OpReduceCuda.cuh:581-636 ReducerCuda::reduceIdxDim, with reduceIdxDimFirst
   (511-521) and reduceIdxDimLast (523-527). *)
Definition reduceIdxDimCuda {A} (lt : A -> A -> bool) (e : A) (t : dtensor) (dim : Z) (keepDims : bool) (outV outI tmpV tmpI tr : nat) : res (list nat * list (launch (word A))) :=
  let sh := dshape t in
  match axis (length sh) dim with
  | None => Fail
  | Some d =>
    let rsh := reduceShape1 sh d false in
    let total := Z.of_nat (numel sh) in
    let n := Z.of_nat (nth d sh 0%nat) in
    let m := Z.of_nat (numel rsh) in
    let simple := (n <? Z.of_nat blockSize)%Z in
    match
      (if (d =? 0)%nat then
         if simple then Some [kReduceIdxDimFirstOrLast lt e true outV outI (dbuf t) total n m]
         else option_map (cons (cudaTranspose2d tr (dbuf t) m n)) (reduceIdxMerge lt e indexLastDim2 (Some outV) (Some outI) tr tmpV tmpI n m)
       else if (d =? length sh - 1)%nat then
         if simple then Some [kReduceIdxDimFirstOrLast lt e false outV outI (dbuf t) total n m]
         else reduceIdxMerge lt e indexLastDim2 (Some outV) (Some outI) (dbuf t) tmpV tmpI n m
       else Some [kReduceIdxDim lt e outV outI rsh t d])
    with
    | None => UB
    | Some ls => Ok (reduceShape1 sh d keepDims, ls)
    end
  end.

(* OpReduceCuda.cuh:664-671 reduceOpMinMaxDimCudaImpl with OpCudaReduceMax: the
   buffer of the values, the shape of values and indices, the launches. *)
Definition maxDimCuda {A} (lt : A -> A -> bool) (lowest : A) (t : dtensor) (dim : Z) (keepDims : bool) (outV outI tmpV tmpI tr : nat) : res (nat * list nat * list (launch (word A))) :=
  match dshape t with
  | [] => Ok (dbuf t, [], [fillCuda outI (Ix 0%Z) 1])
  | _ => match reduceIdxDimCuda lt lowest t dim keepDims outV outI tmpV tmpI tr with
         | UB => UB | Fail => Fail
         | Ok (rsh, ls) => Ok (outV, rsh, ls)
         end
  end.
(* OpReduceCuda.cuh:664-671 with OpCudaReduceMin. *)
Definition minDimCuda {A} (lt : A -> A -> bool) (highest : A) (t : dtensor) (dim : Z) (keepDims : bool) (outV outI tmpV tmpI tr : nat) : res (nat * list nat * list (launch (word A))) :=
  maxDimCuda (fun a b => lt b a) highest t dim keepDims outV outI tmpV tmpI tr.
