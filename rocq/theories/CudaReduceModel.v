(* The CUDA reductions: src/Operation/OpReduceCuda.cuh.

   A host function is the shape of its result and the launches it makes, in
   order; no launch means that the result is the operand itself.  Buffers are
   passed in: out for the result, tmp for the partial results, tr for the
   transposed copy.  One element type (no half precision, so that ComputeT is
   T and lines 455 and 487 change nothing). *)
From Coq Require Import List Arith ZArith Bool.
From Verif Require Import ShapeModel TensorModel BcastModel BufModel ReduceModel GpuModel CudaModel CudaFillModel CudaMoveModel.
Import ListNotations.

(* ---- within a warp ---- *)

(* OpReduceCuda.cuh:140-142, for given offsets. *)
Fixpoint shuffles {V} (op : V -> V -> V) (offs : list nat) (val : V) (k : V -> thr V) : thr V :=
  match offs with
  | [] => k val
  | d :: r => Shfl val d (fun o => shuffles op r (op val o) k)
  end.

(* OpReduceCuda.cuh:137-143 cudaWarpReduce. *)
Definition warpReduce {V} (op : V -> V -> V) (val : V) (k : V -> thr V) : thr V :=
  shuffles op [16; 8; 4; 2; 1] val k.

(* ---- within a block ---- *)

(* OpReduceCuda.cuh:110-115 CudaReduceIndexAll: inIdx; the last argument is
   gridDim.x.  None is a division by zero. *)
Definition indexAll (segLength segCount : Z) (g : nat) (index : Z) : option Z :=
  Some (if (index <? segLength)%Z then index else -1)%Z.

(* OpReduceCuda.cuh:127-135 CudaReduceIndexLastDim: inIdx. *)
Definition indexLastDim (segLength segCount : Z) (g : nat) (index : Z) : option Z :=
  if (segCount =? 0)%Z then None else
  let segDim := ((Z.of_nat g * Z.of_nat blockSize) mod 2 ^ 32 / segCount)%Z in
  if (segDim =? 0)%Z then None else
  let segIdx := (index / segDim)%Z in
  let segTid := (index mod segDim)%Z in
  Some (if (segTid <? segLength)%Z then segTid + segIdx * segLength else -1)%Z.

(* OpReduceCuda.cuh:168-186: thread t of a block of bd threads, from the load
   of inValues[inIdx] on; the block's result goes to outValues[b]. *)
Definition mergeThread {V} (op : V -> V -> V) (e : V) (bd : nat) (inp : nat) (inIdx : Z) (o : addr) (t : nat) : thr V :=
  let second :=
    let fin val := if (t =? 0)%nat then St o val Done else Done in
    if (t <? 32)%nat then
      if (t <? bd / 32)%nat then SLd (0%nat, Z.of_nat t) (fun val => warpReduce op val fin)
      else warpReduce op e fin
    else Done in
  let body val := warpReduce op val (fun val =>
    if (t mod 32 =? 0)%nat then SSt (0%nat, Z.of_nat (t / 32)) val (Sync second) else Sync second) in
  if (0 <=? inIdx)%Z then Ld (inp, inIdx) body else body e.

(* Model only: __shared__ ComputeT shared[CUDA_WARP_SIZE], lines 163, 193-194:
   the arrays of 32 elements numbered below q. *)
Definition shared32 (q : nat) (a : addr) : bool := ((fst a <? q)%nat && (0 <=? snd a) && (snd a <? 32))%Z.

(* OpReduceCuda.cuh:158-186 kReduceMerge on g blocks. *)
Definition kReduceMerge {V} (op : V -> V -> V) (e : V) (indexer : Z -> Z -> nat -> Z -> option Z)
  (out inp : nat) (segLength segCount : Z) (g : nat) : launch V :=
  mkLaunch g blockSize (shared32 1) (fun b t =>
    match indexer segLength segCount g (gidx blockSize b t) with
    | None => Trap
    | Some inIdx => mergeThread op e blockSize inp inIdx (out, Z.of_nat b) t
    end).

(* OpReduceCuda.cuh:448-454, 479-485: the launches of the merge loop.  Every
   round leaves a 512th of the blocks, so that 8 rounds are more than enough;
   None is one round more. *)
Fixpoint mergeRounds {V} (fuel : nat) (round : Z -> Z -> launch V) (blocks : Z) : option (list (launch V)) :=
  if (1 <? blocks)%Z then
    match fuel with
    | O => None
    | S fuel =>
      let next := gridSize (Z.of_nat blockSize) blocks 1 in
      match mergeRounds fuel round next with
      | None => None
      | Some ls => Some (round blocks next :: ls)
      end
    end
  else Some [].

(* Storage::copyOnDevice (Storage.cpp:34-77) of n elements, as a launch of one
   thread. *)
Definition copyDevice {V} (dst src : nat) (n : nat) : launch V :=
  mkLaunch 1 1 (fun _ => false) (fun _ _ => copyLoop n (src, 0%Z) (dst, 0%Z)).

(* OpReduceCuda.cuh:433-457 ReducerCuda::reduceMerge; the grid m * blocks
   becomes 32-bit unsigned. *)
Definition reduceMerge {V} (op : V -> V -> V) (e : V) (indexer : Z -> Z -> nat -> Z -> option Z)
  (values inp tmp : nat) (n m : Z) : option (list (launch V)) :=
  let blocks := gridSize (Z.of_nat blockSize) n 1 in
  let g k := Z.to_nat ((m * k) mod 2 ^ 32) in
  match mergeRounds 8 (fun curr next => kReduceMerge op e indexer tmp tmp curr m (g next)) blocks with
  | None => None
  | Some rounds => Some (kReduceMerge op e indexer tmp inp n m (g blocks) :: rounds ++ [copyDevice values tmp (Z.to_nat m)])
  end.

(* OpReduceCuda.cuh:495-504 ReducerCuda::reduceDimFirst. *)
Definition reduceDimFirst {V} (op : V -> V -> V) (e : V) (values inp tmp tr : nat) (n m : Z) : option (list (launch V)) :=
  match reduceMerge op e indexLastDim values tr tmp n m with
  | None => None
  | Some ls => Some (cudaTranspose2d tr inp m n :: ls)
  end.

(* OpReduceCuda.cuh:506-509 ReducerCuda::reduceDimLast. *)
Definition reduceDimLast {V} (op : V -> V -> V) (e : V) (values inp tmp : nat) (n m : Z) : option (list (launch V)) :=
  reduceMerge op e indexLastDim values inp tmp n m.

(* ---- one thread per result ---- *)

(* Model only: a kernel launched with the parameters for total elements
   (CUDAUtils.cpp:181-186) that works on n. *)
Definition kernelFor {V} (total n : Z) (P : Z -> thr V) : launch V :=
  mkLaunch (Z.to_nat (gridSize (Z.of_nat blockSize) total 1)) blockSize (fun _ => false)
    (fun b t => let index := gidx blockSize b t in if (index <? n)%Z then P index else Done).

(* OpReduceCuda.cuh:235-239, 260-264: n loads, stride apart. *)
Fixpoint scanLoads {V} (op : V -> V -> V) (n : nat) (p : nat) (srcIdx stride : Z) (target : V) (k : V -> thr V) : thr V :=
  match n with
  | O => k target
  | S n => Ld (p, srcIdx) (fun val => scanLoads op n p (srcIdx + stride)%Z stride (op val target) k)
  end.

(* OpReduceCuda.cuh:226-242 kReduceDimFirstOrLast. *)
Definition kReduceDimFirstOrLast {V} (op : V -> V -> V) (e : V) (first : bool) (out inp : nat) (total segLength segCount : Z) : launch V :=
  kernelFor total segCount (fun index =>
    scanLoads op (Z.to_nat segLength) inp (if first then index else index * segLength)%Z (if first then segCount else 1)%Z e
      (fun val => St (out, index) val Done)).

(* OpReduceCuda.cuh:64-75 cudaGetReduceSrcIndex; the state is (outIndex,
   inIndex), from the last dimension. *)
Definition srcIndexCuda (rsh sstr : list nat) (idx : Z) (dim : nat) : Z :=
  snd (fold_right (fun p acc =>
         (fst acc / Z.of_nat (fst p),
          snd acc + fst acc mod Z.of_nat (fst p) * Z.of_nat (nth (if snd p <? dim then snd p else S (snd p))%nat sstr 0%nat))%Z)
       (idx, 0%Z) (combine rsh (seq 0 (length rsh)))).

(* OpReduceCuda.cuh:244-267 kReduceDim, launched by 570-571. *)
Definition kReduceDim {V} (op : V -> V -> V) (e : V) (out : nat) (rsh : list nat) (t : dtensor) (dim : nat) : launch V :=
  let sh := dshape t in
  kernelFor (Z.of_nat (numel sh)) (Z.of_nat (numel rsh)) (fun index =>
    scanLoads op (nth dim sh 0%nat) (dbuf t) (srcIndexCuda rsh (strides sh) index dim) (Z.of_nat (nth dim (strides sh) 0%nat)) e
      (fun val => St (out, index) val Done)).

(* ---- sums ---- *)

(* OpReduceCuda.cuh:529-579 ReducerCuda::reduceDim, whose only use is with
   OpCudaReduceSum (line 682); the reshape of line 576 makes a view. *)
Definition reduceDimCuda {K : cring} (t : dtensor) (dim : Z) (keepDims : bool) (out tmp tr : nat) : res (list nat * list (launch K)) :=
  let sh := dshape t in
  match axis (length sh) dim with
  | None => Fail
  | Some d =>
    let rsh := reduceShape1 sh d false in
    let total := Z.of_nat (numel sh) in
    let n := Z.of_nat (nth d sh 0%nat) in
    let m := Z.of_nat (numel rsh) in
    let simple := (n <? Z.of_nat blockSize)%Z in
    match
      (if (d =? 0)%nat then
         if simple then Some [kReduceDimFirstOrLast add zero true out (dbuf t) total n m]
         else reduceDimFirst add zero out (dbuf t) tmp tr n m
       else if (d =? length sh - 1)%nat then
         if simple then Some [kReduceDimFirstOrLast add zero false out (dbuf t) total n m]
         else reduceDimLast add zero out (dbuf t) tmp n m
       else Some [kReduceDim add zero out rsh t d])
    with
    | None => UB
    | Some ls => Ok (reduceShape1 sh d keepDims, ls)
    end
  end.

(* OpReduceCuda.cuh:638-649 reduceOpAllCudaImpl. *)
Definition reduceAllCuda {V} (op : V -> V -> V) (e : V) (t : dtensor) (out tmp : nat) : res (list nat * option (list (launch V))) :=
  match dshape t with
  | [] => Ok ([], None)
  | sh => match reduceMerge op e indexAll out (dbuf t) tmp (Z.of_nat (numel sh)) 1 with
          | None => UB
          | Some ls => Ok ([], Some ls)
          end
  end.

(* OpReduceCuda.cuh:722-725 reduceOpSumCudaImpl. *)
Definition sumAllCuda {K : cring} (t : dtensor) (out tmp : nat) : res (list nat * option (list (launch K))) :=
  reduceAllCuda add zero t out tmp.

(* ---- sums over several dimensions ---- *)

(* OpReduceCuda.cuh:338-353: the offset of the r-th element of the group of
   result outIdx; the state is (tmpOut, tmpR, inIndex), from the last
   dimension. *)
Definition multiIndex (sh : list nat) (ax : list bool) (outIdx r : Z) : Z :=
  snd (fold_right (fun (p : nat * nat * bool) (acc : Z * Z * Z) =>
         let '(d, st, reduced) := p in let '(o, q, i) := acc in
         if reduced then (o, q / Z.of_nat d, i + q mod Z.of_nat d * Z.of_nat st)%Z
         else (o / Z.of_nat d, q, i + o mod Z.of_nat d * Z.of_nat st)%Z)
       (outIdx, r, 0%Z) (combine (combine sh (strides sh)) ax)).

(* OpReduceCuda.cuh:336, 355: it steps of the loop of thread t from r on. *)
Fixpoint sumLoads {K : cring} (it : nat) (p : nat) (idx : Z -> Z) (r : Z) (localSum : K) (k : K -> thr K) : thr K :=
  match it with
  | O => k localSum
  | S it => Ld (p, idx r) (fun x => sumLoads it p idx (r + Z.of_nat blockSize)%Z (add localSum x) k)
  end.

(* OpReduceCuda.cuh:361-366, for given s. *)
Fixpoint halve {K : cring} (ss : list nat) (t : nat) (k : thr K) : thr K :=
  match ss with
  | [] => k
  | s :: r =>
    let next := Sync (halve r t k) in
    if (t <? s)%nat
    then SLd (0%nat, Z.of_nat t) (fun a => SLd (0%nat, Z.of_nat (t + s)) (fun b => SSt (0%nat, Z.of_nat t) (add a b) next))
    else next
  end.

(* Model only: __shared__ ComputeT sdata[BLOCK_SIZE], line 326. *)
Definition sharedBlock (a : addr) : bool := ((fst a =? 0)%nat && (0 <=? snd a) && (snd a <? Z.of_nat blockSize))%Z.

(* OpReduceCuda.cuh:322-369 kReduceMultiDimSum on g blocks. *)
Definition kReduceMultiDimSum {K : cring} (out : nat) (t : dtensor) (ax : list bool) (reduceCnt n : Z) (g : nat) : launch K :=
  mkLaunch g blockSize sharedBlock (fun b th =>
    if (Z.of_nat b >=? n)%Z then Done
    else sumLoads (Z.to_nat ((reduceCnt - Z.of_nat th + 511) / 512)) (dbuf t) (multiIndex (dshape t) ax (Z.of_nat b)) (Z.of_nat th) zero
           (fun localSum => SSt (0%nat, Z.of_nat th) localSum (Sync
             (halve [256; 128; 64; 32; 16; 8; 4; 2; 1]%nat th
               (if (th =? 0)%nat then SLd (0%nat, 0%Z) (fun v => St (out, Z.of_nat b) v Done) else Done))))).

(* OpReduceCuda.cuh:673-715 reduceOpSumDimsCudaImpl, reduceOpSumDimCudaImpl
   (717-720) with dims = {dim}; None: the result is the operand.  The result is
   a tensor of zeros, line 702. *)
Definition sumDimsCuda {K : cring} (t : dtensor) (dims : list Z) (keepDims : bool) (out tmp tr : nat) : res (list nat * option (list (launch K))) :=
  let sh := dshape t in
  match sh with
  | [] => Ok ([], None)
  | _ =>
    match dims with
    | [] => Fail
    | [dim] => match reduceDimCuda t dim keepDims out tmp tr with
               | UB => UB | Fail => Fail
               | Ok (rsh, ls) => Ok (rsh, Some ls)
               end
    | _ =>
      match marks (length sh) dims with
      | None => Fail
      | Some ax =>
        let reduceCnt := fold_left (fun c d => c * Z.of_nat (nth (Z.to_nat (if d <? 0 then d + Z.of_nat (length sh) else d)) sh 0%nat))%Z dims 1%Z in
        let rsh := getReduceShape sh ax keepDims in
        Ok (rsh, Some [fillCuda out zero (Z.of_nat (numel rsh));
                       kReduceMultiDimSum out t ax reduceCnt (Z.of_nat (numel sh)) (Z.to_nat (Z.of_nat (numel sh) mod 2 ^ 32))])
      end
    end
  end.
