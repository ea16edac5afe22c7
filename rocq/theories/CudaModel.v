(* The CUDA element-wise operations: src/Operation/OpElemWiseCuda.cuh,
   src/Tensor/TensorIterator.cuh, and the launch parameters of
   src/Utils/CUDAUtils.{h,cpp}.

   A device tensor is a buffer number and a shape; its elements are in the
   device memory.  A host function is the launch it makes.  Not modelled:
   streams (there is one), element types (one type V of values), the choice
   between the instantiations. *)
From Coq Require Import List Arith ZArith Bool.
From Verif Require Import ShapeModel TensorModel BcastModel GpuModel.
Import ListNotations.

(* CUDAUtils.cpp:172-175, with the default of line 18; every CUDA device allows
   512 threads per block. *)
Definition blockSize : nat := 512.

(* CUDAUtils.cpp:177-179: n and batch become 64-bit unsigned, the result 32-bit
   unsigned. *)
Definition gridSize (block : Z) (n batch : Z) : Z :=
  (((n + block * batch - 1) mod 2 ^ 64) / (block * batch)) mod 2 ^ 32.

(* blockIdx.x * blockDim.x + threadIdx.x: 32-bit unsigned. *)
Definition gidx (bd b t : nat) : Z := ((Z.of_nat b * Z.of_nat bd + Z.of_nat t) mod 2 ^ 32)%Z.

(* Model only: what the one-dimensional kernels share: the launch parameters
   of CUDAUtils.cpp:181-186, the index, and the test index < n. *)
Definition kernel1d {V} (n : Z) (P : Z -> thr V) : launch V :=
  mkLaunch (Z.to_nat (gridSize (Z.of_nat blockSize) n 1)) blockSize (fun _ => false)
    (fun b t => let index := gidx blockSize b t in if (index <? n)%Z then P index else Done).

(* Model only: several loads, then the rest. *)
Fixpoint loads {V} (addrs : list addr) (k : list V -> thr V) : thr V :=
  match addrs with
  | [] => k []
  | a :: r => Ld a (fun v => loads r (fun vs => k (v :: vs)))
  end.

(* OpElemWiseCuda.cuh:299-305 unaryOpKernel, launched by 323-344. *)
Definition unaryCuda {V} (f : V -> V) (self out : nat) (n : Z) : launch V :=
  kernel1d n (fun i => Ld (self, i) (fun v => St (out, i) (f v) Done)).

(* OpElemWiseCuda.cuh:307-313 unaryOpInplaceKernel, launched by 346-354. *)
Definition unaryInplaceCuda {V} (f : V -> V) (self : nat) (n : Z) : launch V :=
  kernel1d n (fun i => Ld (self, i) (fun v => St (self, i) (f v) Done)).

(* OpElemWiseCuda.cuh:315-321 unaryOpBackwardKernel, launched by 356-368. *)
Definition unaryBackwardCuda {V} (f : V -> V -> V) (self grad out : nat) (n : Z) : launch V :=
  kernel1d n (fun i => loads [(self, i); (grad, i)] (fun vs =>
    match vs with [a; g] => St (out, i) (f a g) Done | _ => Trap end)).

(* TensorIterator.cuh:45-56 scalarKernel. *)
Definition scalarKernel {V} (f : list V -> V) (inputs : list nat) (out : nat) : launch V :=
  mkLaunch (Z.to_nat (gridSize (Z.of_nat blockSize) 1 1)) blockSize (fun _ => false)
    (fun b t => if (gidx blockSize b t =? 0)%Z
                then loads (map (fun p => (p, 0%Z)) inputs) (fun vs => St (out, 0%Z) (f vs) Done)
                else Done).

(* TensorIterator.cuh:58-70 sameShapeKernel without scalars. *)
Definition sameShapeKernel {V} (f : list V -> V) (inputs : list nat) (out : nat) (total : Z) : launch V :=
  kernel1d total (fun i => loads (map (fun p => (p, i)) inputs) (fun vs => St (out, i) (f vs) Done)).

(* TensorIterator.cuh:72-84 sameShapeKernel with scalars among the inputs. *)
Definition sameShapeScalarKernel {V} (f : list V -> V) (inputs : list (nat * bool)) (out : nat) (total : Z) : launch V :=
  kernel1d total (fun i => loads (map (fun p => (fst p, if snd p : bool then 0%Z else i)) inputs)
                                 (fun vs => St (out, i) (f vs) Done)).

(* TensorIterator.cuh:91-97, from the last dimension; the list is the shape and
   the pair is (remaining, coord). *)
Definition coords (shape : list nat) (idx : Z) : Z * list Z :=
  fold_right (fun d acc => (fst acc / Z.of_nat d, fst acc mod Z.of_nat d :: snd acc)%Z) (idx, []) shape.

(* TensorIterator.cuh:106-110. *)
Definition offsetAt (coord : list Z) (strides : list nat) : Z :=
  fold_left (fun acc p => acc + fst p * Z.of_nat (snd p))%Z (combine coord strides) 0%Z.

(* TensorIterator.cuh:86-115 broadcastKernel; an input is its buffer, isScalar
   and its aligned strides. *)
Definition broadcastKernel {V} (f : list V -> V) (inputs : list (nat * bool * list nat)) (shape : list nat)
  (out : nat) : launch V :=
  kernel1d (Z.of_nat (numel shape)) (fun i =>
    let coord := snd (coords shape i) in
    loads (map (fun p => (fst (fst p), if snd (fst p) : bool then 0%Z else offsetAt coord (snd p))) inputs)
          (fun vs => St (out, i) (f vs) Done)).

(* A device tensor: Tensor with its buffer; TensorImpl.h:88-95. *)
Record dtensor := mkD { dbuf : nat; dshape : list nat }.

(* Model only: the shape part of a device tensor, for the iterator's setup,
   which the CPU and the CUDA iterators share (TensorIterator.cpp:13-71). *)
Definition bare (d : dtensor) : tensor nat := mkT (dshape d) [].

(* TensorIterator.cuh:124-162 forEach. *)
Definition forEachCuda {V} (f : list V -> V) (ds : list dtensor) (shape : list nat) (out : nat) : launch V :=
  let ts := map bare ds in
  if forallb isScalar ts then scalarKernel f (map dbuf ds) out
  else if sameShape ts then
    if forallb (fun t => negb (isScalar t)) ts then
      sameShapeKernel f (map dbuf ds) out (Z.of_nat (numel shape))
    else sameShapeScalarKernel f (map (fun d => (dbuf d, isScalar (bare d))) ds) out (Z.of_nat (numel shape))
  else broadcastKernel f
         (map (fun d => (dbuf d, isScalar (bare d), alignStrides (length shape) (dshape d))) ds) shape out.

(* OpElemWiseCuda.cuh:370-380, 406-414, 437-460, 475-484, 508-518: the
   out-of-place operations on several operands.  The result is the shape of the
   fresh output and the launch. *)
Definition elementwiseCuda {V} (f : list V -> V) (ds : list dtensor) (out : nat) : res (list nat * launch V) :=
  match broadcastShape (map dshape ds) with
  | None => Fail
  | Some shape => Ok (shape, forEachCuda f ds shape out)
  end.

(* OpElemWiseCuda.cuh:382-392, 416-424, 462-473, 486-495, 520-530: into a
   given tensor; and, with out among the operands, 394-404, 426-435, 497-506,
   532-542 in place. *)
Definition elementwiseOutCuda {V} (f : list V -> V) (ds : list dtensor) (out : dtensor) : res (launch V) :=
  match broadcastShape (map dshape ds) with
  | None => Fail
  | Some shape => if list_eqb shape (dshape out) then Ok (forEachCuda f ds shape (dbuf out)) else Fail
  end.
