(* The CUDA fills: src/Operation/OpFillingCuda.cuh, the dropout kernel of
   src/Operation/OpNNLayerCuda.cuh and the CUDA random generator of
   src/Utils/RandomGenerator.h.

   A host function is the launch it makes.  The curand library is a parameter:
   a function of the seed, the sequence number, the offset and the component
   (x, y, z, w are 0 to 3).  Conversions between element types are parameters. *)
From Coq Require Import List Arith ZArith Bool.
From Verif Require Import ShapeModel TensorModel BcastModel GpuModel CudaModel.
Import ListNotations.

(* OpFillingCuda.cuh:17-27, 32-43, 71-82, 94-105, 115-126, OpNNLayerCuda.cuh:239-248:
   up to four puts; index is 32-bit unsigned. *)
Definition each4 {V} (index n : Z) (put : Z -> Z -> thr V -> thr V) : thr V :=
  (let at_ k := (index + k) mod 2 ^ 32 in
  if at_ 3 <? n then put 0 (at_ 0) (put 1 (at_ 1) (put 2 (at_ 2) (put 3 (at_ 3) Done)))
  else
    let s2 := if at_ 2 <? n then put 2 (at_ 2) Done else Done in
    let s1 := if at_ 1 <? n then put 1 (at_ 1) s2 else s2 in
    if at_ 0 <? n then put 0 (at_ 0) s1 else s1)%Z.

(* Model only: the launch of CUDAUtils.cpp:181-186 with a batch of 4, as in
   OpFillingCuda.cuh:137, 161, 211, 223, 235 and OpNNLayerCuda.cuh:551, and the
   index of the kernels' first lines. *)
Definition kernel4 {V} (n : Z) (P : Z -> thr V) : launch V :=
  mkLaunch (Z.to_nat (gridSize (Z.of_nat blockSize) n 4)) blockSize (fun _ => false)
    (fun b t => P ((gidx blockSize b t * 4) mod 2 ^ 32)%Z).

(* OpFillingCuda.cuh:15-28 kFill, 157-163 fillOpCudaImpl. *)
Definition fillCuda {V} (self : nat) (val : V) (n : Z) : launch V :=
  kernel4 n (fun index => each4 index n (fun _ i r => St (self, i) val r)).

(* OpFillingCuda.cuh:130-143 fillOpOffsetCudaImpl, the value on the host. *)
Definition fillOffsetHostCuda {V} (self : nat) (val : V) (offset count : Z) : launch V :=
  kernel4 count (fun index => each4 index count (fun _ i r => St (self, offset + i)%Z val r)).

(* OpFillingCuda.cuh:130-143 fillOpOffsetCudaImpl with kFill 30-44, the value in
   device memory. *)
Definition fillOffsetCuda {V} (self val : nat) (offset count : Z) : launch V :=
  kernel4 count (fun index => Ld (val, 0%Z) (fun v =>
    each4 index count (fun _ i r => St (self, offset + i)%Z v r))).

(* OpFillingCuda.cuh:46-53 kFillMasked, 145-155: truth is the conversion of a
   word of the mask to bool. *)
Definition fillMaskedDetail {V} (truth : V -> bool) (out self mask : nat) (val : V) (n : Z) : launch V :=
  kernel1d n (fun i => Ld (mask, i) (fun c =>
    if truth c then St (out, i) val Done else Ld (self, i) (fun v => St (out, i) v Done))).

(* OpFillingCuda.cuh:165-172 fillOpMaskedCudaImpl; 182-188 in place, with out
   the buffer of self. *)
Definition fillMaskedCuda {V} (truth : V -> bool) (self mask : dtensor) (val : V) (out : nat) : res (list nat * launch V) :=
  if list_eqb (dshape mask) (dshape self)
  then Ok (dshape self, fillMaskedDetail truth out (dbuf self) (dbuf mask) val (Z.of_nat (numel (dshape self))))
  else Fail.

(* OpFillingCuda.cuh:174-180 fillOpMaskedOutCudaImpl: out's shape is not looked at. *)
Definition fillMaskedOutCuda {V} (truth : V -> bool) (out self mask : dtensor) (val : V) : res (launch V) :=
  if list_eqb (dshape self) (dshape mask)
  then Ok (fillMaskedDetail truth (dbuf out) (dbuf self) (dbuf mask) val (Z.of_nat (numel (dshape self))))
  else Fail.

(* OpFillingCuda.cuh:55-61 kFillLinSpace, 190-201. *)
Definition fillLinSpaceCuda {V} (add mul : V -> V -> V) (cast : Z -> V) (self : dtensor) (start step : V) (steps : Z) : res (launch V) :=
  let n := Z.of_nat (numel (dshape self)) in
  if (n =? steps)%Z
  then Ok (kernel1d n (fun i => St (dbuf self, i) (add start (mul (cast i) step)) Done))
  else Fail.

(* ---- random fills ---- *)

(* RandomGenerator.h:32-41 RandomGeneratorCUDA. *)
Record cudaGen := mkCG { gseed : Z; gseq : Z }.

(* RandomGenerator.h:34. *)
Definition cudaSetSeed (s : Z) (g : cudaGen) : cudaGen := mkCG s (gseq g).

(* RandomGenerator.h:36: unsigned long. *)
Definition nextSequence (g : cudaGen) : Z * cudaGen := (gseq g, mkCG (gseed g) ((gseq g + 1) mod 2 ^ 64)%Z).

(* OpFillingCuda.cuh:63-128 kFillRandUniform, kFillRandNormal, kFillRandBernoulli:
   conv turns a drawn number into an element. *)
Definition kFillRand {F V} (draw : Z -> Z -> Z -> Z -> F) (conv : F -> V) (self : nat) (seed seq n : Z) : launch V :=
  kernel4 n (fun index =>
    if index <? n
    then each4 index n (fun k i r => St (self, i) (conv (draw seed seq index k)) r)
    else Done)%Z.

(* OpFillingCuda.cuh:203-237: seed, then the next sequence number, then the
   launch.  For uniform conv r is r * (max - min) + min, for normal
   r * stddev + mean, for bernoulli 1 if r < p and else 0. *)
Definition fillRandCuda {F V} (draw : Z -> Z -> Z -> Z -> F) (conv : F -> V) (self : nat) (n : Z) (g : cudaGen) : launch V * cudaGen :=
  let '(seq, g') := nextSequence g in (kFillRand draw conv self (gseed g) seq n, g').

(* OpNNLayerCuda.cuh:229-251 kDropout: kept is rand < p, div is x / p. *)
Definition kDropout {F V} (draw : Z -> Z -> Z -> Z -> F) (kept : F -> bool) (div : V -> V) (zero_ : V)
  (out self : nat) (seed seq n : Z) : launch V :=
  kernel4 n (fun index =>
    if index <? n
    then each4 index n (fun k i r =>
           if kept (draw seed seq index k) then Ld (self, i) (fun v => St (out, i) (div v) r)
           else St (out, i) zero_ r)
    else Done)%Z.

(* OpNNLayerCuda.cuh:540-554 dropoutOpCudaImpl. *)
Definition dropoutCuda {F V} (draw : Z -> Z -> Z -> Z -> F) (kept : F -> bool) (div : V -> V) (zero_ : V)
  (self : dtensor) (out : nat) (g : cudaGen) : list nat * launch V * cudaGen :=
  let '(seq, g') := nextSequence g in
  (dshape self, kDropout draw kept div zero_ out (dbuf self) (gseed g) seq (Z.of_nat (numel (dshape self))), g').

(* OpNNLayerCuda.cuh:556-568 dropoutMaskedOpCudaImpl: scale a b is a * b / p. *)
Definition dropoutMaskedCuda {V} (scale : V -> V -> V) (zero_ : V) (self mask : dtensor) (out : nat) : res (list nat * launch V) :=
  elementwiseCuda (fun vs => match vs with [a; b] => scale a b | _ => zero_ end) [self; mask] out.
