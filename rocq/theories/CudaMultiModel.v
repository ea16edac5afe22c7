(* Drawing categories from weights in device memory: src/Operation/OpSamplingCuda.cu:21-113
   and 197-255.

   The weights are the values after static_cast<float>, as in MultiModel; floats are
   Flocq's IEEE binary32 with rounding to nearest even, infinities and NaN included.
   The result is a buffer of int64 words (CudaMoveModel).  The curand library is a
   parameter draw: a function of the seed, the subsequence, the offset and the number of
   values that were drawn before with the same state.  Thrust is not in the repository:
   its inclusive_scan is a parameter scan, because the order of its additions is not
   fixed.  A host function is the shape of its result, its launches and the generator
   after it, as in CudaFillModel. *)
From Coq Require Import List Arith ZArith Bool.
From Flocq Require Import IEEE754.BinarySingleNaN IEEE754.Binary IEEE754.Bits.
From Verif Require Import ShapeModel TensorModel BcastModel BufModel MultiModel GpuModel CudaModel CudaFillModel CudaMoveModel CudaExtremeModel CudaLineModel.
Import ListNotations.

(* operator>= of floats.  Model only: as in OpSamplingCuda.cu:101. *)
Definition fge (a b : f32) : bool := match b32_compare a b with Some Gt | Some Eq => true | _ => false end.

(* OpSamplingCuda.cu:21-34 kPrepareProbabilities on batch blocks; line 24 is never true. *)
Definition kPrepareProbabilities (prob floatProb n batch : nat) : launch (word f32) :=
  mkLaunch batch blockSize (fun _ => false) (fun b t =>
    each (strided n t blockSize n) (fun i _ k =>
      ldEl (prob, Z.of_nat (b * n + i)) (fun x => St (floatProb, Z.of_nat (b * n + i)) (El x) (k tt))) tt (fun _ => Done)).

(* OpSamplingCuda.cu:54-61: the loop, at most fuel times; a loop that goes on after
   that is Trap. *)
Fixpoint search (fuel : nat) (cdf base left right : nat) (r : f32) (k : nat -> thr (word f32)) : thr (word f32) :=
  if left <? right then
    match fuel with
    | O => Trap
    | S fuel =>
      let mid := left + (right - left) / 2 in
      ldEl (cdf, Z.of_nat (base + mid)) (fun c =>
        if flt c r then search fuel cdf base (mid + 1) right r k else search fuel cdf base left mid r k)
    end
  else k left.

(* OpSamplingCuda.cu:36-66 kMultinomialWithReplacement, launched by 243-245. *)
Definition kMultinomialWithReplacement (draw : Z -> Z -> Z -> nat -> f32) (cdf output : nat) (batch n numSamples : nat) (seed seq_ : Z) : launch (word f32) :=
  kernel1d (Z.of_nat (batch * numSamples)) (fun idx =>
    let batchIdx := Z.to_nat idx / numSamples in
    ldEl (cdf, Z.of_nat (batchIdx * n + (n - 1))) (fun total =>
      if flt f0 total then
        let r := b32_mult mode_NE (draw seed idx seq_ 0) total in
        search n cdf (batchIdx * n) 0 (n - 1) r (fun left => St (output, idx) (Ix (Z.of_nat left)) Done)
      else St (output, idx) (Ix 0%Z) Done)).

(* OpSamplingCuda.cu:90-92. *)
Definition totalOf (workspace base n : nat) (k : f32 -> thr (word f32)) : thr (word f32) :=
  each (seq 0 n) (fun i total k => ldEl (workspace, Z.of_nat (base + i)) (fun x => k (b32_plus mode_NE total x))) f0 k.

(* OpSamplingCuda.cu:97-105, from index i with rest indices to go; the index selected. *)
Fixpoint findFirst (rest : nat) (workspace base i : nat) (r cumSum : f32) (k : nat -> thr (word f32)) : thr (word f32) :=
  match rest with
  | O => k 0
  | S rest => ldEl (workspace, Z.of_nat (base + i)) (fun x =>
      let cumSum := b32_plus mode_NE cumSum x in
      if fge cumSum r then k i else findFirst rest workspace base (i + 1) r cumSum k)
  end.

(* OpSamplingCuda.cu:68-113 kMultinomialNoReplacement on batch blocks; line 72 is never
   true.  The local variable of the loop over s is the number of values drawn. *)
Definition kMultinomialNoReplacement (draw : Z -> Z -> Z -> nat -> f32) (prob output workspace batch n numSamples : nat) (seed seq_ : Z) : launch (word f32) :=
  mkLaunch batch blockSize (fun _ => false) (fun b t =>
    each (strided n t blockSize n) (fun i _ k =>
      ldEl (prob, Z.of_nat (b * n + i)) (fun x => St (workspace, Z.of_nat (b * n + i)) (El x) (k tt))) tt (fun _ =>
    Sync (if t =? 0 then
      each (seq 0 numSamples) (fun s drawn k =>
        totalOf workspace (b * n) n (fun total =>
        let outputIdx := Z.of_nat (b * numSamples + s) in
        if flt f0 total then
          let r := b32_mult mode_NE (draw seed (Z.of_nat b) seq_ drawn) total in
          findFirst n workspace (b * n) 0 r f0 (fun selectedIdx =>
            St (output, outputIdx) (Ix (Z.of_nat selectedIdx))
            (St (workspace, Z.of_nat (b * n + selectedIdx)) (El f0) (k (drawn + 1))))
        else St (output, outputIdx) (Ix 0%Z) (k drawn))) 0 (fun _ => Done)
    else Done))).

(* Model only: loads of elements, one after another. *)
Fixpoint ldEls (as_ : list addr) (k : list f32 -> thr (word f32)) : thr (word f32) :=
  match as_ with [] => k [] | a :: r => ldEl a (fun x => ldEls r (fun xs => k (x :: xs))) end.
(* Model only: stores of elements from an offset on. *)
Fixpoint stEls (p at_ : nat) (xs : list f32) (k : thr (word f32)) : thr (word f32) :=
  match xs with [] => k | x :: r => St (p, Z.of_nat at_) (El x) (stEls p (at_ + 1) r k) end.
(* thrust::inclusive_scan as called at OpSamplingCuda.cu:240: in place, on n elements.
   As one thread: the library is right about its own synchronisation. *)
Definition scanInPlace (scan : list f32 -> list f32) (p offset n : nat) : launch (word f32) :=
  mkLaunch 1 1 (fun _ => false) (fun _ _ =>
    ldEls (map (fun i => (p, Z.of_nat (offset + i))) (seq 0 n)) (fun xs => stEls p offset (scan xs) Done)).

(* OpSamplingCuda.cu:197-255 multinomialOpCudaImpl; tmp is tmpProb (227-228).  A first
   argument of other dimension fails the assertion of line 198. *)
Definition multinomialCuda (draw : Z -> Z -> Z -> nat -> f32) (scan : list f32 -> list f32)
  (self : dtensor) (nSamples : nat) (replacement : bool) (out tmp : nat) (g : cudaGen) : res (list nat * list (launch (word f32)) * cudaGen) :=
  let run (batch n : nat) (sh : list nat) :=
    if n =? 0 then Ok (sh, [], g)
    else
      let seed := gseed g in
      let '(seq_, g') := nextSequence g in
      let replacement := if nSamples =? 1 then true else replacement in
      if replacement then
        Ok (sh, kPrepareProbabilities (dbuf self) tmp n batch :: map (fun b => scanInPlace scan tmp (b * n) n) (seq 0 batch)
                ++ [kMultinomialWithReplacement draw tmp out batch n nSamples seed seq_], g')
      else Ok (sh, [kMultinomialNoReplacement draw (dbuf self) out tmp batch n nSamples seed seq_], g') in
  match dshape self with
  | [n] => run 1 n [nSamples]
  | [batch; n] => run batch n [batch; nSamples]
  | _ => Fail
  end.
