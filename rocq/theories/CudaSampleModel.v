(* Sort, topk and cumsum of CUDA tensors: src/Operation/OpSamplingCuda.cu:115-191 and
   261-369.  The work is done by Thrust, which is not in the repository; its algorithms
   are modelled by what its manual promises.  Elements of cumsum are those of a
   commutative ring (no rounding). *)
From Coq Require Import List Arith ZArith Bool.
From Verif Require Import ShapeModel TensorModel BcastModel BufModel LineModel SampleModel GpuModel CudaModel CudaLineModel.
Import ListNotations.

Section Sort.
  (* lt is operator< of the elements.  ssort cmp is a Thrust sorting algorithm on pairs
     of a key and a value that compares the keys; what it promises is in
     CudaSampleSpec.v. *)
  Context {A : Type} (lt : A -> A -> bool).
  Notation entry := (A * nat)%type.
  Context (ssort : (entry -> entry -> bool) -> list entry -> list entry).

  (* OpSamplingCuda.cu:289-292. *)
  Definition initIndices (n inner idx : nat) : nat := (idx mod (n * inner)) / inner.
  (* OpSamplingCuda.cu:297-318: sorts segment seg in place.  The two buffers are at the
     same offsets everywhere; they are modelled as one buffer of pairs. *)
  Definition sortSegment (n inner : nat) (descending : bool) (buf : list entry) (seg : nat) : option (list entry) :=
    let o := seg / inner in
    let i := seg mod inner in
    obind (readLine buf n inner o i) (fun l =>
    loop (combine (seq 0 n) (ssort (cmpOf lt descending) l)) buf (fun buf jv => wr buf (lineOffset n inner o i (fst jv)) (snd jv))).
  (* OpSamplingCuda.cu:261-321 sortOpCudaImpl. *)
  Definition sortCuda (t : tensor A) (dim : Z) (descending : bool) : res (tensor A * tensor nat) :=
    match axis (length (tshape t)) dim with
    | None => Fail
    | Some k =>
      let n := nth k (tshape t) 0 in
      let outer := outerSize (tshape t) k in
      let inner := innerSize (tshape t) k in
      let buf := combine (tdata t) (map (initIndices n inner) (seq 0 (outer * n * inner))) in
      match loop (seq 0 (outer * inner)) buf (sortSegment n inner descending) with
      | None => UB
      | Some buf => Ok (mkT (tshape t) (map fst buf), mkT (tshape t) (map snd buf))
      end
    end.
  (* OpSamplingCuda.cu:115-191 topkOpCudaImpl: each line is copied with its positions,
     sorted, and its first k pairs stored.  The argument sorted is not used. *)
  Definition topkCuda (t : tensor A) (k dim : Z) (largest sorted : bool) : res (tensor A * tensor nat) :=
    match axis (length (tshape t)) dim with
    | None => Fail
    | Some d =>
      let n := nth d (tshape t) 0 in
      if (0 <? k)%Z && (k <=? Z.of_nat n)%Z then
        let k := Z.to_nat k in
        unzip (lineKernel (set_nth (tshape t) d k) (outerSize (tshape t) d) (innerSize (tshape t) d) k
          (fun o i => obind (readLine (tdata t) n (innerSize (tshape t) d) o i) (fun l =>
             let tmp := combine l (seq 0 n) in
             Some (firstn k (ssort (cmpOf lt largest) tmp)))))
      else Fail
    end.
End Sort.

(* OpSamplingCuda.cu:352 and 361-365: running sums of n elements from base, inner
   apart. *)
Definition scanLine {K : cring} (self out base n inner : nat) : thr K :=
  each (seq 0 n) (fun i s k =>
    Ld (self, Z.of_nat (base + i * inner)) (fun x =>
    let s := add s x in
    St (out, Z.of_nat (base + i * inner)) s (k s))) zero (fun _ => Done).
(* thrust::inclusive_scan as called at OpSamplingCuda.cu:352: in any order of its
   additions; here from left to right. *)
Definition inclusiveScan {K : cring} (self out offset n : nat) : launch K :=
  mkLaunch 1 1 (fun _ => false) (fun _ _ => scanLine self out offset n 1).
(* thrust::for_each_n as called at OpSamplingCuda.cu:355: f 0, ..., f (n-1) in any order
   or interleaving; nothing is launched for n = 0. *)
Definition forEachN {V} (n : nat) (f : nat -> thr V) : list (launch V) :=
  if n =? 0 then [] else [mkLaunch n 1 (fun _ => false) (fun row _ => f row)].
(* OpSamplingCuda.cu:327-369 cumsumOpCudaImpl. *)
Definition cumsumCuda {K : cring} (self : dtensor) (dim : Z) (out : nat) : res (list nat * list (launch K)) :=
  match axis (length (dshape self)) dim with
  | None => Fail
  | Some k =>
    let n := nth k (dshape self) 0 in
    let outer := outerSize (dshape self) k in
    let inner := innerSize (dshape self) k in
    Ok (dshape self,
      if inner =? 1 then map (fun o => inclusiveScan (dbuf self) out (o * n) n) (seq 0 outer)
      else forEachN (outer * inner) (fun row =>
        let o := row / inner in
        let inIdx := row mod inner in
        let base := o * n * inner + inIdx in
        scanLine (dbuf self) out base n inner))
  end.
