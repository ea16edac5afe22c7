(* The CUDA operations that move elements: src/Operation/OpTransformCuda.cuh.

   Index tensors hold int64 values, all others elements of one type: a word of
   device memory is one or the other.  A host function is the shape of its
   result and the launch it makes; buffers are passed in, allocation is not
   modelled.  Integers are unbounded except the 32-bit thread indices. *)
From Coq Require Import List Arith ZArith Bool.
From Verif Require Import ShapeModel TensorModel BcastModel BufModel CutModel PermModel IndexModel GpuModel CudaModel CudaFillModel.
Import ListNotations.

(* Model only: an element or an index. *)
Inductive word (A : Type) := El (a : A) | Ix (z : Z).
Arguments El {A}.
Arguments Ix {A}.

(* Model only: load an int64. *)
Definition ldIx {A} (a : addr) (k : Z -> thr (word A)) : thr (word A) :=
  Ld a (fun w => match w with Ix z => k z | El _ => Trap end).

(* Model only: a[i] for an array of kernel arguments. *)
Definition arr (l : list nat) (i : Z) : option nat := if (i <? 0)%Z then None else nth_error l (Z.to_nat i).

(* Model only: memcpy of n elements, or that loop of stores, inside a kernel. *)
Fixpoint copyLoop {V} (n : nat) (src dst : addr) : thr V :=
  match n with
  | O => Done
  | S n => Ld src (fun v => St dst v (copyLoop n (fst src, snd src + 1) (fst dst, snd dst + 1)))%Z
  end.

(* ---- permute ---- *)

(* OpTransformCuda.cuh:44-50: dims is used as given: a negative one reads
   outside self.strides. *)
Definition permuteIndex (rstr sstr : list nat) (dims : list Z) (index : Z) : option Z :=
  match seqopt (map (arr sstr) dims) with
  | None => None
  | Some ss => Some (fst (fold_left (fun acc p =>
                 (fst acc + snd acc / Z.of_nat (fst p) * Z.of_nat (snd p), snd acc mod Z.of_nat (fst p))%Z)
                 (combine rstr ss) (0, index)%Z))
  end.

(* OpTransformCuda.cuh:39-56 kPermute, 355-373 permuteOpCudaImpl. *)
Definition permuteCuda {V} (self : dtensor) (dims : list Z) (out : nat) : res (list nat * launch V) :=
  let sh := dshape self in
  if negb (length dims =? length sh)%nat then Fail else
  let rsh := reorderIndices sh dims in
  Ok (rsh, kernel1d (Z.of_nat (numel sh)) (fun i =>
    match permuteIndex (strides rsh) (strides sh) dims i with
    | None => Trap
    | Some s => Ld (dbuf self, s) (fun v => St (out, i) v Done)
    end)).

(* OpTransformCuda.cuh:375-381 permuteAllOpCudaImpl. *)
Definition permuteAllCuda {V} (self : dtensor) (out : nat) : res (list nat * launch V) :=
  permuteCuda self (map Z.of_nat (rev (seq 0 (length (dshape self))))) out.

(* ---- transpose ---- *)

(* Model only: a launch on a grid of up to three dimensions; y and z have at
   most 65535 blocks, and a grid beyond the limits is refused like an empty
   one.  The program is that of thread (tx, ty) of block (bx, by, bz). *)
Definition launch3 {V} (gx gy gz : Z) (dx dy : nat) (sm : addr -> bool)
  (code : nat -> nat -> nat -> nat -> nat -> thr V) : launch V :=
  let ok := ((gx <=? 2 ^ 31 - 1) && (gy <=? 65535) && (gz <=? 65535))%Z in
  let nx := Z.to_nat gx in
  let ny := Z.to_nat gy in
  mkLaunch (if ok then nx * ny * Z.to_nat gz else 0)%nat (dx * dy) sm
    (fun b t => code (b mod nx) ((b / nx) mod ny) (b / nx / ny) (t mod dx) (t / dx))%nat.

(* OpTransformCuda.cuh:58-76 kTranspose2D. *)
Definition transposeTile {V} (out inp : nat) (width height : Z) (bx by_ tx ty : nat) : thr V :=
  let ix b t := ((Z.of_nat b * 32 + Z.of_nat t) mod 2 ^ 32)%Z in
  let rest :=
    Sync (let x := ix by_ tx in
          let y := ix bx ty in
          if ((x <? height) && (y <? width))%Z
          then SLd (0%nat, Z.of_nat (tx * 33 + ty)) (fun v => St (out, y * height + x)%Z v Done)
          else Done) in
  let x := ix bx tx in
  let y := ix by_ ty in
  if ((x <? width) && (y <? height))%Z
  then Ld (inp, y * width + x)%Z (fun v => SSt (0%nat, Z.of_nat (ty * 33 + tx)) v rest)
  else rest.

(* OpTransformCuda.cuh:344-353 cudaTranspose2d. *)
Definition cudaTranspose2d {V} (out inp : nat) (width height : Z) : launch V :=
  launch3 (((width + 31) / 32) mod 2 ^ 32) (((height + 31) / 32) mod 2 ^ 32) 1 32 32
    (fun a => (fst a =? 0)%nat && (0 <=? snd a)%Z && (snd a <? 32 * 33)%Z)
    (fun bx by_ _ tx ty => transposeTile out inp width height bx by_ tx ty).

(* OpTransformCuda.cuh:383-392 transpose2dOpCudaImpl. *)
Definition transpose2dCuda {V} (self : dtensor) (out : nat) : res (list nat * launch V) :=
  match dshape self with
  | [d0; d1] => Ok ([d1; d0], cudaTranspose2d out (dbuf self) (Z.of_nat d1) (Z.of_nat d0))
  | _ => Fail
  end.

(* OpTransformCuda.cuh:87-93, 238-244, 270-274, 295-299: the coordinates of an
   element by the strides. *)
Definition coordsZ (str : list nat) (i : Z) : list Z :=
  snd (fold_left (fun acc s => (fst acc mod Z.of_nat s, snd acc ++ [fst acc / Z.of_nat s])%Z) str (i, [])).

(* Model only: a list with one entry replaced. *)
Definition setZ (l : list Z) (i : nat) (x : Z) : list Z := firstn i l ++ x :: skipn (S i) l.

(* OpTransformCuda.cuh:78-106 kTransposeND. *)
Definition kTransposeND {V} (out inp : nat) (dim0 dim1 : nat) (n : Z) (ostr istr : list nat) : launch V :=
  kernel1d n (fun i =>
    let c := coordsZ ostr i in
    let c := setZ (setZ c dim0 (nth dim1 c 0%Z)) dim1 (nth dim0 c 0%Z) in
    Ld (inp, offsetAt c istr) (fun v => St (out, i) v Done)).

(* OpTransformCuda.cuh:394-489 transposeOpCudaImpl; no launch means that the
   result shares the buffer of self (clone, view).  The reshapes of lines 463
   and 488 make views. *)
Definition transposeCuda {V} (self : dtensor) (dim0 dim1 : Z) (out : nat) : res (list nat * option (launch V)) :=
  let sh := dshape self in
  match axis (length sh) dim0, axis (length sh) dim1 with
  | Some a, Some b =>
    if (a =? b)%nat then Ok (sh, None) else
    let d0 := Nat.min a b in
    let d1 := Nat.max a b in
    let s0 := nth d0 sh 0%nat in
    let s1 := nth d1 sh 0%nat in
    let rsh := set_nth (set_nth sh d0 s1) d1 s0 in
    if ((s0 =? 1) || (s1 =? 1))%nat && (d1 - d0 =? 1)%nat then Ok (rsh, None)
    else if (length sh =? 2)%nat then
      match transpose2dCuda self out with Ok (s, l) => Ok (s, Some l) | Fail => Fail | UB => UB end
    else
      let pre := fold_left Nat.mul (firstn d0 sh) 1%nat in
      let mid := fold_left Nat.mul (firstn (d1 - S d0) (skipn (S d0) sh)) 1%nat in
      let post := fold_left Nat.mul (skipn (S d1) sh) 1%nat in
      let only n := if (1 <? n)%nat then [n] else [] in
      let msh := only pre ++ [s0] ++ only mid ++ [s1] ++ only post in
      let mosh := only pre ++ [s1] ++ only mid ++ [s0] ++ only post in
      let n0 := length (only pre) in
      let n1 := S (n0 + length (only mid)) in
      Ok (rsh, Some (kTransposeND out (dbuf self) n0 n1 (Z.of_nat (numel mosh)) (strides mosh) (strides msh)))
  | _, _ => Fail
  end.

(* ---- tril, triu ---- *)

(* OpTransformCuda.cuh:192-207 kTriangle. *)
Definition triangleAt {V} (zero_ : V) (lower : bool) (ret t : nat) (batch rows cols diagonal : Z) (bx by_ bz tx ty : nat) : thr V :=
  let b := Z.of_nat bz in
  let i := ((Z.of_nat by_ * 16 + Z.of_nat ty) mod 2 ^ 32)%Z in
  let j := ((Z.of_nat bx * 16 + Z.of_nat tx) mod 2 ^ 32)%Z in
  if ((b <? batch) && (i <? rows) && (j <? cols))%Z then
    let index := (b * (rows * cols) + i * cols + j)%Z in
    if (if lower then j <=? i + diagonal else i + diagonal <=? j)%Z
    then Ld (t, index) (fun v => St (ret, index) v Done)
    else St (ret, index) zero_ Done
  else Done.

(* OpTransformCuda.cuh:570-594 triangleOpCudaImpl; a tensor of rank below 2 reads
   its shape out of range. *)
Definition triangleCuda {V} (zero_ : V) (lower : bool) (self : dtensor) (diagonal : Z) (out : nat) : res (list nat * launch V) :=
  let sh := dshape self in
  let n := length sh in
  if (n <? 2)%nat then UB else
  let rows := Z.of_nat (nth (n - 2) sh 0%nat) in
  let cols := Z.of_nat (nth (n - 1) sh 0%nat) in
  let batch := Z.of_nat (fold_left Nat.mul (firstn (n - 2) sh) 1%nat) in
  Ok (sh, launch3 (((cols + 15) / 16) mod 2 ^ 32) (((rows + 15) / 16) mod 2 ^ 32) (batch mod 2 ^ 32) 16 16 (fun _ => false)
            (triangleAt zero_ lower out (dbuf self) batch rows cols diagonal)).

(* OpTransformCuda.cuh:596-599. *)
Definition trilCuda {V} (zero_ : V) := triangleCuda zero_ true.
(* OpTransformCuda.cuh:601-604. *)
Definition triuCuda {V} (zero_ : V) := triangleCuda zero_ false.

(* ---- index tensors ---- *)

(* OpTransformCuda.cuh:20-27 cudaGetSubIndices and 29-37 cudaIndicesToOffset: the
   coordinates that are not indexed are zero. *)
Fixpoint subOffset {A} (dims : list (nat * nat)) (inds : list nat) (index acc : Z) (k : Z -> thr (word A)) : thr (word A) :=
  match inds, dims with
  | p :: inds, (d, s) :: dims =>
    ldIx (p, index) (fun ind =>
      let x := (if 0 <=? ind then ind else ind + Z.of_nat d)%Z in
      subOffset dims inds index (acc + x * Z.of_nat s)%Z k)
  | _, _ => k acc
  end.

(* OpTransformCuda.cuh:121-133, 151-163, 178-190: the 2D kernels' offset. *)
Definition offset2D {A} (dim0 dim1 : nat) (inds0 inds1 : nat) (index : Z) (k : Z -> thr (word A)) : thr (word A) :=
  ldIx (inds0, index) (fun idx0 => ldIx (inds1, index) (fun idx1 =>
    let idx0 := (if idx0 <? 0 then idx0 + Z.of_nat dim0 else idx0)%Z in
    let idx1 := (if idx1 <? 0 then idx1 + Z.of_nat dim1 else idx1)%Z in
    k (idx0 * Z.of_nat dim1 + idx1)%Z)).

(* OpTransformCuda.cuh:491-526 indexAdvanceOpCudaImpl, with 108-119 kIndex and
   121-133 kIndex2D. *)
Definition indexAdvanceCuda {A} (self : dtensor) (inds : list dtensor) (out : nat) : res (list nat * launch (word A)) :=
  match inds with
  | [] => UB
  | t0 :: _ =>
    let sh := dshape self in
    let len := length inds in
    let firstDim := numel (dshape t0) in
    if (length sh <? len)%nat then UB else
    let dimStride := nth (len - 1) (strides sh) 0%nat in
    let retShape := dshape t0 ++ skipn len sh in
    Ok (retShape, kernel1d (Z.of_nat firstDim) (fun index =>
      match sh, inds with
      | [d0; d1], [i0; i1] =>
        offset2D d0 d1 (dbuf i0) (dbuf i1) index (fun z => Ld (dbuf self, z) (fun v => St (out, index) v Done))
      | _, _ =>
        subOffset (combine sh (strides sh)) (map dbuf inds) index 0 (fun z =>
          copyLoop dimStride (dbuf self, z) (out, Z.of_nat dimStride * index)%Z)
      end))
  end.

(* Model only: n stores of one loaded value: the loop of lines 144-147. *)
Fixpoint fillLoop {V} (n : nat) (val dst : addr) : thr V :=
  match n with
  | O => Done
  | S n => Ld val (fun v => St dst v (fillLoop n val (fst dst, snd dst + 1)))%Z
  end.

(* OpTransformCuda.cuh:528-568 indexPutAdvanceOpCudaImpl, with the kernels
   kIndexPutScalar 135-149, kIndexPutScalar2D 151-163, kIndexPut 165-176 and
   kIndexPut2D 178-190. *)
Definition indexPutAdvanceCuda {A} (self : dtensor) (inds : list dtensor) (val : dtensor) : res (launch (word A)) :=
  match inds with
  | [] => UB
  | t0 :: _ =>
    let sh := dshape self in
    let len := length inds in
    let firstDim := numel (dshape t0) in
    if (length sh <? len)%nat then UB else
    let dimStride := nth (len - 1) (strides sh) 0%nat in
    match sh, inds with
    | [d0; d1], [i0; i1] =>
      let put src := Ok (kernel1d (Z.of_nat firstDim) (fun index =>
        offset2D d0 d1 (dbuf i0) (dbuf i1) index (fun z => Ld (src index) (fun v => St (dbuf self, z) v Done)))) in
      if isScalar (bare val) then put (fun _ => (dbuf val, 0%Z))
      else if (numel (dshape val) =? firstDim)%nat then put (fun index => (dbuf val, index)) else Fail
    | _, _ =>
      let put body := Ok (kernel1d (Z.of_nat firstDim) (fun index =>
        subOffset (combine sh (strides sh)) (map dbuf inds) index 0 (fun z => body index (dbuf self, z)))) in
      if isScalar (bare val) then put (fun _ dst => fillLoop dimStride (dbuf val, 0%Z) dst)
      else if (numel (dshape val) =? dimStride * firstDim)%nat
      then put (fun index dst => copyLoop dimStride (dbuf val, Z.of_nat dimStride * index)%Z dst)
      else Fail
    end
  end.

(* ---- gather, scatter ---- *)

(* OpTransformCuda.cuh:229-258 kGatherScatter up to the offset: no check of the
   index. *)
Definition kCoord {A} (sh ish : list nat) (dim : nat) (index : nat) (i : Z) (k : Z -> thr (word A)) : thr (word A) :=
  let c := coordsZ (strides ish) i in
  ldIx (index, i) (fun idx =>
    let idx := (if idx <? 0 then idx + Z.of_nat (nth dim sh 0%nat) else idx)%Z in
    k (offsetAt (setZ c dim idx) (strides sh))).

(* OpTransformCuda.cuh:606-629 gatherScatterCudaImpl. *)
Definition gatherScatter {A} (self : dtensor) (dim : Z) (index : dtensor) (op : Z -> Z -> thr (word A)) : res (launch (word A)) :=
  let sh := dshape self in
  match axis (length sh) dim with
  | None => Fail
  | Some d =>
    if negb (length (dshape index) =? length sh)%nat then Fail
    else Ok (kernel1d (Z.of_nat (numel (dshape index))) (fun i => kCoord sh (dshape index) d (dbuf index) i (op i)))
  end.

(* OpTransformCuda.cuh:631-636 gatherOpCudaImpl with OpCudaGather 209-217. *)
Definition gatherCuda {A} (self : dtensor) (dim : Z) (index : dtensor) (out : nat) : res (list nat * launch (word A)) :=
  rbind (gatherScatter self dim index (fun i offset => Ld (dbuf self, offset) (fun v => St (out, i) v Done)))
        (fun l => Ok (dshape index, l)).

(* OpTransformCuda.cuh:647-651 scatterOpInplaceCudaImpl with OpCudaScatter
   219-227; 638-645 scatterOpCudaImpl does the same to a copy. *)
Definition scatterCuda {A} (self : dtensor) (dim : Z) (index src : dtensor) : res (launch (word A)) :=
  gatherScatter self dim index (fun i offset => Ld (dbuf src, i) (fun v => St (dbuf self, offset) v Done)).

(* ---- expand, index_select, repeat_interleave ---- *)

(* OpTransformCuda.cuh:653-699 expandOpCudaImpl with kExpand 260-284. *)
Definition expandCuda {V} (self : dtensor) (sizes : list Z) (out : nat) : res (list nat * launch V) :=
  let sh := dshape self in
  rbind (expandShape sh sizes) (fun rsh =>
    let n := length sizes - length sh in
    if isScalar (bare self) then Ok (rsh, fillOffsetCuda out (dbuf self) 0 (Z.of_nat (numel rsh)))
    else
      let inShape := repeat 1 n ++ sh in
      let inStride := repeat 0 n ++ strides sh in
      Ok (rsh, kernel1d (Z.of_nat (numel rsh)) (fun i =>
        let c := map (fun p => if fst p =? 1 then 0%Z else snd p) (combine inShape (coordsZ (strides rsh) i)) in
        Ld (dbuf self, offsetAt c inStride) (fun v => St (out, i) v Done))))%nat.

(* OpTransformCuda.cuh:701-734 indexSelectOpCudaImpl with kIndexSelect 286-314; no
   launch for an empty index. *)
Definition indexSelectCuda {A} (self : dtensor) (dim : Z) (index : dtensor) (out : nat) : res (list nat * option (launch (word A))) :=
  let sh := dshape self in
  match axis (length sh) dim with
  | None => Fail
  | Some d =>
    if negb (length (dshape index) =? 1)%nat then Fail else
    let cnt := numel (dshape index) in
    let rsh := set_nth sh d cnt in
    if (cnt =? 0)%nat then Ok (rsh, None) else
    Ok (rsh, Some (kernel1d (Z.of_nat (numel rsh)) (fun i =>
      let c := coordsZ (strides rsh) i in
      ldIx (dbuf index, nth d c 0%Z) (fun v =>
        Ld (dbuf self, offsetAt (setZ c d v) (strides sh)) (fun v => St (out, i) v Done)))))
  end.

(* OpTransformCuda.cuh:736-763 repeatInterleaveOpCudaImpl with kRepeatInterleave
   316-331. *)
Definition repeatInterleaveCuda {V} (self : dtensor) (repeats dim : Z) (out : nat) : res (list nat * launch V) :=
  let sh := dshape self in
  match axis (length sh) dim with
  | None => Fail
  | Some d =>
    if (repeats <=? 0)%Z then Fail else
    let dimSize := Z.of_nat (nth d sh 0%nat) in
    let inner := Z.of_nat (fold_left Nat.mul (skipn (S d) sh) 1%nat) in
    let rsh := set_nth sh d (nth d sh 0 * Z.to_nat repeats)%nat in
    Ok (rsh, kernel1d (Z.of_nat (numel rsh)) (fun i =>
      let innerIdx := i mod inner in
      let rest := i / inner in
      let dimIdx := rest mod (dimSize * repeats) in
      let outerIdx := rest / (dimSize * repeats) in
      let inIdx := outerIdx * (dimSize * inner) + dimIdx / repeats * inner + innerIdx in
      Ld (dbuf self, inIdx) (fun v => St (out, i) v Done)))%Z
  end.
