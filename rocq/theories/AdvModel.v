(** Indexing with tensors of indices: src/Operation/OpTransformCpu.h:89-179, and
    the embedding lookup built on it (src/Function/FuncNNLayer.h:213-217). *)
From Coq Require Import ZArith List Bool Arith.
From Verif Require Import ShapeModel TensorModel BcastModel BufModel CutModel IndexModel.
Import ListNotations.

(** OpTransformCpu.h:94 and 109-110: negative indices count from the end. *)
Definition wrapIdx (d : nat) (v : Z) : Z := (if 0 <=? v then v else v + Z.of_nat d)%Z.
(** OpTransformCpu.h:89-96 with [indicesToOffset] (OpTransform.cpp:16-22): the
    offset addressed by element [i] of the index tensors; the coordinates of the
    other dimensions are zero.  Each index tensor is read at [i] whatever its size. *)
Definition advOffset (sh : list nat) (inds : list (tensor Z)) (i : nat) : option Z :=
  obind (seqopt (map (fun t => rd (tdata t) i) inds)) (fun vs =>
  Some (fold_right Z.add 0%Z (map (fun p => wrapIdx (fst (fst p)) (snd p) * Z.of_nat (snd (fst p)))%Z (combine (combine sh (strides sh)) vs)))).
(** OpTransformCpu.h:98-115, [index2DCpuImpl]. *)
Definition index2D (dim0 dim1 : nat) (t0 t1 : tensor Z) (i : nat) : option Z :=
  obind (rd (tdata t0) i) (fun v0 => obind (rd (tdata t1) i) (fun v1 =>
  Some (wrapIdx dim0 v0 * Z.of_nat dim1 + wrapIdx dim1 v1)%Z)).
(** OpTransformCpu.h:117-142, [indexAdvanceOpCpuImpl].  No index tensor, or more
    of them than dimensions, reads outside an array. *)
Definition indexAdvance {A} (self : tensor A) (inds : list (tensor Z)) : res (tensor A) :=
  match inds with
  | [] => UB
  | t0 :: _ =>
    let sh := tshape self in
    let len := length inds in
    let firstDim := tnumel t0 in
    if length sh <? len then UB else
    let dimStride := nth (len - 1) (strides sh) 0 in
    let retShape := tshape t0 ++ skipn len sh in
    finish retShape
      (match sh, inds with
       | [d0; d1], [i0; i1] =>
         loop (seq 0 firstDim) (fresh (numel retShape)) (fun out i =>
           obind (index2D d0 d1 i0 i1 i) (fun z => obind (rdZ (tdata self) z) (fun x => put out i x)))
       | _, _ =>
         loop (seq 0 firstDim) (fresh (numel retShape)) (fun out i =>
           obind (advOffset sh inds i) (fun z =>
           loop (seq 0 dimStride) out (fun out k => obind (rdZ (tdata self) (z + Z.of_nat k)) (fun x => put out (dimStride * i + k) x))))
       end)
  end.
(** OpTransformCpu.h:144-179, [indexPutAdvanceOpCpuImpl]; the value of [self] after
    the call.  (The missing copy-on-write is the subject of CowModel.) *)
Definition indexPutAdvance {A} (self : tensor A) (inds : list (tensor Z)) (val : tensor A) : res (tensor A) :=
  match inds with
  | [] => UB
  | t0 :: _ =>
    let sh := tshape self in
    let len := length inds in
    let firstDim := tnumel t0 in
    if length sh <? len then UB else
    let dimStride := nth (len - 1) (strides sh) 0 in
    let done o := match o with None => UB | Some d => Ok (mkT sh d) end in
    let run (src : nat -> nat -> option A) :=
      match sh, inds with
      | [d0; d1], [i0; i1] =>
        done (loop (seq 0 firstDim) (tdata self) (fun l i => obind (index2D d0 d1 i0 i1 i) (fun z => obind (src i 0) (fun x => wrZ l z x))))
      | _, _ =>
        done (loop (seq 0 firstDim) (tdata self) (fun l i =>
          obind (advOffset sh inds i) (fun z =>
          loop (seq 0 dimStride) l (fun l k => obind (src i k) (fun x => wrZ l (z + Z.of_nat k) x)))))
      end in
    if isScalar val then run (fun _ _ => rd (tdata val) 0)
    else if tnumel val =? dimStride * firstDim then run (fun i k => rd (tdata val) (dimStride * i + k)) else Fail
  end.
(** FuncNNLayer.h:213-217, [FuncEmbedding::forward]. *)
Definition embedding {A} (input : tensor Z) (weight : tensor A) : res (tensor A) := indexAdvance weight [input].
