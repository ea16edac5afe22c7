(** permute, transpose, tril/triu: src/Operation/OpTransformCpu.h and
    OpTransform.cpp; gradient of permute: src/Function/FuncTransform.h. *)
From Coq Require Import ZArith List Bool Arith.
From Verif Require Import ShapeModel TensorModel BcastModel BufModel.
Import ListNotations.

(** OpTransform.cpp:31-46, [reorderIndices]: an invalid axis is logged and the
    indices are left alone.  (The static scratch vector is not modelled.) *)
Definition reorderIndices (idx : list nat) (order : list Z) : list nat :=
  match seqopt (map (axis (length idx)) order) with
  | Some ds => map (fun d => nth d idx 0) ds
  | None => idx
  end.
(** OpTransformCpu.h:29-34: the source offset of output element [i]; [rstr] are
    the strides of the result, [sstr] those of the source in the new order. *)
Definition originIndex (rstr sstr : list nat) (i : nat) : nat :=
  fst (fold_left (fun acc p => (fst acc + snd acc / fst p * snd p, snd acc mod fst p)) (combine rstr sstr) (0, i)).
(** OpTransformCpu.h:18-38, [permuteOpCpuImpl].  [stride(d)] with an axis out
    of range reads outside the strides (only reached if there are elements). *)
Definition permute {A} (t : tensor A) (dims : list Z) : res (tensor A) :=
  let sh := tshape t in
  if negb (length dims =? length sh) then Fail else
  let rsh := reorderIndices sh dims in
  match seqopt (map (axis (length sh)) dims) with
  | None => if numel sh =? 0 then Ok (mkT rsh []) else UB
  | Some ds =>
    let sstr := map (fun d => nth d (strides sh) 0) ds in
    finish rsh (loop (seq 0 (numel sh)) (fresh (numel rsh)) (fun b i =>
      obind (rd (tdata t) (originIndex (strides rsh) sstr i)) (put b i)))
  end.
(** OpTransformCpu.h:40-46, [permuteAllOpCpuImpl]. *)
Definition permuteAll {A} (t : tensor A) : res (tensor A) :=
  permute t (map Z.of_nat (rev (seq 0 (length (tshape t))))).
(** OpTransform.cpp:48-52, 453: [view] and [reshape] (a clone, then reshape_). *)
Definition viewAs {A} (t : tensor A) (shape : list nat) : tensor A :=
  let v := reshape_ (newView (map Z.of_nat (tshape t)) (tdata t)) (map Z.of_nat shape) in
  mkT (map Z.to_nat (vshape v)) (vdata v).
(** OpTransformCpu.h:54-87, [transposeOpCpuImpl] (with 48-52 for 2-D). *)
Definition transpose {A} (t : tensor A) (dim0 dim1 : Z) : res (tensor A) :=
  let sh := tshape t in
  let n := length sh in
  match axis n dim0, axis n dim1 with
  | Some a, Some b =>
    if a =? b then Ok t
    else if ((nth a sh 0 =? 1) || (nth b sh 0 =? 1)) && ((a =? S b) || (b =? S a)) then
      Ok (viewAs t (set_nth (set_nth sh a (nth b sh 0)) b (nth a sh 0)))
    else if n =? 2 then permute t [1%Z; 0%Z]
    else permute t (map Z.of_nat (set_nth (set_nth (seq 0 n) a b) b a))
  | _, _ => Fail
  end.

(** FuncTransform.h:18-24 with 33-36: the gradient that permute's backward
    passes to its input of shape [sh]. *)
Definition permuteBackward {A} (sh : list nat) (grad : tensor A) : tensor A := viewAs grad sh.

(** OpTransformCpu.h:181-213, [triangleOpCpuImpl]; [zero_] is [static_cast<T>(0)].
    A tensor of rank below 2 reads [shape_] out of range. *)
Definition triangle {A} (zero_ : A) (lower : bool) (t : tensor A) (diagonal : Z) : res (tensor A) :=
  let sh := tshape t in
  let n := length sh in
  if n <? 2 then UB else
  let rows := nth (n - 2) sh 0 in
  let cols := nth (n - 1) sh 0 in
  let batch := fold_left Nat.mul (firstn (n - 2) sh) 1 in
  let matrixSize := rows * cols in
  finish sh
    (loop (seq 0 batch) (fresh (numel sh)) (fun buf b =>
       loop (seq 0 rows) buf (fun buf i =>
         loop (seq 0 cols) buf (fun buf j =>
           let off := b * matrixSize + (i * cols + j) in
           if (if lower then Z.of_nat j <=? Z.of_nat i + diagonal else Z.of_nat i + diagonal <=? Z.of_nat j)%Z
           then obind (rd (tdata t) off) (put buf off)
           else put buf off zero_)))).
(** OpTransformCpu.h:216-218. *)
Definition tril {A} (zero_ : A) := @triangle A zero_ true.
(** OpTransformCpu.h:221-223. *)
Definition triu {A} (zero_ : A) := @triangle A zero_ false.
