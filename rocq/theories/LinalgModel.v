(** Matrix multiplication, dot product, im2col/col2im and the convolution and
    pooling layers built on them: src/Operation/OpLinalg.cpp, OpLinalgCpu.h and
    src/Function/FuncNNLayer.h.  CPU device, without BLAS. *)
From Coq Require Import ZArith List Bool Arith.
From Verif Require Import ShapeModel TensorModel BcastModel BufModel PermModel CutModel ReduceModel.
Import ListNotations.

(** * matmul *)
(** OpLinalg.cpp:11-22, [makePaddedStrides]. *)
Definition makePaddedStrides (str : list nat) (targetDim : nat) : list nat := repeat 0 (targetDim - length str) ++ str.
(** OpLinalg.cpp:31-45: the loop from the last of the leading dimensions (lists
    are reversed); the third list is the result, which starts as the longer
    shape.  [None] is the empty shape. *)
Fixpoint broadcastRev (t0 t1 ret : list nat) : option (list nat) :=
  match t0, t1, ret with
  | d0 :: t0, d1 :: t1, r :: ret =>
    let r' := if d0 =? d1 then Some r else if (d0 =? 1) || (d1 =? 1) then Some (Nat.max d0 d1) else None in
    match r', broadcastRev t0 t1 ret with Some r', Some ret' => Some (r' :: ret') | _, _ => None end
  | _, _, _ => Some ret
  end.
(** OpLinalg.cpp:24-48, [broadcastShape] with [skipLast] trailing dimensions kept. *)
Definition broadcastBatch (t0 t1 : list nat) (skipLast : nat) : option (list nat) :=
  let ret := if length t1 <? length t0 then t0 else t1 in
  match broadcastRev (skipn skipLast (rev t0)) (skipn skipLast (rev t1)) (skipn skipLast (rev ret)) with
  | None => None
  | Some r => Some (rev r ++ skipn (length ret - skipLast) ret)
  end.

(** OpLinalgCpu.h:118-141, [gemmCpuImpl] without BLAS; [ao], [bo] are the
    offsets of [a] and [b], the result is the block written at [c]. *)
Definition gemm {K : cring} (a : list K) (ao : nat) (b : list K) (bo m k n : nat) (transA transB : bool) : option (list K) :=
  loop (seq 0 m) (repeat zero (m * n)) (fun c i =>
    loop (seq 0 k) c (fun c p =>
      obind (rd a (ao + (if transA then p * m + i else i * k + p))) (fun aVal =>
      loop (seq 0 n) c (fun c j =>
        obind (rd b (bo + (if transB then j * k + p else p * n + j))) (fun bVal =>
        obind (rd c (i * n + j)) (fun x => wr c (i * n + j) (add x (mul aVal bVal)))))))).

(** OpLinalg.cpp:204-217: the offset of operand [t] (shape [sh], padded strides
    [str]) in batch [batch]; [ret] is the result shape without its last two
    dimensions.  From the last of these, state (tmp, offset). *)
Definition batchOffset (sh str ret : list nat) (batch : nat) : nat :=
  snd (fold_right (fun i acc =>
         let index := fst acc mod nth i ret 0 in
         (fst acc / nth i ret 0,
          if (i <? length sh) && negb (nth i sh 0 =? 1) then snd acc + index * nth i str 0 else snd acc))
       (batch, 0) (seq 0 (length ret))).

(** OpLinalg.cpp:222-235 with [reshape_]: the last part of matmul. *)
Definition squeezed {A} (t : tensor A) (prependA appendB : bool) (m : nat) : tensor A :=
  if appendB then viewAs t (if prependA then [] else [m]) else t.
(** OpLinalg.cpp:50-238, [matmulOpImplDetail] on the CPU, where the strided and
    pointer-array batched routines do not exist (OpLinalg.h:50-72).  Each gemm
    writes its own block of the result. *)
Definition matmulDetail {K : cring} (a b : tensor K) (transA transB : bool) : res (tensor K) :=
  let sa := tshape a in
  let sb := tshape b in
  if (length sa =? 0) || (length sb =? 0) then Fail else
  let prependA := length sa =? 1 in
  let appendB := length sb =? 1 in
  let shapeA := if prependA then 1 :: sa else sa in
  let shapeB := if appendB then sb ++ [1] else sb in
  let transA := if prependA then false else transA in
  let transB := if appendB then false else transB in
  let la := length shapeA in
  let lb := length shapeB in
  let k := nth (la - if transA then 2 else 1) shapeA 0 in
  if negb (k =? nth (lb - if transB then 1 else 2) shapeB 0) then Fail else
  match broadcastBatch shapeA shapeB 2 with
  | None => Fail
  | Some ret =>
    let rdim := length ret in
    let m := nth (la - if transA then 1 else 2) shapeA 0 in
    let n := nth (lb - if transB then 2 else 1) shapeB 0 in
    let bs := firstn (rdim - 2) ret in
    let rsh := bs ++ [m; n] in
    if 2 <? rdim then
      if m * n =? 0 then UB (* division by zero *) else
      let batchSize := numel rsh / (m * n) in
      let aStrides := makePaddedStrides (tstrides a) rdim in
      let bStrides := makePaddedStrides (tstrides b) rdim in
      match seqopt (map (fun batch => gemm (tdata a) (batchOffset sa aStrides bs batch)
                                           (tdata b) (batchOffset sb bStrides bs batch) m k n transA transB)
                        (seq 0 batchSize)) with
      | None => UB
      | Some cs => Ok (squeezed (mkT rsh (List.concat cs)) prependA appendB m)
      end
    else
      match gemm (tdata a) 0 (tdata b) 0 m k n transA transB with
      | None => UB
      | Some c => let r := mkT rsh c in Ok (squeezed (if prependA then viewAs r [n] else r) prependA appendB m)
      end
  end.
(** OpLinalg.cpp:240-266, [matmulOpImpl]. *)
Definition matmul {K : cring} (a b : tensor K) (transA transB : bool) : res (tensor K) :=
  match tshape a, tshape b with
  | [a0; a1], [b0; b1] =>
    let m := if transA then a1 else a0 in
    let k := if transA then a0 else a1 in
    let n := if transB then b0 else b1 in
    if negb (k =? (if transB then b1 else b0)) then Fail else
    match gemm (tdata a) 0 (tdata b) 0 m k n transA transB with
    | None => UB
    | Some c => Ok (mkT [m; n] c)
    end
  | _, _ => matmulDetail a b transA transB
  end.
(** OpLinalgCpu.h:19-28, [dotOpCpuImpl]: the size of the second operand is not
    looked at. *)
Definition dotProduct {K : cring} (a b : tensor K) : res (tensor K) :=
  match loop (seq 0 (tnumel a)) zero (fun acc i =>
          obind (rd (tdata a) i) (fun x => obind (rd (tdata b) i) (fun y => Some (add acc (mul x y))))) with
  | None => UB
  | Some r => Ok (mkT [] [r])
  end.

(** * im2col and col2im *)
(** Tensor/DType.h:193-200, [Dim2D]: height and width (non-negative here). *)
Record dim2 := D2 { dh : nat; dw : nat }.
(** OpLinalgCpu.h:38-39: C++ division truncates; a zero stride divides by zero. *)
Definition outSize (size kernel stride padding : nat) : option Z :=
  if stride =? 0 then None
  else Some (Z.quot (Z.of_nat size - Z.of_nat kernel + 2 * Z.of_nat padding) (Z.of_nat stride) + 1)%Z.
(** OpLinalgCpu.h:32-42: batch, channels, height, width, outH, outW.  A negative
    output size is passed on to the allocator in the code; here it is [UB]. *)
Definition geometry (sh : list nat) (kernel stride padding : dim2) : res (nat * nat * nat * nat * nat * nat) :=
  let go b c h w :=
    match outSize h (dh kernel) (dh stride) (dh padding), outSize w (dw kernel) (dw stride) (dw padding) with
    | Some oh, Some ow => if ((oh <? 0) || (ow <? 0))%Z then UB else Ok (b, c, h, w, Z.to_nat oh, Z.to_nat ow)
    | _, _ => UB
    end in
  match sh with
  | [c; h; w] => go 1 c h w
  | [b; c; h; w] => go b c h w
  | _ => Fail
  end.
(** OpLinalgCpu.h:50-63: where element (i, j) of window (h, w) of channel [c] of
    image [b] is; [None] outside the image. *)
Definition pixelOffset (channels height width : nat) (stride padding : dim2) (b c h w i j : nat) : option nat :=
  let ih := (Z.of_nat (h * dh stride) - Z.of_nat (dh padding) + Z.of_nat i)%Z in
  let iw := (Z.of_nat (w * dw stride) - Z.of_nat (dw padding) + Z.of_nat j)%Z in
  if ((ih >=? 0) && (ih <? Z.of_nat height) && (iw >=? 0) && (iw <? Z.of_nat width))%Z
  then Some ((b * channels + c) * height * width + (Z.to_nat ih * width + Z.to_nat iw))
  else None.
(** OpLinalgCpu.h:56 and 62, 100 and 107: its place in the matrix. *)
Definition colOffset (channels outH outW : nat) (kernel : dim2) (b c h w i j : nat) : nat :=
  (b * (outH * outW) + h * outW + w) * (channels * dh kernel * dw kernel) + c * dh kernel * dw kernel + (i * dw kernel + j).
(** OpLinalgCpu.h:48-59 and 92-103: the six nested loops. *)
Definition loop6 {S} (batch channels outH outW kh kw : nat) (s : S) (f : S -> nat -> nat -> nat -> nat -> nat -> nat -> option S) : option S :=
  loop (seq 0 batch) s (fun s b => loop (seq 0 channels) s (fun s c =>
  loop (seq 0 outH) s (fun s h => loop (seq 0 outW) s (fun s w =>
  loop (seq 0 kh) s (fun s i => loop (seq 0 kw) s (fun s j => f s b c h w i j)))))).
(** OpLinalgCpu.h:30-71, [im2colOpCpuImpl]. *)
Definition im2col {K : cring} (t : tensor K) (kernel stride padding : dim2) : res (tensor K) :=
  match geometry (tshape t) kernel stride padding with
  | UB => UB | Fail => Fail
  | Ok (batch, channels, height, width, outH, outW) =>
    let rsh := [batch * (outH * outW); channels * dh kernel * dw kernel] in
    finish rsh (loop6 batch channels outH outW (dh kernel) (dw kernel) (fresh (numel rsh)) (fun r b c h w i j =>
      let dst := colOffset channels outH outW kernel b c h w i j in
      match pixelOffset channels height width stride padding b c h w i j with
      | Some src => obind (rd (tdata t) src) (fun x => put r dst x)
      | None => put r dst zero
      end))
  end.
(** OpLinalgCpu.h:73-116, [col2imOpCpuImpl]. *)
Definition col2im {K : cring} (t : tensor K) (shape : list nat) (kernel stride padding : dim2) : res (tensor K) :=
  match geometry shape kernel stride padding with
  | UB => UB | Fail => Fail
  | Ok (batch, channels, height, width, outH, outW) =>
    match loop6 batch channels outH outW (dh kernel) (dw kernel) (repeat zero (numel shape)) (fun r b c h w i j =>
      match pixelOffset channels height width stride padding b c h w i j with
      | Some dst => obind (rd (tdata t) (colOffset channels outH outW kernel b c h w i j)) (fun x =>
                    obind (rd r dst) (fun y => wr r dst (add y x)))
      | None => Some r
      end) with
    | None => UB
    | Some d => Ok (mkT shape d)
    end
  end.

(** * Convolution *)
(** [reshape_] with -1 allowed (ShapeModel), on a contiguous tensor.
    TensorImpl.cpp:48-91. *)
Definition viewZ {A} (t : tensor A) (shape : list Z) : tensor A :=
  let v := reshape_ (newView (map Z.of_nat (tshape t)) (tdata t)) shape in
  mkT (map Z.to_nat (vshape v)) (vdata v).
(** FuncNNLayer.h:145-179, [FuncConv2D::forward].  Adding the bias is the
    broadcast in-place addition of BcastModel. *)
Definition conv2d {K : cring} (input weight : tensor K) (bias : option (tensor K)) (stride padding : dim2) : res (tensor K) :=
  match tshape input, tshape weight with
  | [n; c; h; w], [oc; ic; kh; kw] =>
    if negb (c =? ic) then Fail else
    rbind (geometry (tshape input) (D2 kh kw) stride padding) (fun g =>
    let '(_, _, _, _, outH, outW) := g in
    rbind (im2col input (D2 kh kw) stride padding) (fun col =>
    rbind (matmul col (viewZ weight [Z.of_nat oc; -1]%Z) false true) (fun ret =>
    rbind (match bias with
           | None => Ok ret
           | Some bias =>
             if list_eqb (tshape bias) [oc]
             then elementwise_inplace (fun l => match l with [x; y] => add x y | _ => zero end) ret [Some bias]
             else Fail
           end) (fun ret => Ok (viewAs ret [n; oc; outH; outW])))))
  | _, _ => Fail
  end.
(** FuncNNLayer.h:181-209, [FuncConv2D::backward]: the gradients handed to the
    input, the weight and the bias. *)
Definition conv2dBackward {K : cring} (input weight grad : tensor K) (stride padding : dim2)
  : res (tensor K * tensor K * tensor K) :=
  match tshape weight with
  | [oc; ic; kh; kw] =>
    let gradW := viewZ grad [-1; Z.of_nat oc]%Z in
    let colW := viewZ weight [Z.of_nat oc; -1]%Z in
    rbind (matmul gradW colW false false) (fun gradCol =>
    rbind (col2im gradCol (tshape input) (D2 kh kw) stride padding) (fun inputGrad =>
    rbind (im2col input (D2 kh kw) stride padding) (fun col =>
    rbind (matmul col gradW true false) (fun gradColW =>
    rbind (permuteAll gradColW) (fun p =>
    rbind (sumOnDims gradW [0%Z] false) (fun biasGrad =>
    Ok (inputGrad, viewAs p (tshape weight), biasGrad)))))))
  | _ => UB
  end.

(** * Max pooling *)
(** FuncNNLayer.h:79-109, [FuncMaxPool::forward]: the output and the saved
    indices.  [lt] and [lowest] as for max (ReduceModel). *)
Definition maxPool {K : cring} (lt : K -> K -> bool) (lowest : K) (input : tensor K) (kernel stride padding : dim2)
  : res (tensor K * tensor nat) :=
  rbind (geometry (tshape input) kernel stride padding) (fun g =>
  let '(batch, channels, _, _, outH, outW) := g in
  rbind (im2col input kernel stride padding) (fun col =>
  rbind (extremeDim (opMax lt lowest) (viewZ col [-1; Z.of_nat (dh kernel * dw kernel)]%Z) 1 false) (fun p =>
  Ok (viewAs (fst p) [batch; channels; outH; outW], snd p)))).
(** FuncNNLayer.h:111-140, [FuncMaxPool::backward]; [indexPutAdvance]
    (OpTransformCpu.h:144-179) with the row numbers and the saved indices:
    [gradCol[r][maxIndices[r]] = grad[r]]. *)
Definition maxPoolBackward {K : cring} (shape : list nat) (maxIndices : tensor nat) (grad : tensor K) (kernel stride padding : dim2)
  : res (tensor K) :=
  rbind (geometry shape kernel stride padding) (fun g =>
  let '(batch, channels, _, _, outH, outW) := g in
  let ks := dh kernel * dw kernel in
  match loop (seq 0 (tnumel grad)) (repeat zero (tnumel grad * ks)) (fun r i =>
          obind (rd (tdata maxIndices) i) (fun m => obind (rd (tdata grad) i) (fun x => wr r (i * ks + m) x))) with
  | None => UB
  | Some d => col2im (viewAs (mkT [tnumel grad; ks] d) [batch * outH * outW; channels * dh kernel * dw kernel]) shape kernel stride padding
  end).
