(* Windows of images on the GPU: src/Operation/OpLinalgCuda.cuh:14-137.
   Elements are those of a commutative ring (no rounding). *)
From Coq Require Import List Arith ZArith Bool.
From Verif Require Import ShapeModel TensorModel BcastModel BufModel LinalgModel GpuModel CudaModel CudaFillModel CudaLineModel.
Import ListNotations.

Section Window.
Context {K : cring}.

(* OpLinalgCuda.cuh:14-46 kIm2Col: the item index. *)
Definition im2colItem (ret self : nat) (channels height width outH outW : Z) (kernelH kernelW strideH strideW paddingH paddingW : Z) (index : Z) : thr K :=
  let colH := (outH * outW)%Z in
  let kernelSize := (kernelH * kernelW)%Z in
  let kernelIdx := (index mod kernelSize)%Z in
  let colIdx := (index / kernelSize)%Z in
  let b := (colIdx / (channels * colH))%Z in
  let c := ((colIdx / colH) mod channels)%Z in
  let h := ((colIdx mod colH) / outW)%Z in
  let w := (colIdx mod outW)%Z in
  let kh := (kernelIdx / kernelW)%Z in
  let kw := (kernelIdx mod kernelW)%Z in
  let imPtr := ((b * channels + c) * height * width)%Z in
  let colPtr := (((b * colH + h * outW + w) * channels + c) * kernelSize)%Z in
  let ih := (h * strideH - paddingH + kh)%Z in
  let iw := (w * strideW - paddingW + kw)%Z in
  if ((ih >=? 0) && (ih <? height) && (iw >=? 0) && (iw <? width))%Z
  then Ld (self, imPtr + (ih * width + iw))%Z (fun val => St (ret, colPtr + (kh * kernelW + kw))%Z val Done)
  else St (ret, colPtr + (kh * kernelW + kw))%Z zero Done.

(* Model only: for (x = a; x <= b; x++), where a is not negative. *)
Definition from_to (a b : Z) : list nat := seq (Z.to_nat a) (Z.to_nat (b - a + 1)).

(* OpLinalgCuda.cuh:48-80 kCol2Im: the item index.  C++ division truncates. *)
Definition col2imItem (ret self : nat) (channels height width outH outW : Z) (kernelH kernelW strideH strideW paddingH paddingW : Z) (index : Z) : thr K :=
  let w := (index mod width)%Z in
  let h := ((index / width) mod height)%Z in
  let c := ((index / (width * height)) mod channels)%Z in
  let b := (index / (width * height * channels))%Z in
  let kernelSize := (kernelH * kernelW)%Z in
  let ohStart := Z.max 0 (Z.quot (h + paddingH - kernelH + strideH) strideH) in
  let ohEnd := Z.min (outH - 1) (Z.quot (h + paddingH) strideH) in
  let owStart := Z.max 0 (Z.quot (w + paddingW - kernelW + strideW) strideW) in
  let owEnd := Z.min (outW - 1) (Z.quot (w + paddingW) strideW) in
  each (from_to ohStart ohEnd) (fun oh val k =>
    each (from_to owStart owEnd) (fun ow val k =>
      let kh := (h - (Z.of_nat oh * strideH - paddingH))%Z in
      let kw := (w - (Z.of_nat ow * strideW - paddingW))%Z in
      let colIdx := (((b * outH * outW + Z.of_nat oh * outW + Z.of_nat ow) * channels + c) * kernelSize + (kh * kernelW + kw))%Z in
      Ld (self, colIdx) (fun x => k (add val x))) val k) zero (fun val => St (ret, index) val Done).

(* OpLinalgCuda.cuh:82-107 im2colOpCudaImpl; the sizes as in LinalgModel.geometry,
   which reads the same in OpLinalgCuda.cuh:84-91. *)
Definition im2colCuda (t : dtensor) (kernel stride padding : dim2) (out : nat) : res (list nat * launch K) :=
  match geometry (dshape t) kernel stride padding with
  | UB => UB | Fail => Fail
  | Ok (batch, channels, height, width, outH, outW) =>
    let rsh := [batch * (outH * outW); channels * dh kernel * dw kernel]%nat in
    Ok (rsh, kernel1d (Z.of_nat (numel rsh)) (im2colItem out (dbuf t) (Z.of_nat channels) (Z.of_nat height) (Z.of_nat width) (Z.of_nat outH) (Z.of_nat outW)
      (Z.of_nat (dh kernel)) (Z.of_nat (dw kernel)) (Z.of_nat (dh stride)) (Z.of_nat (dw stride)) (Z.of_nat (dh padding)) (Z.of_nat (dw padding))))
  end.

(* OpLinalgCuda.cuh:109-137 col2imOpCudaImpl: the launch that fills the result with
   zeros (Tensor::zeros) and the kernel. *)
Definition col2imCuda (t : dtensor) (shape : list nat) (kernel stride padding : dim2) (out : nat) : res (list nat * list (launch K)) :=
  match geometry shape kernel stride padding with
  | UB => UB | Fail => Fail
  | Ok (batch, channels, height, width, outH, outW) =>
    Ok (shape, [fillCuda out zero (Z.of_nat (numel shape));
      kernel1d (Z.of_nat (batch * channels * height * width)) (col2imItem out (dbuf t) (Z.of_nat channels) (Z.of_nat height) (Z.of_nat width) (Z.of_nat outH) (Z.of_nat outW)
        (Z.of_nat (dh kernel)) (Z.of_nat (dw kernel)) (Z.of_nat (dh stride)) (Z.of_nat (dw stride)) (Z.of_nat (dh padding)) (Z.of_nat (dw padding)))])
  end.
End Window.
