(* Rotary position embedding of CUDA tensors: src/Operation/OpNNLayerCuda.cuh:
   359-440 and 621-687.  Elements are real numbers (no rounding, no half
   precision).  Buffers are passed in: inv for the inverse frequencies, out for
   the result. *)
From Coq Require Import List Arith ZArith Bool Reals.
From Verif Require Import ShapeModel TensorModel BcastModel BufModel RopeModel GpuModel CudaModel CudaMoveModel CudaLineModel.
Import ListNotations.

(* OpNNLayerCuda.cuh:359-366 kRopeComputeInvFreq, launched by 635-636; idx << 1
   is unsigned, 32 bits. *)
Definition kRopeComputeInvFreq (inv half : nat) (theta : R) : launch R :=
  kernel1d (Z.of_nat half) (fun i =>
    St (inv, i) (1 / Rpower theta (IZR ((i * 2) mod 2 ^ 32) / IZR (Z.of_nat half * 2)))%R Done).

(* OpNNLayerCuda.cuh:368-388 kRopeApplyScaling, launched by 640-642. *)
Definition kRopeApplyScaling (inv half : nat) (s : scaling) : launch R :=
  kernel1d (Z.of_nat half) (fun i =>
    Ld (inv, i) (fun f =>
    let waveLen := (2 * PI / f)%R in
    let lowWaveLen := (origLen s / lowFreq s)%R in
    let highWaveLen := (origLen s / highFreq s)%R in
    if Rlt_dec lowWaveLen waveLen then Ld (inv, i) (fun g => St (inv, i) (g / factor s)%R Done)
    else if Rlt_dec waveLen highWaveLen then Done
    else let smooth := ((origLen s / waveLen - lowFreq s) / (highFreq s - lowFreq s))%R in
         let scaled := (f / factor s)%R in
         St (inv, i) ((1 - smooth) * scaled + smooth * f)%R Done)).

(* OpNNLayerCuda.cuh:390-410 kRopePrecomputeCosSin, launched by 650-653 with one
   block per position.  The 32-bit loop index is not wrapped: it would be beyond
   2^32 - 512 pairs. *)
Definition kRopePrecomputeCosSin (inv rope ctx headDim : nat) : launch R :=
  mkLaunch ctx blockSize (fun _ => false) (fun pos t =>
    if (pos <? ctx)%nat then
      let half := (headDim / 2)%nat in
      each (strided half t blockSize half) (fun i _ k =>
        Ld (inv, Z.of_nat i) (fun f =>
        let angle := (INR pos * f)%R in
        let offset1 := Z.of_nat ((pos * headDim + i) * 2) in
        let offset2 := Z.of_nat ((pos * headDim + half + i) * 2) in
        St (rope, offset1) (cos angle) (
        St (rope, offset1 + 1)%Z (sin angle) (
        St (rope, offset2) (cos angle) (
        St (rope, offset2 + 1)%Z (sin angle) (k tt))))))
      tt (fun _ => Done)
    else Done).

(* OpNNLayerCuda.cuh:621-656 ropeInitOpCudaImpl: the shape of the table and the
   launches. *)
Definition ropeInitCuda (headDim ctx : nat) (theta : R) (sc : option scaling) (inv out : nat) : res (list nat * list (launch R)) :=
  if (headDim mod 2 =? 0)%nat then
    let half := (headDim / 2)%nat in
    Ok ([ctx; headDim; 2%nat],
        [kRopeComputeInvFreq inv half theta]
        ++ match sc with Some s => [kRopeApplyScaling inv half s] | None => [] end
        ++ [kRopePrecomputeCosSin inv out ctx headDim])
  else Fail.

(* OpNNLayerCuda.cuh:412-440 kRopeApply, thread tx of block (bx, by). *)
Definition ropeAt (input rope out : nat) (batch numHead seqLen headDim : nat) (offset : Z) (bx by_ tx : nat) : thr R :=
  let b := (bx / numHead)%nat in
  let h := (bx mod numHead)%nat in
  let t := gidx blockSize by_ tx in
  if ((b <? batch)%nat && (t <? Z.of_nat seqLen)%Z)%bool then
    let base := ((Z.of_nat (b * numHead + h) * Z.of_nat seqLen + t) * Z.of_nat headDim)%Z in
    let row := ((offset + t) * Z.of_nat headDim * 2)%Z in
    let half := (headDim / 2)%nat in
    each (seq 0 half) (fun i _ k =>
      let i := Z.of_nat i in
      Ld (input, base + i)%Z (fun x1 =>
      Ld (input, base + (Z.of_nat half + i))%Z (fun x2 =>
      Ld (rope, row + i * 2)%Z (fun c =>
      Ld (rope, row + i * 2 + 1)%Z (fun s =>
      St (out, base + i)%Z (x1 * c - x2 * s)%R (
      St (out, base + (Z.of_nat half + i))%Z (x2 * c + x1 * s)%R (k tt)))))))
    tt (fun _ => Done)
  else Done.

(* OpNNLayerCuda.cuh:658-687 ropeApplyOpCudaImpl; the sizes of a grid are
   32-bit. *)
Definition ropeApplyCuda (input rope : dtensor) (offset : Z) (out : nat) : res (list nat * launch R) :=
  match dshape input with
  | [batch; numHead; seqLen; headDim] =>
    if (headDim mod 2 =? 0)%nat then
      Ok (dshape input,
          launch3 (Z.of_nat (batch * numHead) mod 2 ^ 32) (gridSize (Z.of_nat blockSize) (Z.of_nat seqLen) 1) 1 blockSize 1 (fun _ => false)
            (fun bx by_ _ tx _ => ropeAt (dbuf input) (dbuf rope) out batch numHead seqLen headDim offset bx by_ tx))
    else Fail
  | _ => Fail
  end.
