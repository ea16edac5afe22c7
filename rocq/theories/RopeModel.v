(** Rotary position embedding: src/Operation/OpNNLayerCpu.h:250-354.  Elements
    are real numbers (no rounding). *)
From Coq Require Import ZArith List Bool Arith Reals.
From Verif Require Import ShapeModel TensorModel BcastModel BufModel ReduceModel.
Import ListNotations.
Open Scope R_scope.

(** OpNNLayer.h:13-22, [RopeScalingConfig]. *)
Record scaling := mkScaling { factor : R; highFreq : R; lowFreq : R; origLen : R }.
(** OpNNLayerCpu.h:262-264. *)
Definition invFreq0 (headDim : nat) (theta : R) (i : nat) : R := 1 / Rpower theta (INR (2 * i) / INR headDim).
(** OpNNLayerCpu.h:267-284. *)
Definition rescale (s : scaling) (f : R) : R :=
  let lowWaveLen := origLen s / lowFreq s in
  let highWaveLen := origLen s / highFreq s in
  let waveLen := 2 * PI / f in
  if Rlt_dec lowWaveLen waveLen then f / factor s
  else if Rlt_dec waveLen highWaveLen then f
  else let smooth := (origLen s / waveLen - lowFreq s) / (highFreq s - lowFreq s) in
       let scaled := f / factor s in
       (1 - smooth) * scaled + smooth * f.
(** OpNNLayerCpu.h:267-284. *)
Definition invFreq (headDim : nat) (theta : R) (sc : option scaling) (i : nat) : R :=
  match sc with None => invFreq0 headDim theta i | Some s => rescale s (invFreq0 headDim theta i) end.
(** OpNNLayerCpu.h:250-308 with the frequencies [f]; four writes per pair. *)
Definition ropeTable (headDim ctx : nat) (f : nat -> R) : res (tensor R) :=
  if (headDim mod 2 =? 0)%nat then
    let half := (headDim / 2)%nat in
    let sh := [ctx; headDim; 2%nat] in
    finish sh (loop (seq 0 ctx) (fresh (numel sh)) (fun out pos => loop (seq 0 half) out (fun out i =>
      let angle := INR pos * f i in
      let offset1 := ((pos * headDim + i) * 2)%nat in
      let offset2 := ((pos * headDim + half + i) * 2)%nat in
      obind (put out offset1 (cos angle)) (fun out =>
      obind (put out (offset1 + 1) (sin angle)) (fun out =>
      obind (put out offset2 (cos angle)) (fun out =>
      put out (offset2 + 1) (sin angle)))))))
  else Fail.
(** OpNNLayerCpu.h:250-308. *)
Definition ropeInit (headDim ctx : nat) (theta : R) (sc : option scaling) : res (tensor R) :=
  ropeTable headDim ctx (invFreq headDim theta sc).
(** OpNNLayerCpu.h:310-354; [ropeRow[idx]] is at [posIndex * headDim * 2 + idx],
    with a signed position. *)
Definition ropeApply (input rope : tensor R) (offset : Z) : res (tensor R) :=
  match tshape input with
  | [batch; numHead; seqLen; headDim] =>
    if (headDim mod 2 =? 0)%nat then
      let half := (headDim / 2)%nat in
      finish (tshape input)
        (loop (seq 0 batch) (fresh (numel (tshape input))) (fun out b => loop (seq 0 numHead) out (fun out h => loop (seq 0 seqLen) out (fun out t =>
          let base := (((b * numHead + h) * seqLen + t) * headDim)%nat in
          let row := ((offset + Z.of_nat t) * Z.of_nat headDim * 2)%Z in
          loop (seq 0 half) out (fun out i =>
            obind (rd (tdata input) (base + i)) (fun x1 => obind (rd (tdata input) (base + (half + i))) (fun x2 =>
            obind (rdZ (tdata rope) (row + Z.of_nat (i * 2))) (fun c => obind (rdZ (tdata rope) (row + Z.of_nat (i * 2) + 1)) (fun s =>
            obind (put out (base + i) (x1 * c - x2 * s)) (fun out =>
            put out (base + (half + i)) (x2 * c + x1 * s)))))))))))
    else Fail
  | _ => Fail
  end.
