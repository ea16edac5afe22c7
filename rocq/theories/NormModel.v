(** Layer norm and RMS norm: src/Operation/OpNNLayerCpu.h:179-248.  Elements are
    real numbers (no rounding). *)
From Coq Require Import ZArith List Bool Arith Reals.
From Verif Require Import ShapeModel TensorModel BcastModel BufModel ReduceModel LineModel SoftmaxModel.
Import ListNotations.
Open Scope R_scope.

(** OpNNLayerCpu.h:215-216 and 230: an optional parameter is read at [j] through
    its raw pointer, whatever its size. *)
Definition scaleBy (w : option (list R)) (j : nat) (x : R) : option R :=
  match w with None => Some x | Some w => obind (rd w j) (fun c => Some (x * c)) end.
(** OpNNLayerCpu.h:215-216. *)
Definition shiftBy (b : option (list R)) (j : nat) (x : R) : option R :=
  match b with None => Some x | Some b => obind (rd b j) (fun c => Some (x + c)) end.
(** OpNNLayerCpu.h:199-218, one row [l] of [dim] elements. *)
Definition layerNormRow (w b : option (list R)) (eps : R) (dim : nat) (l : list R) : option (list R) :=
  let mean := total l / INR dim in
  let var := fold_left (fun v x => let diff := x - mean in v + diff * diff) l 0 / INR dim in
  let invStd := 1 / sqrt (var + eps) in
  seqopt (map (fun p => let normed := (snd p - mean) * invStd in
                        obind (scaleBy w (fst p) normed) (fun normed => shiftBy b (fst p) normed))
              (combine (seq 0 dim) l)).
(** OpNNLayerCpu.h:220-232. *)
Definition rmsNormRow (w : option (list R)) (eps : R) (dim : nat) (l : list R) : option (list R) :=
  let meanSquare := fold_left (fun v x => v + x * x) l 0 / INR dim in
  let invRms := 1 / sqrt (meanSquare + eps) in
  seqopt (map (fun p => scaleBy w (fst p) (snd p * invRms)) (combine (seq 0 dim) l)).
(** OpNNLayerCpu.h:182-195: [shape().back()] of a scalar and the division by a
    last dimension of size 0 are undefined; then one row after the other. *)
Definition normWith (row : nat -> list R -> option (list R)) (t : tensor R) (normalizedShape : list nat) : res (tensor R) :=
  match tshape t with
  | [] => UB
  | _ => let dim := last (tshape t) 0%nat in
         if (dim =? 0)%nat then UB
         else match normalizedShape with
              | [d] => if (d =? dim)%nat then
                         lineKernel (tshape t) (tnumel t / dim) 1 dim (fun o i => obind (readLine (tdata t) dim 1 o i) (row dim))
                       else Fail
              | _ => Fail
              end
  end.
(** OpNNLayerCpu.h:239-248. *)
Definition layerNorm (t : tensor R) (ns : list nat) (w b : option (tensor R)) (eps : R) : res (tensor R) :=
  normWith (layerNormRow (option_map tdata w) (option_map tdata b) eps) t ns.
(** OpNNLayerCpu.h:239-248. *)
Definition rmsNorm (t : tensor R) (ns : list nat) (w : option (tensor R)) (eps : R) : res (tensor R) :=
  normWith (rmsNormRow (option_map tdata w) eps) t ns.
