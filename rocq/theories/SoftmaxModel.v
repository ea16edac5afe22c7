(** Softmax and log-softmax: src/Operation/OpNNLayer.cpp, OpNNLayerCpu.h,
    src/Function/FuncActivation.h.  Elements are real numbers; rounding is not
    modelled, overflow of the exponential is. *)
From Coq Require Import ZArith List Bool Arith Reals.
From Verif Require Import ShapeModel TensorModel BcastModel BufModel ReduceModel LineModel.
Import ListNotations.
Open Scope R_scope.

(** [std::exp]: arguments above [M] overflow ([None]).  Underflow is not
    modelled.  As called at OpNNLayerCpu.h:39-46. *)
Definition expf (M x : R) : option R := if Rle_dec x M then Some (exp x) else None.
(** OpNNLayerCpu.h:29-37; [lo] is [-numeric_limits<T>::max()]. *)
Definition scanMax (lo : R) (l : list R) : R := fold_left (fun m v => if Rlt_dec m v then v else m) l lo.
(** OpNNLayerCpu.h:39-46: the exponentials, and their sum. *)
Definition expLine (M mx : R) (l : list R) : option (list R) := seqopt (map (fun v => expf M (v - mx)) l).
(** OpNNLayerCpu.h:39-46: the running sum. *)
Definition total (l : list R) : R := fold_left Rplus l 0.
(** OpNNLayerCpu.h:28-54, one line of softmax. *)
Definition softmaxLine (lo M : R) (l : list R) : option (list R) :=
  let mx := scanMax lo l in
  obind (expLine M mx l) (fun es => let invSum := 1 / total es in Some (map (fun e => e * invSum) es)).
(** OpNNLayerCpu.h:28-48, 55-61, one line of log-softmax. *)
Definition logSoftmaxLine (lo M : R) (l : list R) : option (list R) :=
  let mx := scanMax lo l in
  obind (expLine M mx l) (fun es => let logSum := ln (total es) in Some (map (fun v => v - mx - logSum) l)).
(** OpNNLayerCpu.h:92-104, one line; pairs (output, grad). *)
Definition softmaxBackLine (l : list (R * R)) : option (list R) :=
  let s := fold_left (fun s p => s + fst p * snd p) l 0 in
  Some (map (fun p => fst p * (snd p - s)) l).
(** OpNNLayerCpu.h:137-149. *)
Definition logSoftmaxBackLine (M : R) (l : list (R * R)) : option (list R) :=
  let s := fold_left (fun s p => s + snd p) l 0 in
  seqopt (map (fun p => obind (expf M (fst p)) (fun e => Some (snd p - e * s))) l).

(** OpNNLayerCpu.h:16-64 with OpNNLayer.cpp:11-26; 66-76 and 111-121. *)
Definition softmaxWith {A B} (f : list A -> option (list B)) (t : tensor A) (dim : Z) : res (tensor B) :=
  match axis (length (tshape t)) dim with
  | None => Fail
  | Some k =>
    let n := nth k (tshape t) 0%nat in
    lineKernel (tshape t) (outerSize (tshape t) k) (innerSize (tshape t) k) n
      (fun o i => obind (readLine (tdata t) n (innerSize (tshape t) k) o i) f)
  end.
(** OpNNLayerCpu.h:66-76. *)
Definition softmax (lo M : R) (t : tensor R) (dim : Z) : res (tensor R) := softmaxWith (softmaxLine lo M) t dim.
(** OpNNLayerCpu.h:111-121. *)
Definition logSoftmax (lo M : R) (t : tensor R) (dim : Z) : res (tensor R) := softmaxWith (logSoftmaxLine lo M) t dim.
(** OpNNLayerCpu.h:78-109 and 123-154. *)
Definition softmaxBackWith (f : list (R * R) -> option (list R)) (grad output : tensor R) (dim : Z) : res (tensor R) :=
  if list_eq_dec Nat.eq_dec (tshape output) (tshape grad) then
    match axis (length (tshape output)) dim with
    | None => Fail
    | Some k =>
      let n := nth k (tshape output) 0%nat in
      let inner := innerSize (tshape output) k in
      lineKernel (tshape output) (outerSize (tshape output) k) inner n
        (fun o i => obind (readLine (tdata output) n inner o i) (fun ys =>
                    obind (readLine (tdata grad) n inner o i) (fun gs => f (combine ys gs))))
    end
  else Fail.
(** OpNNLayerCpu.h:78-109. *)
Definition softmaxBackward (grad output : tensor R) (dim : Z) : res (tensor R) := softmaxBackWith softmaxBackLine grad output dim.
(** OpNNLayerCpu.h:123-154. *)
Definition logSoftmaxBackward (M : R) (grad output : tensor R) (dim : Z) : res (tensor R) := softmaxBackWith (logSoftmaxBackLine M) grad output dim.
(** FuncActivation.h:42-63 and 65-86: forward saves its output, backward uses it. *)
Definition softmaxGrad (lo M : R) (t : tensor R) (dim : Z) (grad : tensor R) : res (tensor R) :=
  match softmax lo M t dim with Ok y => softmaxBackward grad y dim | UB => UB | Fail => Fail end.
(** FuncActivation.h:65-86. *)
Definition logSoftmaxGrad (lo M : R) (t : tensor R) (dim : Z) (grad : tensor R) : res (tensor R) :=
  match logSoftmax lo M t dim with Ok y => logSoftmaxBackward M grad y dim | UB => UB | Fail => Fail end.
