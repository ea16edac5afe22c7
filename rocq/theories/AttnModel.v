(** Scaled dot-product attention: src/Function/FuncNNLayer.h:239-281.  Real
    arithmetic without rounding; the only infinity is the -inf of masked scores,
    written [None]; a NaN among the attention weights is a separate outcome. *)
From Coq Require Import ZArith List Bool Arith Reals.
From Verif Require Import ShapeModel TensorModel BcastModel BufModel CutModel ReduceModel PermModel LinalgModel LineModel SoftmaxModel
  DropModel MaskModel.
Import ListNotations.
Open Scope R_scope.

(** A score: a number, or -inf.  Model only: the values of
    FuncNNLayer.h:250-290. *)
Definition score := option R.
(** a + b, for numbers and -inf.  Model only: as at FuncNNLayer.h:280. *)
Definition scoreAdd (a b : score) : score := match a, b with Some x, Some y => Some (x + y) | _, _ => None end.
(** OpNNLayerCpu.h:29-37: -inf is never greater than the running maximum. *)
Definition scoreMax (lo : R) (l : list score) : R :=
  fold_left (fun m v => match v with Some v => if Rlt_dec m v then v else m | None => m end) l lo.
(** exp(v - max); exp(-inf) = 0.  Overflow: [None].  OpNNLayerCpu.h:39-46. *)
Definition scoreExp (M mx : R) (v : score) : option R := match v with Some x => expf M (x - mx) | None => Some 0 end.
(** OpNNLayerCpu.h:28-54, one line of softmax on scores.  When every exponential
    is 0 their sum is 0, its inverse inf, and each of them times inf is NaN:
    [None] elements. *)
Definition scoreLine (lo M : R) (l : list score) : option (list (option R)) :=
  obind (seqopt (map (scoreExp M (scoreMax lo l)) l)) (fun es =>
    let s := total es in
    Some (map (fun e => if Req_EM_T s 0 then None else Some (e * (1 / s))) es)).
(** The mask argument: of type Bool, or added to the scores.
    FuncNNLayer.h:250-267. *)
Inductive attnMask := BoolMask (t : tensor bool) | AddMask (t : tensor score).
(** Tensor.h:115 with TensorImpl.h: [size(d)] for negative d, unchecked. *)
Definition sizeFromEnd (t : list nat) (d : nat) : option nat := if (length t <? d)%nat then None else nth_error t (length t - d).
(** [Tensor::zeros], Tensor.cpp:41-45. *)
Definition zeros (sh : list nat) : tensor score := mkT sh (repeat (Some 0) (numel sh)).
(** Model only: a function on every element. *)
Definition tmap {A B} (f : A -> B) (t : tensor A) : tensor B := mkT (tshape t) (map f (tdata t)).
(** Model only. *)
Definition ofOption {A} (o : option A) : res A := match o with None => UB | Some x => Ok x end.
(** OpElemWiseCpu.h:130-140, with -inf. *)
Definition addScores (l : list score) : score := scoreAdd (nth 0 l None) (nth 1 l None).
(** FuncNNLayer.h:250-267: the tensor added to the scores, if any. *)
Definition attnBias (L S : nat) (isCausal : bool) (mask : option attnMask) : res (option (tensor score)) :=
  if isCausal then
    match mask with
    | Some _ => Fail
    | None =>
      rbind (tril false (mkT [L; S] (repeat true (L * S))) 0) (fun tempMask =>
      rbind (ofOption (unary negb tempMask)) (fun m =>
      rbind (fillMaskedInplace (zeros [L; S]) m None) (fun b => Ok (Some b))))
    end
  else
    match mask with
    | None => Ok None
    | Some (BoolMask t) =>
      rbind (ofOption (unary negb t)) (fun m => rbind (fillMaskedInplace (zeros (tshape t)) m None) (fun b => Ok (Some b)))
    | Some (AddMask t) => rbind (elementwise_inplace addScores (zeros (tshape t)) [Some t]) (fun b => Ok (Some b))
    end.
(** FuncNNLayer.h:241-277.  [None] as the result stands for a result that contains
    NaN (some line of weights was NaN).  [scale] is the optional argument, [draws]
    the random bits of op::dropout, whose parameter is [dropoutOpParam dropoutP]. *)
Definition sdpAttention (lo M : R) (query key value : tensor R) (isCausal : bool) (mask : option attnMask)
    (dropoutP : R) (scale : option R) (draws : list bool) : res (option (tensor R)) :=
  rbind (ofOption (sizeFromEnd (tshape query) 2)) (fun L =>
  rbind (ofOption (sizeFromEnd (tshape key) 2)) (fun S =>
  rbind (ofOption (sizeFromEnd (tshape query) 1)) (fun E =>
  let scaleFactor := match scale with Some s => s | None => 1 / sqrt (INR E) end in
  rbind (transpose key (-2) (-1)) (fun keyT =>
  rbind (matmul (K := Rring) query keyT false false) (fun w =>
  rbind (elementwise_inplace (fun l => nth 0 l 0 * nth 1 l 0) w [Some (mkT [] [scaleFactor])]) (fun w =>
  rbind (attnBias L S isCausal mask) (fun bias =>
  rbind (match bias with None => Ok (tmap Some w) | Some b => elementwise_inplace addScores (tmap Some w) [Some b] end) (fun scores =>
  rbind (softmaxWith (scoreLine lo M) scores (-1)) (fun weights =>
  match seqopt (tdata weights) with
  | None => Ok None
  | Some ws =>
    rbind (if Rlt_dec 0 dropoutP then dropoutOp (mkT (tshape weights) ws) dropoutP draws else Ok (mkT (tshape weights) ws)) (fun ws =>
    rbind (matmul (K := Rring) ws value false false) (fun r => Ok (Some r)))
  end))))))))).
