(* Losses of CUDA tensors: src/Operation/OpLossCuda.cuh, over the real numbers.

   A host function is the tensor it returns and the launches it makes, in order.
   Buffers are passed in: mo, mt and ms are those of the mean or the sum (its
   result, its partial sums, its factor). *)
From Coq Require Import List Arith ZArith Bool Reals.
From Verif Require Import ShapeModel TensorModel BcastModel BufModel CutModel ReduceModel GpuModel CudaModel CudaFillModel CudaMoveModel CudaReduceModel CudaMeanModel LossModel.
Import ListNotations.

(* Model only: a thread of a kernel on elements, in a memory that also has
   indices (CudaMoveModel): an index read as an element is an error. *)
Fixpoint onEl {A} (p : thr A) : thr (word A) :=
  match p with
  | Done => Done
  | Ld a k => Ld a (fun w => match w with El v => onEl (k v) | Ix _ => Trap end)
  | St a v k => St a (El v) (onEl k)
  | SLd a k => SLd a (fun w => match w with El v => onEl (k v) | Ix _ => Trap end)
  | SSt a v k => SSt a (El v) (onEl k)
  | Sync k => Sync (onEl k)
  | Shfl v d k => Shfl (El v) d (fun w => match w with El v => onEl (k v) | Ix _ => Trap end)
  | Trap => Trap
  end.
(* Model only: the launch. *)
Definition typed {A} (l : launch A) : launch (word A) := mkLaunch (grid l) (bdim l) (shar l) (fun b t => onEl (code l b t)).
(* Model only: int64 addition and multiplication of words. *)
Definition ixOp {A} (f : Z -> Z -> Z) (x y : word A) : word A := match x, y with Ix a, Ix b => Ix (f a b) | _, _ => x end.

(* mulInplace and divInplace (OpElemWiseCuda.cuh:426-435, 497-506) with
   Tensor::scalar (Tensor.cpp:29-33), as at OpLossCuda.cuh:46, 63, 88; s is the
   scalar's buffer. *)
Definition byScalarCuda (f : R -> R -> R) (t : dtensor) (r : R) (s : nat) : res (list (launch R)) :=
  match elementwiseOutCuda (fun vs => f (nth 0 vs 0%R) (nth 1 vs 0%R)) [t; mkD s []] t with
  | UB => UB | Fail => Fail
  | Ok l => Ok [fillCuda s r 1; l]
  end.
(* OpReduceCuda.cuh:722-725 with what it returns: a scalar is returned as it is. *)
Definition sumCuda (t : dtensor) (out tmp : nat) : res (dtensor * list (launch R)) :=
  match sumAllCuda (K := Rring) t out tmp with
  | UB => UB | Fail => Fail
  | Ok (_, None) => Ok (t, [])
  | Ok (rsh, Some ls) => Ok (mkD out rsh, ls)
  end.
(* OpLossCuda.cuh:22-29 and 64-71.  There is no break: MEAN goes on to SUM, of a
   scalar. *)
Definition reduceLossCuda (red : reduction) (t : dtensor) (mo mt ms : nat) : res (dtensor * list (launch R)) :=
  match red with
  | MEAN => rbind (meanCuda t mo mt ms) (fun '(u, ls) => rbind (sumCuda u mo mt) (fun '(u, ls') => Ok (u, ls ++ ls')))
  | SUM => sumCuda t mo mt
  | NONE => Ok (t, [])
  end.

(* OpLossCuda.cuh:15-32 mseLossOpCudaImpl. *)
Definition mseLossCuda (input target : dtensor) (red : reduction) (out mo mt ms : nat) : res (dtensor * list (launch R)) :=
  rbind (elementwiseCuda (fun vs => (nth 0 vs 0 - nth 1 vs 0) * (nth 0 vs 0 - nth 1 vs 0))%R [input; target] out) (fun '(sh, l) =>
  rbind (reduceLossCuda red (mkD out sh) mo mt ms) (fun '(t, ls) => Ok (t, l :: ls))).
(* OpLossCuda.cuh:34-53 mseLossOpBackwardCudaImpl. *)
Definition mseBackwardCuda (grad input target : dtensor) (red : reduction) (out s : nat) : res (dtensor * list (launch R)) :=
  rbind (elementwiseCuda (fun vs => 2 * (nth 0 vs 0 - nth 1 vs 0) * nth 2 vs 0)%R [input; target; grad] out) (fun '(sh, l) =>
  match red with
  | MEAN => rbind (byScalarCuda Rdiv (mkD out sh) (INR (numel (dshape input))) s) (fun ls => Ok (mkD out sh, l :: ls))
  | _ => Ok (mkD out sh, [l])
  end).
(* Tensor.h:328-334, arange<int64_t>(0, n, 1) with fillLinSpace_
   (OpFillingCuda.cuh:190-201); as at OpLossCuda.cuh:60, 81. *)
Definition arangeCuda (idx n : nat) : res (launch (word R)) :=
  fillLinSpaceCuda (ixOp Z.add) (ixOp Z.mul) (@Ix R) (mkD idx [n]) (Ix 0%Z) (Ix 1%Z) (Z.of_nat n).
(* OpLossCuda.cuh:55-74 nllLossOpCudaImpl.  A scalar input has no dimension 0. *)
Definition nllLossCuda (input target : dtensor) (red : reduction) (idx out s mo mt ms : nat) : res (dtensor * list (launch (word R))) :=
  if negb (length (dshape target) =? 1) then Fail else
  match dshape input with
  | [] => UB
  | batchSize :: _ =>
    rbind (arangeCuda idx batchSize) (fun l1 =>
    rbind (indexAdvanceCuda input [mkD idx [batchSize]; target] out) (fun '(sh, l2) =>
    rbind (byScalarCuda Rmult (mkD out sh) (-1) s) (fun ls3 =>
    rbind (reduceLossCuda red (mkD out sh) mo mt ms) (fun '(t, ls4) =>
    Ok (t, l1 :: l2 :: map typed (ls3 ++ ls4))))))
  end.
(* OpLossCuda.cuh:76-95 nllLossOpBackwardCudaImpl.  grad is not used; v is the
   buffer of the scalar -1. *)
Definition nllBackwardCuda (grad input target : dtensor) (red : reduction) (idx out v s : nat) : res (dtensor * list (launch (word R))) :=
  if negb (length (dshape target) =? 1) then Fail else
  match dshape input with
  | [] => UB
  | batchSize :: _ =>
    rbind (arangeCuda idx batchSize) (fun l1 =>
    let l2 := fillCuda out (El 0%R) (Z.of_nat (numel (dshape input))) in
    let l3 := fillCuda v (El (-1)%R) 1 in
    let o := mkD out (dshape input) in
    rbind (indexPutAdvanceCuda o [mkD idx [batchSize]; target] (mkD v [])) (fun l4 =>
    match red with
    | MEAN => rbind (byScalarCuda Rdiv o (INR batchSize) s) (fun ls => Ok (o, l1 :: l2 :: l3 :: l4 :: map typed ls))
    | _ => Ok (o, [l1; l2; l3; l4])
    end))
  end.
