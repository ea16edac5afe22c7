(** Forward and backward rules of the differentiable element-wise functions:
    src/Function/FuncElemWise.h, FuncActivation.h (relu), FuncReduce.h (sum), with
    the kernels of src/Operation/OpElemWiseCpu.h, over the reals (no rounding). *)
From Coq Require Import ZArith List Bool Arith Reals.
From Verif Require Import ShapeModel TensorModel BcastModel ReduceModel.
Import ListNotations.
Open Scope R_scope.

(** OpElemWiseCpu.h:375-383 and 405-414: two and three operands. *)
Definition binary (f : R -> R -> R) (a b : tensor R) : res (tensor R) :=
  elementwise (fun l => f (nth 0 l 0) (nth 1 l 0)) [a; b].
(** OpElemWiseCpu.h:405-414. *)
Definition ternary (f : R -> R -> R -> R) (a b c : tensor R) : res (tensor R) :=
  elementwise (fun l => f (nth 0 l 0) (nth 1 l 0) (nth 2 l 0)) [a; b; c].
(** OpElemWiseCpu.h:296-305. *)
Definition unaryR (f : R -> R) (a : tensor R) : res (tensor R) := match unary f a with None => UB | Some r => Ok r end.
(** OpElemWiseCpu.h:326-337. *)
Definition unaryBackward (f : R -> R -> R) (grad self : tensor R) : res (tensor R) :=
  if list_eqb (tshape self) (tshape grad) then
    match tab (tnumel self) (fun i => obind (rd (tdata self) i) (fun s => obind (rd (tdata grad) i) (fun g => Some (f s g)))) with
    | None => UB
    | Some d => Ok (mkT (tshape self) d)
    end
  else Fail.
(** [reduceGrad(self, ...)] of the result of an operation.  As called throughout
    FuncElemWise.h:71-158. *)
Definition reduceTo (self : tensor R) (r : res (tensor R)) : res (tensor R) :=
  match r with
  | UB => UB | Fail => Fail
  | Ok g => match reduceGrad (K := Rring) (tshape self) g with None => UB | Some r => Ok r end
  end.

(** OpElemWiseCpu.h:65-91. *)
Definition opSin (a : R) := sin a.
(** OpElemWiseCpu.h:72-77. *)
Definition opSinBackwardP1 (self grad : R) := cos self * grad.
(** OpElemWiseCpu.h:79-84. *)
Definition opCos (a : R) := cos a.
(** OpElemWiseCpu.h:86-91. *)
Definition opCosBackwardP1 (self grad : R) := - sin self * grad.
(** OpElemWiseCpu.h:130-173. *)
Definition opAdd (alpha a b : R) := a + alpha * b.
(** OpElemWiseCpu.h:142-152. *)
Definition opSub (alpha a b : R) := a - alpha * b.
(** OpElemWiseCpu.h:154-159. *)
Definition opMul (a b : R) := a * b.
(** OpElemWiseCpu.h:161-166. *)
Definition opDiv (a b : R) := a / b.
(** OpElemWiseCpu.h:168-173. *)
Definition opDivBackwardP2 (self other grad : R) := grad * - self / (other * other).
(** [std::pow]: for a positive base, or an integer exponent.  Where the result
    is not a number or infinite the model has an arbitrary value; the theorems
    exclude these points.  As called at OpElemWiseCpu.h:175-194. *)
Definition stdpow (a b : R) : R :=
  if Rlt_dec 0 a then Rpower a b
  else if Req_EM_T (IZR (Int_part b)) b then powerRZ a (Int_part b) else 0.
(** OpElemWiseCpu.h:175-194. *)
Definition opPow (a b : R) := stdpow a b.
(** OpElemWiseCpu.h:182-187. *)
Definition opPowBackwardP1 (a b grad : R) := grad * b * stdpow a (b - 1).
(** OpElemWiseCpu.h:189-194. *)
Definition opPowBackwardP2 (a b grad : R) := grad * stdpow a b * ln a.
(** OpElemWiseCpu.h:273-278, 224-229. *)
Definition opClampMin (a minVal : R) := if Rlt_dec a minVal then minVal else a.
(** OpElemWiseCpu.h:224-229. *)
Definition opLt (a b : R) : bool := if Rlt_dec a b then true else false.

(** FuncElemWise.h:39-63. *)
Definition sinForward := unaryR opSin.
(** FuncElemWise.h:43-49. *)
Definition sinBackward (self grad : tensor R) := unaryBackward opSinBackwardP1 grad self.
(** FuncElemWise.h:54. *)
Definition cosForward := unaryR opCos.
(** FuncElemWise.h:56-62. *)
Definition cosBackward (self grad : tensor R) := unaryBackward opCosBackwardP1 grad self.
(** FuncElemWise.h:71-88; the results are the gradients of the two operands. *)
Definition addForward (alpha : R) := binary (opAdd alpha).
(** FuncElemWise.h:77-87. *)
Definition addBackward (self other grad : tensor R) := (reduceTo self (Ok grad), reduceTo other (Ok grad)).
(** FuncElemWise.h:90-107. *)
Definition subForward (alpha : R) := binary (opSub alpha).
(** FuncElemWise.h:96-106. *)
Definition subBackward (self other grad : tensor R) := (reduceTo self (Ok grad), reduceTo other (unaryR Ropp grad)).
(** FuncElemWise.h:109-124. *)
Definition mulForward := binary opMul.
(** FuncElemWise.h:113-123. *)
Definition mulBackward (self other grad : tensor R) :=
  (reduceTo self (binary opMul grad other), reduceTo other (binary opMul grad self)).
(** FuncElemWise.h:126-141. *)
Definition divForward := binary opDiv.
(** FuncElemWise.h:130-140. *)
Definition divBackward (self other grad : tensor R) :=
  (reduceTo self (binary opDiv grad other), reduceTo other (ternary opDivBackwardP2 self other grad)).
(** FuncElemWise.h:143-158. *)
Definition powForward := binary opPow.
(** FuncElemWise.h:147-157. *)
Definition powBackward (self other grad : tensor R) :=
  (reduceTo self (ternary opPowBackwardP1 self other grad), reduceTo other (ternary opPowBackwardP2 self other grad)).

(** OpFillingCpu.h:30-48, [fillMasked]. *)
Definition fillMasked (self : tensor R) (mask : tensor bool) (val : R) : res (tensor R) :=
  if list_eqb (tshape mask) (tshape self) then
    match tab (tnumel self) (fun i => obind (rd (tdata mask) i) (fun m => if m then Some val else rd (tdata self) i)) with
    | None => UB
    | Some d => Ok (mkT (tshape self) d)
    end
  else Fail.
(** FuncActivation.h:14-28, [FuncRelu]; [self < 0] is Tensor.cpp:305. *)
Definition reluForward (self : tensor R) := binary opClampMin self (mkT [] [0]).
(** FuncActivation.h:20-27. *)
Definition reluBackward (self grad : tensor R) : res (tensor R) :=
  match elementwise (fun l => opLt (nth 0 l 0) (nth 1 l 0)) [self; mkT [] [0]] with
  | UB => UB | Fail => Fail
  | Ok mask => fillMasked grad mask 0
  end.

(** FuncReduce.h:54-66, [FuncSum]. *)
Definition sumForward (self : tensor R) : res (tensor R) := sumAll (K := Rring) self.
(** FuncReduce.h:58-65. *)
Definition sumBackward (self grad : tensor R) : res (tensor R) := binary opMul grad (mkT (tshape self) (repeat 1 (tnumel self))).
