(** arange and linspace: src/Tensor/Tensor.h:327-347, src/Operation/OpFillingCpu.h:66-76. *)
From Coq Require Import ZArith List Bool Arith Reals.
From Flocq Require Import Core.Raux.
From Verif Require Import ShapeModel TensorModel BcastModel.
Import ListNotations.

(** OpFillingCpu.h:66-76 on a fresh one-dimensional tensor of [steps] elements; a
    negative size is not a size. *)
Definition fillLinSpace {A} (add mul : A -> A -> A) (cast : Z -> A) (start step : A) (steps : Z) : res (tensor A) :=
  if (steps <? 0)%Z then UB
  else Ok (mkT [Z.to_nat steps] (map (fun i => add start (mul (cast (Z.of_nat i)) step)) (seq 0 (Z.to_nat steps)))).
(** Tensor.h:327-334 for integer element types: the quotient is C++ integer
    division.  (Simplification: unbounded integers; std::ceil converts the
    quotient to double, exact up to 2^53.) *)
Definition arangeZ (start stop step : Z) : res (tensor Z) :=
  if (step =? 0)%Z then UB else fillLinSpace Z.add Z.mul (fun i => i) start step (Z.quot (stop - start) step).
(** Tensor.h:327-334 for floating point, without rounding; a zero step divides by
    zero, and converting the infinite or NaN quotient is undefined. *)
Definition arangeR (start stop step : R) : res (tensor R) :=
  if Req_EM_T step 0 then UB else fillLinSpace Rplus Rmult IZR start step (Zceil ((stop - start) / step)).
(** Tensor.h:336-347 for integers and reals. *)
Definition linspaceZ (start stop : Z) (steps : Z) : res (tensor Z) :=
  if (0 <? steps)%Z
  then fillLinSpace Z.add Z.mul (fun i => i) start (if 1 <? steps then Z.quot (stop - start) (steps - 1) else 0)%Z steps
  else Fail.
(** Tensor.h:336-347 for reals. *)
Definition linspaceR (start stop : R) (steps : Z) : res (tensor R) :=
  if (0 <? steps)%Z
  then fillLinSpace Rplus Rmult IZR start (if (1 <? steps)%Z then (stop - start) / IZR (steps - 1) else 0)%R steps
  else Fail.
