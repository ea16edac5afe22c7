(** Losses: src/Operation/OpLossCpu.h, src/Function/FuncLoss.h, over the reals (no
    rounding). *)
From Coq Require Import ZArith List Bool Arith Reals.
From Verif Require Import ShapeModel TensorModel BcastModel BufModel CutModel IndexModel ReduceModel GradModel AdvModel FillModel.
Import ListNotations.

(** src/Operation/OpLoss.h, [LossReduction]. *)
Inductive reduction := NONE | MEAN | SUM.
(** OpLossCpu.h:22-29 and 63-70.  There is no break: MEAN goes on to SUM. *)
Definition reduceLoss (red : reduction) (out : tensor R) : res (tensor R) :=
  match red with
  | MEAN => rbind (meanAll out) (sumAll (K := Rring))
  | SUM => sumAll (K := Rring) out
  | NONE => Ok out
  end.
(** [divInplace(out, scalar)].  As called at OpLossCpu.h:22-29, 43-48. *)
Definition divBy (r : R) (t : tensor R) : tensor R := mkT (tshape t) (map (fun x => x / r)%R (tdata t)).
(** OpLossCpu.h:15-33 and 35-52. *)
Definition mseLoss (input target : tensor R) (red : reduction) : res (tensor R) :=
  rbind (binary (fun a b => (a - b) * (a - b))%R input target) (reduceLoss red).
(** OpLossCpu.h:35-52. *)
Definition mseBackward (grad input target : tensor R) (red : reduction) : res (tensor R) :=
  rbind (ternary (fun a b g => 2 * (a - b) * g)%R input target grad) (fun out =>
  Ok (match red with MEAN => divBy (INR (tnumel input)) out | _ => out end)).
(** OpLossCpu.h:54-74.  A scalar input has no dimension 0. *)
Definition nllLoss (input : tensor R) (target : tensor Z) (red : reduction) : res (tensor R) :=
  if negb (length (tshape target) =? 1) then Fail else
  match tshape input with
  | [] => UB
  | batchSize :: _ =>
    rbind (arangeZ 0 (Z.of_nat batchSize) 1) (fun idx =>
    rbind (indexAdvance input [idx; target]) (fun out => reduceLoss red (scaleBy (-1) out)))
  end.
(** OpLossCpu.h:76-95.  [grad] is not used. *)
Definition nllBackward (grad input : tensor R) (target : tensor Z) (red : reduction) : res (tensor R) :=
  if negb (length (tshape target) =? 1) then Fail else
  match tshape input with
  | [] => UB
  | batchSize :: _ =>
    rbind (arangeZ 0 (Z.of_nat batchSize) 1) (fun idx =>
    let out := mkT (tshape input) (repeat 0%R (tnumel input)) in
    rbind (indexPutAdvance out [idx; target] (mkT [] [(-1)%R])) (fun out =>
    Ok (match red with MEAN => divBy (INR batchSize) out | _ => out end)))
  end.
