(** Dropout: src/Function/FuncNNLayer.h:42-75, src/Operation/OpNNLayerCpu.h:156-177,
    src/Operation/OpFillingCpu.h:100-109.  Real arithmetic.  The random bits are an
    argument: [draws] are the values the Bernoulli distribution returns, in order. *)
From Coq Require Import ZArith List Bool Arith Reals.
From Verif Require Import ShapeModel TensorModel BcastModel BufModel CutModel GradModel.
Import ListNotations.
Open Scope R_scope.

(** Model only: the element a mask of type Bool becomes when multiplied. *)
Definition ofBool (b : bool) : R := if b then 1 else 0.
(** OpFillingCpu.h:100-109, [Tensor::bernoulli]: element [i] is draw [i].  (The
    probability is that of the draws, see DropSpec.) *)
Definition bernoulli (sh : list nat) (draws : list bool) : tensor R := mkT sh (map ofBool (firstn (numel sh) draws)).
(** FuncNNLayer.h:51 and OpNNLayerCpu.h:162: the parameter of the distribution the
    draws come from (the probability of a 1), in the layer and in [op::dropout]. *)
Definition dropoutParam (p : R) : R := 1 - p.
(** OpNNLayerCpu.h:162. *)
Definition dropoutOpParam (p : R) : R := p.
(** OpNNLayerCpu.h:169-177. *)
Definition dropoutMasked (self mask : tensor R) (p : R) : res (tensor R) := binary (fun a b => a * b / p) self mask.
(** Tensor/Function.h:20-36: what forward leaves for backward, first in, first out. *)
Inductive saved := SBool (b : bool) | SFloat (p : R) | STensor (t : tensor R).
(** FuncNNLayer.h:44-59: result and saved data. *)
Definition dropoutForward (input : tensor R) (p : R) (training : bool) (draws : list bool) : res (tensor R * list saved) :=
  if negb training then Ok (input, [SBool training])
  else let mask := bernoulli (tshape input) draws in
       rbind (dropoutMasked input mask (1 - p)) (fun output => Ok (output, [SBool training] ++ [SFloat p] ++ [STensor mask])).
(** FuncNNLayer.h:61-74: the gradient for the input ([None] when it needs none) and
    the saved data that is left.  Popping from nothing or the wrong kind fails. *)
Definition dropoutBackward (requiresGrad : bool) (ctx : list saved) (grad : tensor R) : res (option (tensor R) * list saved) :=
  if negb requiresGrad then Ok (None, ctx)
  else match ctx with
       | SBool training :: ctx =>
         if training then
           match ctx with
           | SFloat p :: STensor mask :: ctx => rbind (dropoutMasked grad mask (1 - p)) (fun g => Ok (Some g, ctx))
           | _ => Fail
           end
         else Ok (Some grad, ctx)
       | _ => Fail
       end.
(** OpNNLayerCpu.h:156-167, [op::dropout], the form the attention function uses. *)
Definition dropoutOp (self : tensor R) (p : R) (draws : list bool) : res (tensor R) :=
  Ok (mkT (tshape self) (map (fun q => fst q * ofBool (snd q) / p) (combine (tdata self) draws))).
