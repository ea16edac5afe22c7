(** The linear layer: src/Function/FuncNNLayer.h, [FuncLinear]. *)
From Coq Require Import ZArith List Bool Arith.
From Verif Require Import ShapeModel TensorModel BcastModel BufModel CutModel ReduceModel LinalgModel.
Import ListNotations.

(** FuncNNLayer.h:16-23.  [None] is the undefined bias.  The alpha of [addInplace] is
    1 and left out. *)
Definition linear {K : cring} (input weight : tensor K) (bias : option (tensor K)) : res (tensor K) :=
  rbind (matmul input weight false true) (fun output =>
  match bias with
  | None => Ok output
  | Some b => elementwise_inplace (fun l => add (nth 0 l zero) (nth 1 l zero)) output [Some b]
  end).
(** FuncNNLayer.h:25-39: the gradients given to the three inputs. *)
Definition linearGradInput {K : cring} (grad weight : tensor K) : res (tensor K) := matmul grad weight false false.
(** FuncNNLayer.h:33-35. *)
Definition linearGradWeight {K : cring} (grad input : tensor K) : res (tensor K) := matmul grad input true false.
(** FuncNNLayer.h:36-38. *)
Definition linearGradBias {K : cring} (grad : tensor K) : res (tensor K) := sumOnDim grad 0 false.
