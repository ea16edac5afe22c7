(** Output buffers of the CPU kernels: fresh memory, element writes, memcpy. *)
From Coq Require Import ZArith List Bool Arith.
From Verif Require Import ShapeModel TensorModel BcastModel.
Import ListNotations.

(** src/Tensor/Tensor.cpp [Tensor::empty]: memory whose elements are not
    initialised ([None]). *)
Definition fresh {A} (n : nat) : list (option A) := repeat None n.
(** [ptr[i] = v]; outside the buffer: [None].  Model only. *)
Definition put {A} (b : list (option A)) (i : nat) (v : A) : option (list (option A)) := wr b i (Some v).
(** src/Tensor/Storage.cpp:38-44, [copyOnDevice] of [n] elements (memcpy). *)
Definition memcpy {A} (b : list (option A)) (dst : nat) (src : list A) (from n : nat) : option (list (option A)) :=
  loop (seq 0 n) b (fun b k => obind (rd src (from + k)) (fun x => put b (dst + k) x)).
(** The finished tensor; an element that was never written is undefined.  Model
    only. *)
Definition finish {A} (sh : list nat) (b : option (list (option A))) : res (tensor A) :=
  match obind b seqopt with None => UB | Some d => Ok (mkT sh d) end.

(** Dimension argument: negative counts from the end; [None] is out of range.
    The check repeated at OpTransform.cpp:230-236, 296-300;
    OpReduceCpu.h:135-141; OpTransformCpu.h:227-233. *)
Definition axis (rank : nat) (d : Z) : option nat :=
  let d := (if d <? 0 then d + Z.of_nat rank else d)%Z in
  if ((d <? 0) || (Z.of_nat rank <=? d))%Z then None else Some (Z.to_nat d).
