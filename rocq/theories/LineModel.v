(** Kernels that work line by line along one dimension: softmax, sort, top-k,
    cumulative sum (src/Operation/OpNNLayerCpu.h, OpSamplingCpu.h). *)
From Coq Require Import ZArith List Bool Arith.
From Verif Require Import ShapeModel TensorModel BcastModel BufModel.
Import ListNotations.

(** OpNNLayer.cpp:18-24, OpSamplingCpu.h:29-36, 141-147, 186-192: the products of
    the sizes before and after dimension [k]. *)
Definition outerSize (sh : list nat) (k : nat) : nat := numel (firstn k sh).
(** OpNNLayer.cpp:18-24, OpSamplingCpu.h:29-36, 141-147, 186-192. *)
Definition innerSize (sh : list nat) (k : nat) : nat := numel (skipn (S k) sh).
(** The offset of element [d] of the line ([o], [i]) with [n] elements: base +
    d * innerSize (OpNNLayerCpu.h:25-36, OpSamplingCpu.h:51-54, 157, 198). *)
Definition lineOffset (n inner o i d : nat) : nat := o * n * inner + i + d * inner.
(** The elements of one line.  OpNNLayerCpu.h:29-46, OpSamplingCpu.h:52-60: the
    reads of one line. *)
Definition readLine {A} (data : list A) (n inner o i : nat) : option (list A) :=
  tab n (fun d => rd data (lineOffset n inner o i d)).
(** The two outer loops (OpNNLayerCpu.h:24-27, OpSamplingCpu.h:49-51, 153-154,
    194-195).  [body o i] computes the [m] results of a line, which are then
    written at [(o * m + j) * inner + i] (OpSamplingCpu.h:61).  The line is read
    before anything is written, which is the same as the interleaved code because
    the output is a new tensor.  Output cells start uninitialized ([None]). *)
Definition lineLoop {B} (outer inner m : nat) (body : nat -> nat -> option (list B)) (out : list (option B)) : option (list (option B)) :=
  loop (seq 0 outer) out (fun out o => loop (seq 0 inner) out (fun out i =>
    obind (body o i) (fun r =>
    loop (combine (seq 0 m) r) out (fun out jv => put out ((o * m + fst jv) * inner + i) (snd jv))))).
(** A new tensor filled line by line.  Model only: the common shape of
    OpNNLayerCpu.h:16-64 and OpSamplingCpu.h:49-65. *)
Definition lineKernel {B} (rsh : list nat) (outer inner m : nat) (body : nat -> nat -> option (list B)) : res (tensor B) :=
  finish rsh (lineLoop outer inner m body (fresh (numel rsh))).
