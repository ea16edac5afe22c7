(** Typed tensors by their elements. *)
From Coq Require Import ZArith List.
From Verif Require Import ShapeModel ShapeSpec TensorModel TensorSpec DispatchModel TypedModel.
Import ListNotations.

(** The bits of an element of each type, its bytes, and its bit patterns. *)
Definition bits (t : dtype) : nat :=
  match t with Float32 | Int32 => 32 | Float16 | BFloat16 => 16 | Int64 => 64 | Bool => 8 end.
Definition width (t : dtype) : nat := bits t / 8.
Definition in_type (t : dtype) (v : Z) : Prop := (0 <= v < 2 ^ Z.of_nat (bits t))%Z.
(** The tensor of type [t] and shape [sh] whose element at [idx] has the bit
    pattern [F idx]. *)
Definition typed_of (t : dtype) (sh : list nat) (F : list nat -> Z) : typed :=
  mkTyped t sh (flat_map (fun idx => toBytes (width t) (F idx)) (indices sh)).
(** A tensor as [Tensor(shape, options)] makes it: its storage has exactly the
    bytes of its elements, whatever their contents. *)
Definition sized (x : typed) : Prop := length (ybytes x) = numel (ysh x) * width (ty x).
(** Number of the element at [idx] in row-major order, and the bit pattern that
    a reader who takes [x]'s storage for elements of [w] bytes finds there. *)
Fixpoint position (sh idx : list nat) : nat :=
  match sh, idx with
  | d :: sh, i :: idx => i * numel sh + position sh idx
  | _, _ => 0
  end.
Definition pattern_at (w : nat) (x : typed) (idx : list nat) : Z :=
  pattern (firstn w (skipn (position (ysh x) idx * w) (ybytes x))).
