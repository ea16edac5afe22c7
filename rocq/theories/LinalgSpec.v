(** Vocabulary for matrix products, windows and convolutions. *)
From Coq Require Import ZArith List Bool Arith.
From Verif Require Import ShapeModel ShapeSpec TensorModel TensorSpec BcastSpec LinalgModel.
Import ListNotations.

(** Row [r], column [c] of a matrix that may be stored transposed; also its
    shape, from the numbers of rows and columns. *)
Definition at_ (trans : bool) (r c : nat) : list nat := if trans then [c; r] else [r; c].
(** Entry (i, j) of the product of two matrices with [k] inner positions. *)
Definition product {K : cring} (A B : nat -> nat -> K) (k i j : nat) : K :=
  sum (fun p => mul (A i p) (B p j)) (seq 0 k).
(** Entry [be ++ [i; j]] of the batched product: batch [be] of the result uses
    the broadcast batches of the operands (batch shapes [ba] and [bb]). *)
Definition batch_product {K : cring} (ba bb : list nat) (ta tb : bool) (k : nat) (A B : list nat -> K) (be : list nat) (i j : nat) : K :=
  product (fun i p => A (bidx ba be ++ at_ ta i p)) (fun p j => B (bidx bb be ++ at_ tb p j)) k i j.
(** Inner product of two tensors of shape [sh]. *)
Definition inner {K : cring} (sh : list nat) (F G : list nat -> K) : K := sum (fun idx => mul (F idx) (G idx)) (indices sh).
(** Function of two, four indices as a function of a multi-index. *)
Definition on2 {A} (d : A) (f : nat -> nat -> A) (idx : list nat) : A := match idx with [i; j] => f i j | _ => d end.
Definition on4 {A} (d : A) (f : nat -> nat -> nat -> nat -> A) (idx : list nat) : A :=
  match idx with [i; j; k; l] => f i j k l | _ => d end.

(** Number of window positions along one dimension, when the kernel fits. *)
Definition fits (size kernel stride padding : nat) : Prop := 0 < stride /\ kernel <= size + 2 * padding.
Definition positions (size kernel stride padding : nat) : nat := (size + 2 * padding - kernel) / stride + 1.
(** Row [y], column [x] of channel [c] of image [b]; zero outside. *)
Definition pixel {K : cring} (h w : nat) (F : list nat -> K) (b c : nat) (y x : Z) : K :=
  if ((0 <=? y) && (y <? Z.of_nat h) && (0 <=? x) && (x <? Z.of_nat w))%Z
  then F [b; c; Z.to_nat y; Z.to_nat x] else zero.
(** Where row or column [i] of the window at position [o] is in the image. *)
Definition place (stride padding o i : nat) : Z := (Z.of_nat (o * stride + i) - Z.of_nat padding)%Z.
(** Cross-correlation of image [n] with filter [o] at position (y, x). *)
Definition correlation {K : cring} (c h w kh kw : nat) (stride padding : dim2) (X W : list nat -> K) (n o y x : nat) : K :=
  sum (fun q => match q with
                | [ch; i; j] => mul (pixel h w X n ch (place (dh stride) (dh padding) y i) (place (dw stride) (dw padding) x j))
                                    (W [o; ch; i; j])
                | _ => zero
                end) (indices [c; kh; kw]).

(** A tensor whose shape says [n; channels; height; width] but whose elements
    are stored in the order image, row, column, channel. *)
Definition channels_last {K : cring} (n ch h w : nat) (f : nat -> nat -> nat -> nat -> K) : tensor K :=
  mkT [n; ch; h; w] (tdata (tensor_of [n; h; w; ch] (on4 zero f))).
(** The elements of channel [c] of image [b] under the window at (y, x), row by
    row (zero where the window leaves the image), and the one at position [q]. *)
Definition window {K : cring} (h w : nat) (kernel stride padding : dim2) (X : list nat -> K) (b c y x : nat) : list K :=
  map (fun q => match q with
                | [i; j] => pixel h w X b c (place (dh stride) (dh padding) y i) (place (dw stride) (dw padding) x j)
                | _ => zero
                end) (indices [dh kernel; dw kernel]).
(** The kernel fits in the padded image, and the strides are not 0. *)
Definition windows (h w : nat) (kernel stride padding : dim2) : Prop :=
  fits h (dh kernel) (dh stride) (dh padding) /\ fits w (dw kernel) (dw stride) (dw padding).
