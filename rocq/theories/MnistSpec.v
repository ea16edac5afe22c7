(* The format of the MNIST files: http://yann.lecun.com/exdb/mnist, "idx". *)
From Coq Require Import List Arith ZArith Reals.
From Verif Require Import MnistModel.
Import ListNotations.

Definition byte (b : Z) : Prop := (0 <= b < 256)%Z.
(* A number below 2^32, most significant byte first. *)
Definition be32 (n : Z) : list Z := [n / 2 ^ 24; (n / 2 ^ 16) mod 256; (n / 2 ^ 8) mod 256; n mod 256]%Z.
(* Headers of an image file with n images of h x w pixels and of a label file. *)
Definition image_header (n h w : nat) : list Z := be32 2051 ++ be32 (Z.of_nat n) ++ be32 (Z.of_nat h) ++ be32 (Z.of_nat w).
Definition label_header (n : nat) : list Z := be32 2049 ++ be32 (Z.of_nat n).
(* Every image is the list of its pixels, row by row. *)
Definition image_file (h w : nat) (imgs : list (list Z)) : list Z := image_header (length imgs) h w ++ concat imgs.
Definition label_file (ls : list Z) : list Z := label_header (length ls) ++ ls.
(* The pixels P y x of an h x w image, row by row. *)
Definition image_of (h w : nat) (P : nat -> nat -> Z) : list Z := flat_map (fun y => map (P y) (seq 0 w)) (seq 0 h).
(* The images P 0, ..., P (n-1), and the labels L 0, ..., L (n-1). *)
Definition images_of (n h w : nat) (P : nat -> nat -> nat -> Z) : list (list Z) := map (fun i => image_of h w (P i)) (seq 0 n).
Definition labels_of (n : nat) (L : nat -> Z) : list Z := map L (seq 0 n).
(* The normalizations (mean, std) in a transform, in the order they apply, and what
   they do to one pixel. *)
Fixpoint stages (tr : transform) : list (R * R) :=
  match tr with
  | Identity => []
  | Compose l => flat_map stages l
  | Normalize mean std => [(mean, std)]
  end.
Definition normalized (st : list (R * R)) (x : R) : R := fold_left (fun x '(mean, std) => ((x - mean) / std)%R) st x.
