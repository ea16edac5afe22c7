(* The MNIST data set and image transforms: src/Data/DatasetMNIST.cpp and
   src/Data/Transform.h.  A file is the list of its bytes, numbers from 0 to 255.
   Elements are real numbers (no rounding).  Memory is unlimited. *)
From Coq Require Import List Arith ZArith Bool Reals.
From Verif Require Import ShapeModel TensorModel BcastModel BufModel CutModel.
Import ListNotations.

(* An open std::ifstream: the bytes left and whether a read has failed
   (DatasetMNIST.cpp:47, 84). *)
Record stream := mkStream { left : list Z; failed : bool }.
(* std::istream::read(dst, n): a failed stream stays as it is; at the end of the
   file the bytes there are are stored and the stream fails.  As called at
   DatasetMNIST.cpp:54-72, 91-100. *)
Definition readInto (s : stream) (n : nat) (dst : list (option Z)) : stream * list (option Z) :=
  if failed s then (s, dst) else
  let got := firstn n (left s) in
  (mkStream (skipn n (left s)) (length got <? n), map Some got ++ skipn (length got) dst).

(* Model only: conversion to int32_t. *)
Definition wrap32 (z : Z) : Z := ((z + 2 ^ 31) mod 2 ^ 32 - 2 ^ 31)%Z.

(* DatasetMNIST.cpp:42-44; a byte that was never stored is undefined. *)
Definition toInt32 (p : list (option Z)) : option Z :=
  match p with
  | [Some a; Some b; Some c; Some d] => Some (wrap32 (a * 2 ^ 24 + b * 2 ^ 16 + c * 2 ^ 8 + d))
  | _ => None
  end.
(* DatasetMNIST.cpp:54-55 and the like: four bytes into p, decoded; k goes on. *)
Definition readInt {T} (s : stream) (p : list (option Z)) (k : stream -> list (option Z) -> Z -> res T) : res T :=
  let '(s, p) := readInto s 4 p in
  match toInt32 p with Some z => k s p z | None => UB end.

(* Model only: a list of defined values. *)
Fixpoint defined {A} (l : list (option A)) : option (list A) :=
  match l with
  | [] => Some []
  | Some x :: r => option_map (cons x) (defined r)
  | None :: _ => None
  end.

(* DatasetMNIST.cpp:69-77: cnt images through the buffer tmp.  &v[0] of an empty
   vector is undefined (72). *)
Fixpoint readImages (cnt n : nat) (s : stream) (tmp : list (option Z)) : res (list (list R)) :=
  match cnt with
  | O => Ok []
  | S cnt =>
    let '(s, tmp) := readInto s n tmp in
    if n =? 0 then UB else
    match defined tmp with
    | None => UB
    | Some px => rbind (readImages cnt n s tmp) (fun l => Ok (map (fun d => (IZR d / 255)%R) px :: l))
    end
  end.
(* DatasetMNIST.cpp:46-81 loadImages: images_, height_, width_.  A file that cannot
   be opened (None) only logs a message.  resize and new[] throw for a negative
   size; the product of two int32_t must fit. *)
Definition loadImages (file : option (list Z)) : res (list (list R) * Z * Z) :=
  match file with
  | None => Ok ([], 0%Z, 0%Z)
  | Some bytes =>
    readInt (mkStream bytes false) (repeat None 4) (fun s p magicNumber =>
    if negb (magicNumber =? 0x803)%Z then Fail else
    readInt s p (fun s p size =>
    if (size <? 0)%Z then Fail else
    readInt s p (fun s p height =>
    readInt s p (fun s p width =>
    let n := (height * width)%Z in
    if (n <? - 2 ^ 31)%Z || (2 ^ 31 <=? n)%Z then UB else
    if (n <? 0)%Z then Fail else
    rbind (readImages (Z.to_nat size) (Z.to_nat n) s (repeat None (Z.to_nat n))) (fun images => Ok (images, height, width))))))
  end.

(* DatasetMNIST.cpp:98-101: cnt labels through p. *)
Fixpoint readLabels (cnt : nat) (s : stream) (p : list (option Z)) : res (list Z) :=
  match cnt with
  | O => Ok []
  | S cnt =>
    let '(s, p) := readInto s 1 p in
    match p with
    | Some d :: _ => rbind (readLabels cnt s p) (fun l => Ok (d :: l))
    | _ => UB
    end
  end.
(* DatasetMNIST.cpp:83-104 loadLabels. *)
Definition loadLabels (file : option (list Z)) : res (list Z) :=
  match file with
  | None => Ok []
  | Some bytes =>
    readInt (mkStream bytes false) (repeat None 4) (fun s p magicNumber =>
    if negb (magicNumber =? 0x801)%Z then Fail else
    readInt s p (fun s p size =>
    if (size <? 0)%Z then Fail else
    readLabels (Z.to_nat size) s p))
  end.

(* DatasetMNIST.h:30-34. *)
Record dataset := mkSet { images : list (list R); labels : list Z; height : Z; width : Z; dsize : nat }.
(* DatasetMNIST.cpp:21-29, the constructor, given the contents of the two files. *)
Definition openMnist (imageFile labelFile : option (list Z)) : res dataset :=
  rbind (loadImages imageFile) (fun '(im, h, w) =>
  rbind (loadLabels labelFile) (fun lb => Ok (mkSet im lb h w (Nat.min (length im) (length lb))))).

(* Transform.h:14-18, 41-47, 61-69: Transform, Compose, Normalize. *)
Inductive transform := Identity | Compose (l : list transform) | Normalize (mean std : R).
(* Transform.h:17, 41-47, 65. *)
Fixpoint process (tr : transform) (input : tensor R) : tensor R :=
  match tr with
  | Identity => input
  | Compose l => fold_left (fun ret trans => process trans ret) l input
  | Normalize mean std => mkT (tshape input) (map (fun x => ((x - mean) / std)%R) (tdata input))
  end.

(* DatasetMNIST.cpp:31-40 getItem: the image and the label.  The vectors are not
   checked. *)
Definition getItem (ds : dataset) (tr : option transform) (idx : nat) : res (tensor R * Z) :=
  match nth_error (images ds) idx, nth_error (labels ds) idx with
  | Some im, Some label =>
    let img := mkT [1; Z.to_nat (height ds); Z.to_nat (width ds)] im in
    Ok (match tr with Some tr => process tr img | None => img end, label)
  | _, _ => UB
  end.
