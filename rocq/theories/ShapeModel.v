(** Shapes, strides, reshaping and storage views: src/Tensor/TensorImpl.{h,cpp}
    and the index helpers of src/Operation/OpTransform.cpp.

    [int64_t] values are unbounded [Z] here (no wrap-around: a tensor whose
    element count exceeds 2^63 cannot be allocated); where only non-negative
    sizes occur (index arithmetic inside existing tensors) [nat] is used. *)
From Coq Require Import ZArith List Bool Arith.
Import ListNotations.

(** * Index arithmetic (nat) *)

(** TensorImpl.cpp:243-248, [computeNumel]. *)
Definition numel (shape : list nat) : nat := fold_left Nat.mul shape 1.

(** TensorImpl.cpp:234-241, [computeStrides]: from the last dimension to the
    first with a running product. *)
Definition strides_loop (shape : list nat) : nat * list nat :=
  fold_right (fun d acc => (fst acc * d, fst acc :: snd acc)) (1, []) shape.
(** TensorImpl.cpp:234-241, [computeStrides]. *)
Definition strides (shape : list nat) : list nat := snd (strides_loop shape).

(** OpTransform.cpp:16-22, [indicesToOffset]. *)
Definition indicesToOffset (st idx : list nat) : nat :=
  fold_left (fun off p => off + snd p * fst p) (combine st idx) 0.

(** OpTransform.cpp:24-29, [offsetToIndices]: from the last dimension. *)
Definition offsetToIndices (shape : list nat) (offset : nat) : list nat :=
  snd (fold_right (fun d acc => (fst acc / d, fst acc mod d :: snd acc)) (offset, []) shape).

(** * Reshaping (Z: requests may be negative) *)
Local Open Scope Z_scope.

(** TensorImpl.h:88-95, the members that describe the view.  [data] is the
    element sequence the storage holds from [storageOffset_] on; no reshape
    operation touches it. *)
Record view (A : Type) := mkView {
  vshape : list Z; vstrides : list Z; vnumel : Z; vdata : list A }.
Arguments mkView {A}. Arguments vshape {A}. Arguments vstrides {A}.
Arguments vnumel {A}. Arguments vdata {A}.

(** TensorImpl.cpp:243-248 and 234-241 on int64_t. *)
Definition numelZ (shape : list Z) : Z := fold_left Z.mul shape 1.
(** TensorImpl.cpp:234-241, [computeStrides], on int64_t. *)
Definition stridesZ (shape : list Z) : list Z :=
  snd (fold_right (fun d acc => (fst acc * d, fst acc :: snd acc)) (1, []) shape).

(** TensorImpl.cpp:13-18, a fresh tensor. *)
Definition newView {A} (shape : list Z) (d : list A) : view A :=
  mkView shape (stridesZ shape) (numelZ shape) d.

(** TensorImpl.cpp:58-72, the scan for -1.  State: position of the inferred
    dimension, product of the others, shape with 0 for the inferred one;
    [None] when a second -1 is met (the call then returns without effect). *)
Fixpoint scan (shape : list Z) (i : nat) (inferred : option nat) (cnt : Z)
  : option (option nat * Z * list Z) :=
  match shape with
  | [] => Some (inferred, cnt, [])
  | d :: r =>
    if d =? -1 then
      match inferred with
      | Some _ => None
      | None => match scan r (S i) (Some i) cnt with
                | None => None
                | Some (inf, c, l) => Some (inf, c, 0 :: l)
                end
      end
    else match scan r (S i) inferred (cnt * d) with
         | None => None
         | Some (inf, c, l) => Some (inf, c, d :: l)
         end
  end.

(** Model only: [v[i] = x] on a vector (as in TensorImpl.cpp:86, 137). *)
Fixpoint set_nth {A} (l : list A) (i : nat) (v : A) : list A :=
  match l, i with
  | [], _ => []
  | _ :: r, O => v :: r
  | x :: r, S i => x :: set_nth r i v
  end.

(** TensorImpl.cpp:48-91, [reshape_].  C++ [/] and [%] truncate: [Z.quot],
    [Z.rem]. *)
Definition reshape_ {A} (t : view A) (shape : list Z) : view A :=
  match shape with
  | [] => if vnumel t =? 1 then mkView [] [] (vnumel t) (vdata t)
          else t  (* falls through: product of the empty shape is 1 <> numel *)
  | _ =>
    match scan shape 0 None 1 with
    | None => t
    | Some (inferred, cnt, ret) =>
      let ret' :=
        match inferred with
        | None => Some ret
        | Some i => if (cnt =? 0) || negb (Z.rem (vnumel t) cnt =? 0) then None
                    else Some (set_nth ret i (Z.quot (vnumel t) cnt))
        end in
      match ret' with
      | None => t
      | Some ret' =>
        if numelZ ret' =? vnumel t
        then mkView ret' (stridesZ ret') (vnumel t) (vdata t)
        else t
      end
    end
  end.

(** TensorImpl.h:39, [dim()]. *)
Definition dimZ {A} (t : view A) : Z := Z.of_nat (length (vshape t)).
(** [shape_[i]] without bounds check: outside the vector is undefined.  As in
    TensorImpl.cpp:96, 103, 107. *)
Definition at_ (l : list Z) (i : Z) : option Z :=
  if i <? 0 then None else nth_error l (Z.to_nat i).
(** Reading [l[from], ..., l[upto-1]].  Model only: the loops of
    TensorImpl.cpp:95-108. *)
Fixpoint slice_ (l : list Z) (from : Z) (n : nat) : option (list Z) :=
  match n with
  | O => Some []
  | S n => match at_ l from, slice_ l (from + 1) n with
           | Some x, Some r => Some (x :: r)
           | _, _ => None
           end
  end.
(** Model only: the loops of TensorImpl.cpp:95-108, with both bounds. *)
Definition range (l : list Z) (from upto : Z) : option (list Z) :=
  slice_ l from (Z.to_nat (upto - from)).

(** TensorImpl.cpp:93-111, [flatten_]; [None] is an out-of-range read. *)
Definition flatten_ {A} (t : view A) (startDim endDim : Z) : option (view A) :=
  let endDim := if endDim <? 0 then dimZ t - 1 else endDim in
  match range (vshape t) 0 startDim, range (vshape t) startDim (endDim + 1),
        range (vshape t) (endDim + 1) (dimZ t) with
  | Some a, Some b, Some c => Some (reshape_ t (a ++ [numelZ b] ++ c))
  | _, _, _ => None
  end.

(** TensorImpl.cpp:113-147, [unflatten_].  The last -1 wins (no duplicate
    check here; a duplicate leaves a 0 and is rejected by [reshape_]). *)
Fixpoint last_inferred (shape : list Z) (i : Z) (acc : option Z) : option Z :=
  match shape with
  | [] => acc
  | d :: r => last_inferred r (i + 1) (if d =? -1 then Some i else acc)
  end.
(** TensorImpl.cpp:113-147. *)
Definition unflatten_ {A} (t : view A) (d : Z) (shape : list Z) : option (view A) :=
  let d := if d <? 0 then d + dimZ t else d in
  let prod := fold_left (fun acc x => if x =? -1 then acc else acc * x) shape 1 in
  let mid := map (fun x => if x =? -1 then 0 else x) shape in
  match range (vshape t) 0 d, at_ (vshape t) d, range (vshape t) (d + 1) (dimZ t) with
  | Some a, Some sd, Some c =>
    match last_inferred shape d None with
    | Some i =>
      if (prod =? 0) || negb (Z.rem sd prod =? 0) then Some t
      else Some (reshape_ t (set_nth (a ++ mid) (Z.to_nat i) (Z.quot sd prod) ++ c))
    | None => if prod =? sd then Some (reshape_ t (a ++ mid ++ c)) else Some t
    end
  | _, _, _ => None
  end.

(** TensorImpl.cpp:149-172, [squeeze_(d)]. *)
Definition squeeze1_ {A} (t : view A) (d : Z) : option (view A) :=
  if (d <? - dimZ t) || (dimZ t <=? d) then Some t
  else
    let d := if d <? 0 then d + dimZ t else d in
    match at_ (vshape t) d, range (vshape t) 0 d, range (vshape t) (d + 1) (dimZ t) with
    | Some x, Some a, Some c => if x =? 1 then Some (reshape_ t (a ++ c)) else Some t
    | _, _, _ => None
    end.

(** TensorImpl.cpp:174-204, [squeeze_(dims)]. *)
Definition should_squeeze (rank : Z) (dims : list Z) (i x : Z) : bool :=
  existsb (fun d => ((if d <? 0 then d + rank else d) =? i) && (x =? 1)) dims.
(** TensorImpl.cpp:185-202: the loop that keeps the other dimensions. *)
Fixpoint squeeze_go (rank : Z) (dims : list Z) (l : list Z) (i : Z) : list Z :=
  match l with
  | [] => []
  | x :: r => if should_squeeze rank dims i x then squeeze_go rank dims r (i + 1)
              else x :: squeeze_go rank dims r (i + 1)
  end.
(** TensorImpl.cpp:174-204. *)
Definition squeeze_ {A} (t : view A) (dims : list Z) : view A :=
  match dims with
  | [] => reshape_ t (filter (fun d => negb (d =? 1)) (vshape t))
  | _ => reshape_ t (squeeze_go (dimZ t) dims (vshape t) 0)
  end.

(** TensorImpl.cpp:206-224, [unsqueeze_]. *)
Definition unsqueeze_ {A} (t : view A) (d : Z) : option (view A) :=
  if (dimZ t <? d) || (d <? - dimZ t - 1) then Some t
  else
    let d := if d <? 0 then d + dimZ t + 1 else d in
    match range (vshape t) 0 d, range (vshape t) d (dimZ t) with
    | Some a, Some c => Some (reshape_ t (a ++ [1] ++ c))
    | _, _ => None
    end.

(** * Views on existing storage *)
(** TensorImpl.cpp:20-31 and 33-38: the bounds check and the byte range that
    the view then addresses ([dataPtr_] relative to the storage start, length
    in bytes).  [size] is the storage size in bytes, [esz] the element size. *)
Definition view_check (shape : list Z) (esz offset size : Z) : bool :=
  offset + numelZ shape * esz <=? size.
(** TensorImpl.cpp:26-29, 37: the byte range the view then covers. *)
Definition view_bytes (shape : list Z) (esz offset : Z) : Z * Z :=
  (offset * esz, numelZ shape * esz).
