(** Index assignment, gather/scatter, expand, index_select, repeat_interleave:
    src/Operation/OpTransform.cpp and OpTransformCpu.h. *)
From Coq Require Import ZArith List Bool Arith.
From Verif Require Import ShapeModel TensorModel BcastModel BufModel CutModel.
Import ListNotations.

(** [ptr[i] = v] with an int64_t position.  Model only. *)
Definition wrZ {A} (l : list A) (i : Z) (v : A) : option (list A) :=
  if (i <? 0)%Z then None else wr l (Z.to_nat i) v.
(** The tensor as the index computations of CutModel see it.  Model only. *)
Definition asS {A} (t : tensor A) : sten A := mkS (map Z.of_nat (tshape t)) 0 (tdata t).
(** OpTransform.cpp:119-131, [indexPutOpImpl], with [fillOffset]
    (OpFillingCpu.h:14-21).  The value of [self] after the call; sharing is the
    subject of CowModel. *)
Definition indexPut {A} (self : tensor A) (idx : list Z) (val : tensor A) : res (tensor A) :=
  match dataIndex (asS self) idx, dimAt (stridesZ (map Z.of_nat (tshape self))) (Z.of_nat (length idx) - 1) with
  | Some dataIdx, Some dimStride =>
    let write (f : nat -> option A) :=
      match loop (seq 0 (Z.to_nat dimStride)) (tdata self) (fun l k =>
              obind (f k) (fun v => wrZ l (dataIdx + Z.of_nat k) v)) with
      | None => UB
      | Some d => Ok (mkT (tshape self) d)
      end in
    if isScalar val then write (fun _ => rd (tdata val) 0)
    else if (dimStride =? Z.of_nat (tnumel val))%Z then write (rd (tdata val))
    else Fail
  | _, _ => UB
  end.

(** OpTransformCpu.h:248-252: the coordinates of element [i], by the strides. *)
Definition coordsOf (str : list nat) (i : nat) : list nat :=
  snd (fold_left (fun acc s => (fst acc mod s, snd acc ++ [fst acc / s])) str (i, [])).
(** OpTransformCpu.h:253-261: the offset in [self] of element [i] of [index]. *)
Definition coordOffset (sh ish : list nat) (dim : nat) (idxs : list Z) (i : nat) : res nat :=
  match rd idxs i with
  | None => UB
  | Some v =>
    let d := Z.of_nat (nth dim sh 0) in
    let v := (if v <? 0 then v + d else v)%Z in
    if ((0 <=? v) && (v <? d))%Z
    then Ok (indicesToOffset (strides sh) (set_nth (coordsOf (strides ish) i) dim (Z.to_nat v)))
    else Fail
  end.
(** Model only: a loop that can fail. *)
Fixpoint rmap {A B} (f : A -> res B) (l : list A) : res (list B) :=
  match l with [] => Ok [] | x :: r => rbind (f x) (fun y => rbind (rmap f r) (fun ys => Ok (y :: ys))) end.
(** OpTransformCpu.h:224-264, [indexCoordForEach]: the offsets, in order.  (They
    are computed before the callback runs; that only changes which of two
    failures comes first.) *)
Definition coordOffsets (sh : list nat) (dim : Z) (index : tensor Z) : res (list nat) :=
  match axis (length sh) dim with
  | None => Fail
  | Some d =>
    if negb (length (tshape index) =? length sh) then Fail
    else rmap (coordOffset sh (tshape index) d (tdata index)) (seq 0 (tnumel index))
  end.
(** OpTransformCpu.h:266-275, [gatherOpCpuImpl]. *)
Definition gather {A} (self : tensor A) (dim : Z) (index : tensor Z) : res (tensor A) :=
  rbind (coordOffsets (tshape self) dim index) (fun offs =>
    match seqopt (map (rd (tdata self)) offs) with None => UB | Some d => Ok (mkT (tshape index) d) end).
(** OpTransformCpu.h:277-298, [scatterOpCpuImpl] and [scatterOpInplaceCpuImpl]. *)
Definition scatter {A} (self : tensor A) (dim : Z) (index : tensor Z) (src : tensor A) : res (tensor A) :=
  rbind (coordOffsets (tshape self) dim index) (fun offs =>
    match loop (combine (seq 0 (length offs)) offs) (tdata self) (fun l p =>
            obind (rd (tdata src) (fst p)) (fun v => wr l (snd p) v)) with
    | None => UB
    | Some d => Ok (mkT (tshape self) d)
    end).

(** OpTransformCpu.h:338-342, 387-393, 432-438: the counter after one step
    (the last coordinate moves fastest); the flag is the carry out. *)
Fixpoint tick (sizes coord : list nat) : bool * list nat :=
  match sizes, coord with
  | d :: sizes, c :: coord =>
    let (carry, coord) := tick sizes coord in
    if carry then (if S c <? d then (false, S c :: coord) else (true, 0 :: coord)) else (false, c :: coord)
  | _, _ => (true, [])
  end.
(** A loop over all elements of a result of shape [rsh] that keeps a counter;
    [read] and [place] give the source and result offsets.  Model only: the
    common shape of the loops of OpTransformCpu.h:330-343, 380-394, 425-439. *)
Definition counterLoop {A} (rsh : list nat) (src : list A) (read : list nat -> option nat) (place : nat -> list nat -> nat) : res (tensor A) :=
  finish rsh (obind (loop (seq 0 (numel rsh)) (fresh (numel rsh), repeat 0 (length rsh)) (fun st i =>
      obind (read (snd st)) (fun o => obind (rd src o) (fun x => obind (put (fst st) (place i (snd st)) x) (fun b =>
        Some (b, snd (tick rsh (snd st)))))))) (fun st => Some (fst st))).
(** OpTransformCpu.h:298-345, [expandOpCpuImpl]. *)
Definition expandShape (sh : list nat) (sizes : list Z) : res (list nat) :=
  if length sizes <? length sh then Fail
  else rmap (fun p => if (fst p =? -1)%Z then Ok (snd p) else if (0 <? fst p)%Z then Ok (Z.to_nat (fst p)) else Fail)
         (combine sizes (repeat 1 (length sizes - length sh) ++ sh)).
(** OpTransformCpu.h:298-345, after the shape. *)
Definition expand {A} (self : tensor A) (sizes : list Z) : res (tensor A) :=
  let sh := tshape self in
  rbind (expandShape sh sizes) (fun rsh =>
    let n := length sizes - length sh in
    if isScalar self then
      finish rsh (loop (seq 0 (numel rsh)) (fresh (numel rsh)) (fun b i => obind (rd (tdata self) 0) (put b i)))
    else
      let inShape := repeat 1 n ++ sh in
      let inStride := repeat 0 n ++ strides sh in
      counterLoop rsh (tdata self)
        (fun c => Some (indicesToOffset inStride (map (fun p => if fst p =? 1 then 0 else snd p) (combine inShape c))))
        (fun i _ => i)).
(** OpTransformCpu.h:349-396, [indexSelectOpCpuImpl]. *)
Definition indexSelect {A} (self : tensor A) (dim : Z) (index : tensor Z) : res (tensor A) :=
  let sh := tshape self in
  match axis (length sh) dim with
  | None => Fail
  | Some d =>
    if negb (length (tshape index) =? 1) then Fail else
    let rsh := set_nth sh d (tnumel index) in
    if tnumel index =? 0 then Ok (mkT rsh [])
    else counterLoop rsh (tdata self)
           (fun c => obind (rd (tdata index) (nth d c 0)) (fun v =>
              if (v <? 0)%Z then None else Some (indicesToOffset (strides sh) (set_nth c d (Z.to_nat v)))))
           (fun _ c => indicesToOffset (strides rsh) c)
  end.
(** OpTransformCpu.h:399-442, [repeatInterleaveOpCpuImpl]. *)
Definition repeatInterleave {A} (self : tensor A) (repeats dim : Z) : res (tensor A) :=
  let sh := tshape self in
  match axis (length sh) dim with
  | None => Fail
  | Some d =>
    if (repeats <=? 0)%Z then Fail else
    let r := Z.to_nat repeats in
    let rsh := set_nth sh d (nth d sh 0 * r) in
    counterLoop rsh (tdata self)
      (fun c => Some (indicesToOffset (strides sh) (set_nth c d (nth d c 0 / r))))
      (fun _ c => indicesToOffset (strides rsh) c)
  end.
