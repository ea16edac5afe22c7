(** Cutting and joining tensors: src/Operation/OpTransform.cpp split, chunk,
    narrow, concat, stack, vstack, hstack; integer indexing. *)
From Coq Require Import ZArith List Bool Arith.
From Verif Require Import ShapeModel TensorModel BcastModel BufModel.
Import ListNotations.

(** Model only: sequencing of operations that can fail. *)
Definition rbind {A B} (r : res A) (f : A -> res B) : res B :=
  match r with UB => UB | Fail => Fail | Ok x => f x end.

Section Storage.
Context {A : Type}.
Local Open Scope Z_scope.

(** A tensor on a (possibly shared) storage: TensorImpl.h:88-95.  [soff] counts
    elements, [sstore] is the whole storage. *)
Record sten := mkS { sshape : list Z; soff : Z; sstore : list A }.
(** [dataPtr<T>()[i]] (TensorImpl.cpp:30). *)
Definition srd (s : sten) (i : Z) : option A := rdZ (sstore s) (soff s + i).
(** What a user reads: TensorImpl.h:106-117, [toList], with the shape.  A
    negative size has no contents. *)
Definition contents (s : sten) : option (tensor A) :=
  if forallb (fun d => 0 <=? d) (sshape s) then
    obind (tab (Z.to_nat (numelZ (sshape s))) (fun i => srd s (Z.of_nat i)))
      (fun d => Some (mkT (map Z.to_nat (sshape s)) d))
  else None.
(** TensorImpl.cpp:20-31: a view on a storage; [esz] is the element size. *)
Definition mkview (esz : Z) (shape : list Z) (store : list A) (off : Z) : res sten :=
  if view_check shape esz off (Z.of_nat (length store) * esz) then Ok (mkS shape off store) else Fail.
(** TensorImpl.h:39, [dim()]. *)
Definition rank (s : sten) : nat := length (sshape s).
(** TensorImpl.h:61-62 *)
Definition dimAt (l : list Z) (d : Z) : option Z := at_ l (if d <? 0 then d + Z.of_nat (length l) else d).

(** memcpy of [n] elements from [dataPtr + from] to element [dst] of a buffer; a
    negative byte count is converted to a huge one.  [Storage::copyOnDevice],
    Storage.cpp:38-44, as called in OpTransform.cpp:184-189, 276-281, 441-445.
    *)
Definition memcpyS (b : list (option A)) (dst : Z) (s : sten) (from n : Z) : option (list (option A)) :=
  if n <? 0 then None
  else loop (seq 0 (Z.to_nat n)) b (fun b k => obind (srd s (from + Z.of_nat k)) (fun x =>
         if dst + Z.of_nat k <? 0 then None else put b (Z.to_nat (dst + Z.of_nat k)) x)).
(** OpTransform.cpp:133-139, [calcBlockSize]. *)
Definition calcBlockSize (shape : list Z) (b e : nat) : Z := numelZ (firstn (e - b) (skipn b shape)).
(** The copying loops of split (175-191), chunk (269-283) and narrow (424-446):
    for every outer block, [len] inner blocks from position [start].  An
    allocation of negative size is undefined.  OpTransform.cpp. *)
Definition cutCopy (s : sten) (dim : nat) (start len : Z) : res sten :=
  let sh := sshape s in
  let rsh := set_nth sh dim len in
  let inner := calcBlockSize sh (S dim) (length sh) in
  let outer := calcBlockSize sh 0 dim in
  let dimSize := nth dim sh 0 in
  if numelZ rsh <? 0 then UB else
  match obind (loop (seq 0 (Z.to_nat outer)) (fresh (Z.to_nat (numelZ rsh))) (fun b o =>
          memcpyS b (Z.of_nat o * len * inner) s (Z.of_nat o * dimSize * inner + start * inner) (len * inner))) seqopt with
  | None => UB
  | Some d => Ok (mkS rsh 0 d)
  end.
(** The piece of [s] at [start]: shared when dim = 0 (155-167, 263-267,
    419-422), copied otherwise.  OpTransform.cpp. *)
Definition cut (esz : Z) (s : sten) (dim : nat) (start len : Z) : res sten :=
  match dim with
  | O => mkview esz (set_nth (sshape s) 0 len) (sstore s) (soff s + start * nth 0 (stridesZ (sshape s)) 0)
  | _ => cutCopy s dim start len
  end.
(** OpTransform.cpp:141-194, [splitOpImplDetail]. *)
Fixpoint splitFrom (esz : Z) (s : sten) (dim : nat) (start : Z) (secs : list Z) : res (list sten) :=
  match secs with
  | [] => Ok []
  | z :: r => rbind (cut esz s dim start z) (fun p => rbind (splitFrom esz s dim (start + z) r) (fun ps => Ok (p :: ps)))
  end.
(** OpTransform.cpp:141-194. *)
Definition splitDetail (esz : Z) (s : sten) (secs : list Z) (dim : Z) : res (list sten) :=
  match axis (rank s) dim with None => Fail | Some d => splitFrom esz s d 0 secs end.
(** OpTransform.cpp:196-209, [splitOpImpl]: [shape(d)] is read before [dim] is
    checked. *)
Definition split (esz : Z) (s : sten) (splitSize dim : Z) : res (list sten) :=
  match at_ (sshape s) (if dim <? 0 then dim + Z.of_nat (rank s) else dim) with
  | None => UB
  | Some dimSize =>
    if (splitSize <=? 0) || negb (Z.rem dimSize splitSize =? 0) then Fail
    else splitDetail esz s (repeat splitSize (Z.to_nat (Z.quot dimSize splitSize))) dim
  end.
(** OpTransform.cpp:211-226, [splitSectionsOpImpl]. *)
Definition splitSections (esz : Z) (s : sten) (sections : list Z) (dim : Z) : res (list sten) :=
  match at_ (sshape s) (if dim <? 0 then dim + Z.of_nat (rank s) else dim) with
  | None => UB
  | Some dimSize =>
    if negb (fold_left Z.add sections 0 =? dimSize) then Fail else splitDetail esz s sections dim
  end.
(** OpTransform.cpp:228-289, [chunkOpImpl]. *)
Fixpoint chunkLoop (esz : Z) (s : sten) (dim : nat) (dimSize splitSize : Z) (n : nat) (start : Z) : res (list sten) :=
  match n with
  | O => Ok []
  | S n =>
    let e := Z.min (start + splitSize) dimSize in
    if e - start <=? 0 then Ok []
    else rbind (cut esz s dim start (e - start)) (fun p =>
         rbind (chunkLoop esz s dim dimSize splitSize n e) (fun ps => Ok (p :: ps)))
  end.
(** OpTransform.cpp:228-289. *)
Definition chunk (esz : Z) (s : sten) (chunks dim : Z) : res (list sten) :=
  match axis (rank s) dim with
  | None => Fail
  | Some d =>
    if chunks <=? 0 then Fail else
    let dimSize := nth d (sshape s) 0 in
    let chunks := Z.min chunks dimSize in
    if chunks =? 0 then UB  (* division by zero *)
    else chunkLoop esz s d dimSize (Z.quot (dimSize + chunks - 1) chunks) (Z.to_nat chunks) 0
  end.
(** OpTransform.cpp:407-447, [narrowOpImpl]. *)
Definition narrow (esz : Z) (s : sten) (dim start length_ : Z) : res sten :=
  match axis (rank s) dim with
  | None => Fail
  | Some d =>
    let dimSize := nth d (sshape s) 0 in
    let start := if start <? 0 then start + dimSize else start in
    if negb ((0 <=? start) && (start <? dimSize)) then Fail
    else if negb ((0 <=? length_) && (start + length_ <=? dimSize)) then Fail
    else cut esz s d start length_
  end.

(** OpTransform.cpp:93-117, [computeIndexAndStride] and [indexOpImpl].  The new
    view starts at [dataIdx]; the offset of [self] is not added (114).  Sizes
    and strides are read unchecked; with no index [stride(-1)] is the last
    stride. *)
Definition dataIndex (s : sten) (idx : list Z) : option Z :=
  fold_left (fun acc p => obind acc (fun acc =>
      obind (at_ (sshape s) (Z.of_nat (fst p))) (fun d =>
      obind (at_ (stridesZ (sshape s)) (Z.of_nat (fst p))) (fun st =>
      Some (acc + (if 0 <=? snd p then snd p else snd p + d) * st)))))
    (combine (seq 0 (length idx)) idx) (Some 0).
(** OpTransform.cpp:93-117. *)
Definition index (esz : Z) (s : sten) (idx : list Z) : res sten :=
  match dataIndex s idx, dimAt (stridesZ (sshape s)) (Z.of_nat (length idx) - 1) with
  | Some dataIdx, Some dimStride =>
    rbind (mkview esz (skipn (length idx) (sshape s)) (sstore s) dataIdx) (fun r =>
      if dimStride =? numelZ (sshape r) then Ok r else Fail)
  | _, _ => UB
  end.
End Storage.
Arguments sten : clear implicits.

(** * Joining (all operands are read through their data pointers) *)
Section Join.
Context {A : Type}.
(** OpTransform.cpp:291-342, [concatOpImpl]. *)
Definition concat (ts : list (tensor A)) (dim : Z) : res (tensor A) :=
  match ts with
  | [] => Fail
  | t0 :: rest =>
    let ndim := length (tshape t0) in
    match axis ndim dim with
    | None => Fail
    | Some d =>
      if forallb (fun t => (length (tshape t) =? ndim)
           && forallb (fun k => (k =? d) || (nth k (tshape t) 0 =? nth k (tshape t0) 0)) (seq 0 ndim)) rest
      then
        let size := fold_left (fun acc t => acc + nth d (tshape t) 0) rest (nth d (tshape t0) 0) in
        let rsh := set_nth (tshape t0) d size in
        let inner := numel (skipn (S d) rsh) in
        let outer := numel (firstn d rsh) in
        finish rsh (obind (loop ts (fresh (numel rsh), 0) (fun acc t =>
            let curr := nth d (tshape t) 0 in
            obind (loop (seq 0 outer) (fst acc) (fun b o =>
                     memcpy b (o * size * inner + snd acc * inner) (tdata t) (o * curr * inner) (curr * inner)))
              (fun b => Some (b, snd acc + curr)))) (fun acc => Some (fst acc)))
      else Fail
    end
  end.
(** OpTransform.cpp:344-385, [stackOpImpl]; the two moving pointers are written
    as offsets. *)
Definition stack (ts : list (tensor A)) (dim : Z) : res (tensor A) :=
  match ts with
  | [] => Fail
  | t0 :: rest =>
    match axis (S (length (tshape t0))) dim with
    | None => Fail
    | Some d =>
      if forallb (fun t => list_eqb (tshape t) (tshape t0)) rest then
        let n := length ts in
        let rsh := firstn d (tshape t0) ++ n :: skipn d (tshape t0) in
        let inner := numel (skipn d (tshape t0)) in
        let outer := numel (firstn d (tshape t0)) in
        finish rsh (loop (combine (seq 0 n) ts) (fresh (numel rsh)) (fun b p =>
          loop (seq 0 outer) b (fun b j =>
            memcpy b (fst p * inner + j * (n * inner)) (tdata (snd p)) (j * inner) inner)))
      else Fail
    end
  end.
(** OpTransform.cpp:387-395 and 397-405. *)
Definition vstack (ts : list (tensor A)) : res (tensor A) :=
  match ts with
  | [] => Fail
  | t0 :: _ => if length (tshape t0) =? 1 then stack ts 0 else concat ts 0
  end.
(** OpTransform.cpp:398-405. *)
Definition hstack (ts : list (tensor A)) : res (tensor A) :=
  match ts with
  | [] => Fail
  | t0 :: _ => if length (tshape t0) =? 1 then concat ts 0 else concat ts 1
  end.
End Join.
