(** Broadcasting and element-wise iteration: src/Tensor/TensorIterator.{h,cpp},
    the element-wise kernels of src/Operation/OpElemWiseCpu.h, and [reduceGrad]
    of src/Function/FuncElemWise.h with the reductions it calls
    (src/Operation/OpReduceCpu.{h,cpp}, OpReduce.cpp). *)
From Coq Require Import ZArith List Bool Arith.
From Verif Require Import ShapeModel TensorModel.
Import ListNotations.

(** * Broadcast shape *)
(** TensorIterator.cpp:17-20, [ndim_]. *)
Definition max_dim (shapes : list (list nat)) : nat := fold_left (fun m s => Nat.max m (length s)) shapes 0.
(** TensorIterator.cpp:78-79, the size of [shape] at position [i] of [ndim]. *)
Definition dim_at (ndim : nat) (shape : list nat) (i : nat) : nat :=
  let idx := ndim - length shape in if i <? idx then 1 else nth (i - idx) shape 0.
(** TensorIterator.cpp:80-84, one operand; [None]: incompatible. *)
Definition bdim (dim : option nat) (d : nat) : option nat :=
  match dim with
  | None => None
  | Some dim => if negb (d =? 1) && negb (dim =? 1) && negb (d =? dim) then None else Some (Nat.max dim d)
  end.
(** TensorIterator.cpp:73-89, [broadcastShape]. *)
Definition broadcastShape (shapes : list (list nat)) : option (list nat) :=
  let ndim := max_dim shapes in
  seqopt (map (fun i => fold_left bdim (map (fun s => dim_at ndim s i) shapes) (Some 1)) (seq 0 ndim)).

(** * Iteration *)
(** TensorIterator.cpp:91-97, [alignShape]. *)
Definition alignShape (ndim : nat) (shape : list nat) : list nat := repeat 1 (ndim - length shape) ++ shape.
(** TensorIterator.cpp:99-106, [alignStrides]. *)
Definition alignStrides (ndim : nat) (shape : list nat) : list nat :=
  repeat 0 (ndim - length shape) ++
  map (fun p => if fst p =? 1 then 0 else snd p) (combine shape (strides shape)).
(** TensorIterator.h:80-89: the increments of one input, last dimension first;
    the pair is ([stridesTmp], increments). *)
Definition increments (ashape astrides : list nat) : list Z :=
  snd (fold_right (fun p acc => (fst acc * fst p, (if snd p =? 0 then 0%Z else Z.of_nat (fst acc)) :: snd acc))
         (1, []) (combine ashape astrides)).

(** TensorIterator.h:98-100, on all inputs at once. *)
Definition vadd (a b : list Z) : list Z := map (fun p => (fst p + snd p)%Z) (combine a b).
(** TensorIterator.h:104-106, on all inputs at once. *)
Definition vsub (a b : list Z) : list Z := map (fun p => (fst p - snd p)%Z) (combine a b).
(** TensorIterator.h:105: the multiple of the increments that is taken back. *)
Definition vscale (c : Z) (a : list Z) : list Z := map (Z.mul c) a.
(** TensorIterator.h:96-108, the odometer.  [sizes], [coord] and [incs] (for
    each dimension the increments of all inputs) are listed from the first
    dimension; the loop runs from the last one, so the tail is done first; the
    flag says whether the loop is still running when it reaches a dimension. *)
Fixpoint bump (sizes coord : list nat) (incs : list (list Z)) (offs : list Z) : bool * list nat * list Z :=
  match sizes, coord, incs with
  | s :: ss, c :: cs, inc :: is =>
    let '(running, cs', offs') := bump ss cs is offs in
    if running then
      let c := S c in
      let offs' := vadd offs' inc in
      if c <? s then (false, c :: cs', offs')
      else (true, 0 :: cs', vsub offs' (vscale (Z.of_nat c) inc))
    else (false, c :: cs', offs')
  | _, _, _ => (true, [], offs)
  end.

(** TensorIterator.h:63-67, [callWithOffsets]: read every input, call [f]. *)
Definition call {A B} (f : list A -> B) (datas : list (list A)) (offs : list Z) : option B :=
  obind (seqopt (map (fun p => rdZ (fst p) (snd p)) (combine datas offs))) (fun args => Some (f args)).

(** TensorIterator.h:91-109: the offset vectors of the successive iterations of
    the main loop (they do not depend on the data). *)
Fixpoint trace (n : nat) (sizes : list nat) (incs : list (list Z)) (coord : list nat) (offs : list Z)
  : list (list Z) :=
  match n with
  | O => []
  | S n => offs :: let '(_, coord', offs') := bump sizes coord incs offs in trace n sizes incs coord' offs'
  end.
(** TensorIterator.h:80-89: the increments regrouped by dimension. *)
Fixpoint transpose_incs (ndim : nat) (per_input : list (list Z)) : list (list Z) :=
  match ndim with
  | O => []
  | S n => map (hd 0%Z) per_input :: transpose_incs n (map (@tl Z) per_input)
  end.
(** TensorIterator.h:77-110, [forEachBroadcast]. *)
Definition offsetsBroadcast {A} (ts : list (tensor A)) (shape : list nat) : list (list Z) :=
  let ndim := length shape in
  let incs := map (fun t => increments (alignShape ndim (tshape t)) (alignStrides ndim (tshape t))) ts in
  trace (numel shape) shape (transpose_incs ndim incs) (repeat 0 ndim) (map (fun _ => 0%Z) ts).

(** TensorImpl.h:43. *)
Definition isScalar {A} (t : tensor A) : bool := match tshape t with [] => true | _ => false end.
(** Model only: equality of shapes. *)
Definition list_eqb (a b : list nat) : bool := if list_eq_dec Nat.eq_dec a b then true else false.
(** TensorIterator.cpp:54-67, [allNonScalarSameShape_]. *)
Definition sameShape {A} (ts : list (tensor A)) : bool :=
  match filter (fun t => negb (isScalar t)) ts with
  | [] => true
  | r :: rest => forallb (fun t => list_eqb (tshape t) (tshape r)) rest
  end.
(** TensorIterator.h:69-75, [forEachGeneric]: the index vectors. *)
Definition offsetsGeneric {A} (ts : list (tensor A)) (total : nat) (ix : nat -> tensor A -> nat) : list (list Z) :=
  map (fun i => map (fun t => Z.of_nat (ix i t)) ts) (seq 0 total).
(** TensorIterator.h:112-138, [forEachImpl]: which elements are read for the
    successive output elements. *)
Definition offsets {A} (ts : list (tensor A)) (shape : list nat) : list (list Z) :=
  if forallb isScalar ts then offsetsGeneric ts (numel shape) (fun _ _ => 0)
  else if sameShape ts then
    if forallb (fun t => negb (isScalar t)) ts then offsetsGeneric ts (numel shape) (fun i _ => i)
    else offsetsGeneric ts (numel shape) (fun i t => if isScalar t then 0 else i)
  else offsetsBroadcast ts shape.
(** TensorIterator.h:51-54, 112-138. *)
Definition forEach {A B} (f : list A -> B) (ts : list (tensor A)) (shape : list nat) : option (list B) :=
  seqopt (map (call f (map tdata ts)) (offsets ts shape)).

(** Result of an operation: undefined behaviour (out-of-range access), a failed
    ASSERT (exception), or a value.  Model only. *)
Inductive res (A : Type) := UB | Fail | Ok (x : A).
Arguments UB {A}. Arguments Fail {A}. Arguments Ok {A}.

(** OpElemWiseCpu.h:340-349, 375-383, 405-428, 443-452, 476-485: every
    out-of-place element-wise operation on several operands. *)
Definition elementwise {A B} (f : list A -> B) (ts : list (tensor A)) : res (tensor B) :=
  match broadcastShape (map tshape ts) with
  | None => Fail
  | Some shape => match forEach f ts shape with
                  | None => UB
                  | Some d => Ok (mkT shape d)
                  end
  end.
(** OpElemWiseCpu.h:297-305, 326-337: unary operations. *)
Definition unary {A B} (f : A -> B) (t : tensor A) : option (tensor B) :=
  obind (tab (tnumel t) (fun i => obind (rd (tdata t) i) (fun x => Some (f x)))) (fun d => Some (mkT (tshape t) d)).

(** OpElemWiseCpu.h:363-373, 395-403, 465-474, 498-507: in-place operations.
    The first operand is also the output: element i is written before the later
    ones are read.  [None] among the others is the same tensor object as the
    first (x += x), so it reads the partly updated data as well. *)
Definition operand {A} (self : tensor A) (o : option (tensor A)) : tensor A :=
  match o with None => self | Some t => t end.
(** OpElemWiseCpu.h:363-373, 395-403, 465-474, 498-507. *)
Definition elementwise_inplace {A} (f : list A -> A) (self : tensor A) (others : list (option (tensor A)))
  : res (tensor A) :=
  let ts := self :: map (operand self) others in
  match broadcastShape (map tshape ts) with
  | None => Fail
  | Some shape =>
    if list_eqb shape (tshape self) then
      match loop (combine (seq 0 (numel shape)) (offsets ts shape)) (tdata self) (fun cur p =>
              let now := mkT (tshape self) cur in
              obind (call f (map tdata (now :: map (operand now) others)) (snd p)) (fun y => wr cur (fst p) y)) with
      | None => UB
      | Some d => Ok (mkT shape d)
      end
    else Fail
  end.

(** * Reductions over several dimensions *)
(** OpReduce.cpp:26-39, [getReduceShape]; [ax] is [inAxis]. *)
Definition getReduceShape (shape : list nat) (ax : list bool) (keepDims : bool) : list nat :=
  flat_map (fun p => if snd p : bool then (if keepDims then [1] else []) else [fst p]) (combine shape ax).
(** OpReduceCpu.cpp:38-48, [getReduceDstIndex]: pair ([retIdx], [stride]). *)
Definition getReduceDstIndex (shape : list nat) (ax : list bool) (idx : nat) : nat :=
  fst (fold_right (fun p acc =>
         if snd p : bool then acc
         else (fst acc + (idx / snd (fst p)) mod fst (fst p) * snd acc, snd acc * fst (fst p)))
       (0, 1) (combine (combine shape (strides shape)) ax)).
(** OpReduceCpu.h:156-181, [reduceMultiDim] with the sum functor (215-224);
    the dimensions are already normalised and marked in [ax]. *)
Definition sumDims {K : cring} (t : tensor K) (ax : list bool) (keepDims : bool) : option (tensor K) :=
  let rsh := getReduceShape (tshape t) ax keepDims in
  obind (loop (seq 0 (tnumel t)) (repeat zero (numel rsh)) (fun ret srcIdx =>
           let r := getReduceDstIndex (tshape t) ax srcIdx in
           obind (rd ret r) (fun a => obind (rd (tdata t) srcIdx) (fun x => wr ret r (add a x)))))
        (fun d => Some (mkT rsh d)).
(** OpReduceCpu.h:157-169: the dimension list as marks; [None]: a dimension out
    of range (ASSERT).  Negative dimensions count from the end. *)
Definition marks (rank : nat) (dims : list Z) : option (list bool) :=
  fold_left (fun acc d => match acc with
    | None => None
    | Some m => let d := if (d <? 0)%Z then (d + Z.of_nat rank)%Z else d in
                if ((d <? 0) || (Z.of_nat rank <=? d))%Z then None else Some (set_nth m (Z.to_nat d) true)
    end) dims (Some (repeat false rank)).
(** OpReduceCpu.h:215-224, [reduceOpSumDimsCpuImpl]. *)
Definition sumOnDims {K : cring} (t : tensor K) (dims : list Z) (keepDims : bool) : res (tensor K) :=
  if isScalar t then Ok t
  else match dims with [] => Fail | _ =>
    match marks (length (tshape t)) dims with
    | None => Fail
    | Some ax => match sumDims t ax keepDims with None => UB | Some r => Ok r end
    end
  end.

(** FuncElemWise.h:14-37, [reduceGrad].  The marks replace the dimension list,
    which is increasing and non-negative; the final [reshapeInplace] is
    [reshape_] with the shape of [self]. *)
Definition reduceGrad {K : cring} (self : list nat) (grad : tensor K) : option (tensor K) :=
  let ndim := Nat.max (length self) (length (tshape grad)) in
  let ax := map (fun i => (dim_at ndim self i =? 1) && negb (dim_at ndim (tshape grad) i =? 1)) (seq 0 ndim) in
  if forallb negb ax then Some grad
  else obind (sumDims grad ax true) (fun r =>
         let v := reshape_ (newView (map Z.of_nat (tshape r)) (tdata r)) (map Z.of_nat self) in
         Some (mkT (map Z.to_nat (vshape v)) (vdata v))).
