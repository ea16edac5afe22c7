(** Element types: src/Tensor/DType.h, the unchecked [dataPtr<T>()] of
    src/Tensor/TensorImpl.h and the element-wise operations of
    src/Operation/OpElemWiseCpu.h seen as functions of the bytes of their
    operands. *)
From Coq Require Import ZArith List Bool Arith.
From Verif Require Import ShapeModel TensorModel BcastModel DispatchModel.
Import ListNotations.

(** DType.h:30-46. *)
Definition dtypeSize (t : dtype) : nat :=
  match t with Float32 => 4 | Float16 => 2 | BFloat16 => 2 | Int32 => 4 | Int64 => 8 | Bool => 1 end.
(** A tensor with its element type and the bytes of its storage
    (TensorImpl.h:34-41; [nbytes] of them). *)
Record typed := mkTyped { ty : dtype; ysh : list nat; ybytes : list Z }.
(** The value of some bytes as one little-endian bit pattern, and back.  Model
    only. *)
Definition pattern (l : list Z) : Z := fold_right (fun b a => b + 256 * a)%Z 0%Z l.
(** Model only: the inverse of [pattern]. *)
Fixpoint toBytes (n : nat) (v : Z) : list Z :=
  match n with O => [] | S n => (v mod 256)%Z :: toBytes n (v / 256)%Z end.
(** TensorImpl.h:46-56, [dataPtr<T>()]: [ptr[i]] for a type of [w] bytes is made
    of the bytes from i*w on.  The list has the elements that lie wholly inside
    the storage; reading any other is undefined.  The recursion is on a bound on
    the number of elements. *)
Fixpoint chunks (n w : nat) (l : list Z) : list Z :=
  match n with
  | O => []
  | S n => if length l <? w then [] else pattern (firstn w l) :: chunks n w (skipn w l)
  end.
(** TensorImpl.h:46-56. *)
Definition dataPtr (t : dtype) (x : typed) : tensor Z :=
  mkT (ysh x) (chunks (length (ybytes x)) (dtypeSize t) (ybytes x)).
(** Results are stored as elements of the output's type.  As at
    TensorIterator.h:70-76, 94-95. *)
Definition store (t : dtype) (r : tensor Z) : typed := mkTyped t (tshape r) (flat_map (toBytes (dtypeSize t)) (tdata r)).
(** Model only: apply a total function to a result. *)
Definition rmap {A B} (f : A -> B) (r : res A) : res B := match r with UB => UB | Fail => Fail | Ok x => Ok (f x) end.
(** OpElemWiseCpu.h:340-349, 375-383, [binaryOp*CpuImpl<T, OP>], with
    Dispatch.h:59-75: T is the type of the first tensor argument; the type of the
    second is not looked at.  [op t] is OP::apply<T> on bit patterns (values of
    the type; an addend factor alpha is part of it). *)
Definition binaryTyped (op : dtype -> Z -> Z -> Z) (self other : typed) : res typed :=
  let t := ty self in
  rmap (store t) (elementwise (fun args => op t (nth 0 args 0%Z) (nth 1 args 0%Z)) [dataPtr t self; dataPtr t other]).
(** OpElemWiseCpu.h:416-428, [binaryOpCompareCpuImpl<T, OP>]: Bool result. *)
Definition compareTyped (op : dtype -> Z -> Z -> bool) (self other : typed) : res typed :=
  let t := ty self in
  rmap (store Bool)
    (elementwise (fun args => if op t (nth 0 args 0%Z) (nth 1 args 0%Z) then 1%Z else 0%Z) [dataPtr t self; dataPtr t other]).
(** Tensor.cpp:132-138, [copy_]: the types are checked here. *)
Definition copyTyped (self src : typed) : res typed :=
  if list_eqb (ysh src) (ysh self) then
    if dtypeNum (ty src) =? dtypeNum (ty self) then
      let nbytes := numel (ysh self) * dtypeSize (ty self) in
      if (nbytes <=? length (ybytes src)) && (nbytes <=? length (ybytes self))
      then Ok (mkTyped (ty self) (ysh self) (firstn nbytes (ybytes src) ++ skipn nbytes (ybytes self)))
      else UB
    else Fail
  else Fail.
