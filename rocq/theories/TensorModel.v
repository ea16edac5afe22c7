(** Tensors as shape plus row-major data, and the vocabulary in which the loops
    of the CPU kernels are written. *)
From Coq Require Import ZArith List Bool Arith.
From Verif Require Import ShapeModel.
Import ListNotations.

(** src/Tensor/TensorImpl.h:88-95: a contiguous tensor is its shape and the
    elements from [dataPtr_] on (strides are always those of [computeStrides],
    TensorImpl.cpp:13-38). *)
Record tensor (A : Type) := mkT { tshape : list nat; tdata : list A }.
Arguments mkT {A}. Arguments tshape {A}. Arguments tdata {A}.
(** TensorImpl.h:40, [numel()]; always the product of the shape. *)
Definition tnumel {A} (t : tensor A) : nat := numel (tshape t).
(** TensorImpl.h:60, [strides()]; always row-major. *)
Definition tstrides {A} (t : tensor A) : list nat := strides (tshape t).

(** A read [ptr[i]]; [None] is a read outside the data.  Model only. *)
Definition rd {A} (l : list A) (i : nat) : option A := nth_error l i.
(** Model only: [ptr[i]] with an int64_t position. *)
Definition rdZ {A} (l : list A) (i : Z) : option A :=
  if (i <? 0)%Z then None else nth_error l (Z.to_nat i).
(** A write [ptr[i] = v]; [None] is a write outside the data.  Model only. *)
Fixpoint wr {A} (l : list A) (i : nat) (v : A) : option (list A) :=
  match l, i with
  | [], _ => None
  | _ :: r, O => Some (v :: r)
  | x :: r, S i => match wr r i v with Some r => Some (x :: r) | None => None end
  end.

(** Model only: sequencing; undefined behaviour propagates. *)
Definition obind {A B} (o : option A) (f : A -> option B) : option B :=
  match o with Some x => f x | None => None end.
(** Model only: all of several reads. *)
Fixpoint seqopt {A} (l : list (option A)) : option (list A) :=
  match l with
  | [] => Some []
  | o :: r => obind o (fun x => obind (seqopt r) (fun r => Some (x :: r)))
  end.
(** [for (i = 0; i < n; i++) out[i] = f(i)].  Model only: the usual element
    loop. *)
Definition tab {A} (n : nat) (f : nat -> option A) : option (list A) := seqopt (map f (seq 0 n)).
(** [for (x : l) s = body(s, x)].  Model only: a loop with a state. *)
Fixpoint loop {S I} (l : list I) (s : S) (body : S -> I -> option S) : option S :=
  match l with
  | [] => Some s
  | i :: r => obind (body s i) (fun s => loop r s body)
  end.

(** Commutative rings: element arithmetic without rounding.  The kernels are
    modelled over an arbitrary one.  Model only. *)
Record cring := mkRing {
  car :> Type;
  zero : car; one : car;
  add : car -> car -> car; mul : car -> car -> car; opp : car -> car;
  add_comm : forall x y, add x y = add y x;
  add_assoc : forall x y z, add x (add y z) = add (add x y) z;
  add_0_l : forall x, add zero x = x;
  add_opp_r : forall x, add x (opp x) = zero;
  mul_comm : forall x y, mul x y = mul y x;
  mul_assoc : forall x y z, mul x (mul y z) = mul (mul x y) z;
  mul_1_l : forall x, mul one x = x;
  mul_add_l : forall x y z, mul x (add y z) = add (mul x y) (mul x z) }.
Arguments zero {_}. Arguments one {_}. Arguments add {_}. Arguments mul {_}. Arguments opp {_}.
(** Model only: the integers. *)
Definition Zring : cring :=
  mkRing Z 0%Z 1%Z Z.add Z.mul Z.opp Z.add_comm Z.add_assoc Z.add_0_l Z.add_opp_diag_r
    Z.mul_comm Z.mul_assoc Z.mul_1_l Z.mul_add_distr_l.
