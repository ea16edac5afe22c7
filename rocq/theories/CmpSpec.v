(** The numbers that elements stand for, and their order. *)
From Coq Require Import ZArith Reals.
From Flocq Require Import IEEE754.Binary IEEE754.Bits.
From Verif Require Import DispatchModel FloatSpec CmpModel.
Local Open Scope Z_scope.

Inductive number := NaN | MInf | Num (x : R) | PInf.
Definition number_of {p e} (x : binary_float p e) : number :=
  if is_nan p e x then NaN
  else if is_finite p e x then Num (B2R p e x)
  else if Bsign p e x then MInf else PInf.
(** The number an element of type [t] with bit pattern [w] stands for; for the
    integer types [w] is the integer itself. *)
Definition value (t : dtype) (w : Z) : number :=
  match t with
  | Float32 => number_of (b32_of_bits w)
  | Float16 => number_of (fp16 w)
  | BFloat16 => number_of (bf16 w)
  | Int32 | Int64 | Bool => Num (IZR w)
  end.
(** The elements of a type. *)
Definition element (t : dtype) (w : Z) : Prop :=
  match t with
  | Float32 => 0 <= w < 2 ^ 32
  | Float16 | BFloat16 => 0 <= w < 2 ^ 16
  | Int32 => - 2 ^ 31 <= w < 2 ^ 31
  | Int64 => - 2 ^ 63 <= w < 2 ^ 63
  | Bool => 0 <= w < 2
  end.
(** a < b and a = b; both false when one of them is NaN. *)
Definition num_lt (a b : number) : Prop :=
  match a, b with
  | NaN, _ | _, NaN | PInf, _ | _, MInf => False
  | MInf, _ | _, PInf => True
  | Num x, Num y => (x < y)%R
  end.
Definition num_eq (a b : number) : Prop := a <> NaN /\ a = b.
Definition num_le (a b : number) : Prop := num_lt a b \/ num_eq a b.
(** The six comparisons. *)
Definition cmp_meaning (o : cmpOp) (a b : number) : Prop :=
  match o with
  | OpEq => num_eq a b | OpNe => ~ num_eq a b
  | OpLt => num_lt a b | OpLe => num_le a b
  | OpGt => num_lt b a | OpGe => num_le b a
  end.
(** The types the operations are registered for (OpElemWiseCpu.cpp). *)
Definition floating (t : dtype) : Prop := t = Float32 \/ t = Float16 \/ t = BFloat16.
Definition comparable (t : dtype) : Prop := floating t \/ t = Int64.
