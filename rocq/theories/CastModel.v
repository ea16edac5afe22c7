(** Conversions between element types: Tensor::to, toList, item, Scalar::to and
    the cast of src/Operation/OpTransformCpu.cpp, on the CPU.  A floating-point
    element is its bit pattern, an integer element (Bool is uint8_t) its value. *)
From Coq Require Import List ZArith Bool Arith.
From Flocq Require Import IEEE754.BinarySingleNaN IEEE754.Binary IEEE754.Bits.
From Verif Require Import DispatchModel FloatModel Arith16Model ShapeModel TensorModel BcastModel.
Import ListNotations.
Local Open Scope Z_scope.

(** The element as a float: nothing, Half.h:367-373, BFloat16.h:102-108, or the
    conversion of an integer (IEEE, to nearest even). *)
Definition toFloat (t : dtype) (w : Z) : binary32 :=
  match t with
  | Float32 => b32_of_bits w
  | Float16 => half_float w
  | BFloat16 => bf16_float w
  | Int32 | Int64 | Bool => int_float w
  end.
(** Model only: whether the type is an integer type. *)
Definition isInt (t : dtype) : bool := match t with Int32 | Int64 | Bool => true | _ => false end.
(** DType.h:68-90: int32_t, int64_t and, for Bool, uint8_t: least value and number
    of values.  Not used for the others. *)
Definition least (t : dtype) : Z := match t with Int32 => - 2 ^ 31 | Int64 => - 2 ^ 63 | _ => 0 end.
(** DType.h:68-90. *)
Definition span (t : dtype) : Z := match t with Int32 => 2 ^ 32 | Int64 => 2 ^ 64 | _ => 2 ^ 8 end.
(** Conversion of an integer to an integer type: modulo the number of values. *)
Definition wrap (t : dtype) (n : Z) : Z := least t + (n - least t) mod span t.
(** Conversion of a float to an integer type: the fraction is dropped; undefined
    if the type does not have the result. *)
Definition chop (t : dtype) (f : binary32) : res Z :=
  if is_finite 24 128 f then
    let n := Btrunc 24 128 f in
    if (least t <=? n) && (n <? least t + span t) then Ok n else UB
  else UB.
(** OpTransformCpu.cpp:16, Scalar.h:43-49: static_cast<d>(x) of an element [w] of
    type [s].  For Half and BFloat16 the casts go through float. *)
Definition cast (s d : dtype) (w : Z) : res Z :=
  match d with
  | Float32 => Ok (bits_of_b32 (toFloat s w))
  | Float16 => Ok (float_half (toFloat s w))
  | BFloat16 => Ok (float_bf16 (toFloat s w))
  | Int32 | Int64 | Bool => if isInt s then Ok (wrap d w) else chop d (toFloat s w)
  end.
(** Model only: f on every element in order, undefined if it is for one. *)
Fixpoint castAll (f : Z -> res Z) (l : list Z) : res (list Z) :=
  match l with
  | [] => Ok []
  | w :: l => match f w, castAll f l with Ok v, Ok vs => Ok (v :: vs) | _, _ => UB end
  end.
(** A tensor: element type, shape, elements, which storage it has, requiresGrad,
    and whether it has a history (a function that backward() goes on to). *)
Record ten := Ten { dt : dtype; sh : list nat; els : list Z; stor : nat; rg : bool; hist : bool }.
(** Tensor.cpp:224-233 Tensor::to with OpTransformCpu.cpp:11-48; [s] is the new
    storage.  The options are copied with requiresGrad; the result is a new leaf
    (Tensor.cpp:17-26).  The loop's int is assumed not to overflow (fewer than
    2^31 elements). *)
Definition to (t : dtype) (s : nat) (x : ten) : res ten :=
  if (dtypeNum (dt x) =? dtypeNum t)%nat then Ok x
  else match castAll (cast (dt x) t) (els x) with
       | Ok l => Ok (Ten t (sh x) l s (rg x) false)
       | _ => UB
       end.
(** Tensor.h:349-354 toList<T>, TensorImpl.h:106-111. *)
Definition toList (t : dtype) (x : ten) : res (list Z) :=
  match to t 0 x with Ok y => Ok (els y) | _ => UB end.
(** Tensor.h:356-361 item<T>, TensorImpl.h:119-125: one element is asserted. *)
Definition item (t : dtype) (x : ten) : res Z :=
  match to t 0 x with
  | Ok y => match els y with [w] => Ok w | _ => Fail end
  | _ => UB
  end.
(** Scalar.h:37-49: the types a Scalar is made of; a bool is 0 or 1. *)
Definition scalarTo (k t : dtype) (w : Z) : res Z :=
  if (dtypeNum k =? dtypeNum t)%nat then Ok w else cast k t w.
(** OpFillingCpu.h:24-29, Tensor::fill_ of a tensor of type [t] with a Scalar. *)
Definition fill (k : dtype) (w : Z) (x : ten) : res ten :=
  match scalarTo k (dt x) w with
  | Ok v => Ok (Ten (dt x) (sh x) (map (fun _ => v) (els x)) (stor x) (rg x) (hist x))
  | _ => UB
  end.
