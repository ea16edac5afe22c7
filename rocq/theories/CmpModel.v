(** Comparisons, maximum and minimum, clamping, sign and relu of
    src/Operation/OpElemWiseCpu.h on the bit patterns of the elements. *)
From Coq Require Import ZArith List Bool.
From Flocq Require Import IEEE754.Binary IEEE754.Bits.
From Verif Require Import ShapeModel TensorModel BcastModel DispatchModel FloatModel.
Import ListNotations.
Local Open Scope Z_scope.

(** Half.h:367-373 and BFloat16.h:102-108, [operator float()]; a Float32 element
    is a float already. *)
Definition asFloat (t : dtype) (w : Z) : binary32 :=
  match t with
  | Float16 => b32_of_bits (fp16_ieee_to_fp32_value w)
  | BFloat16 => b32_of_bits (f32_from_bits w)
  | _ => b32_of_bits w
  end.
(** What the built-in comparison operators find.  The comparison operators of
    Half.h:535-545 and BFloat16.h:287-297 take non-const references, so for the
    [const T&] operands used here both operands are converted to float. *)
Definition relate (t : dtype) (a b : Z) : option comparison :=
  match t with
  | Float32 | Float16 | BFloat16 => b32_compare (asFloat t a) (asFloat t b)
  | Int32 | Int64 | Bool => Some (a ?= b)
  end.
(** Model only: operator< as used at OpElemWiseCpu.h:227. *)
Definition less (t : dtype) (a b : Z) : bool := match relate t a b with Some Lt => true | _ => false end.
(** Model only: operator> as used at OpElemWiseCpu.h:241. *)
Definition greater (t : dtype) (a b : Z) : bool := match relate t a b with Some Gt => true | _ => false end.
(** Model only: operator<= as used at OpElemWiseCpu.h:234. *)
Definition lessEq (t : dtype) (a b : Z) : bool := match relate t a b with Some Lt | Some Eq => true | _ => false end.
(** Model only: operator>= as used at OpElemWiseCpu.h:248. *)
Definition greaterEq (t : dtype) (a b : Z) : bool := match relate t a b with Some Gt | Some Eq => true | _ => false end.
(** Model only: operator== as used at OpElemWiseCpu.h:213. *)
Definition equal (t : dtype) (a b : Z) : bool := match relate t a b with Some Eq => true | _ => false end.
(** OpElemWiseCpu.h:210-250. *)
Inductive cmpOp := OpEq | OpNe | OpLt | OpLe | OpGt | OpGe.
(** OpElemWiseCpu.h:210-250. *)
Definition cmpApply (o : cmpOp) (t : dtype) (a b : Z) : bool :=
  match o with
  | OpEq => equal t a b
  | OpNe => negb (equal t a b)
  | OpLt => less t a b
  | OpLe => lessEq t a b
  | OpGt => greater t a b
  | OpGe => greaterEq t a b
  end.
(** The elements T(0), T(1), T(-1).  Model only. *)
Definition zeroW (t : dtype) : Z := 0.
(** Model only: T(1). *)
Definition oneW (t : dtype) : Z :=
  match t with Float32 => 0x3F800000 | Float16 => 0x3C00 | BFloat16 => 0x3F80 | _ => 1 end.
(** Model only: T(-1). *)
Definition minusOneW (t : dtype) : Z :=
  match t with Float32 => 0xBF800000 | Float16 => 0xBC00 | BFloat16 => 0xBF80 | _ => -1 end.
(** OpElemWiseCpu.h:196-208 with std::max and std::min. *)
Definition opMaximum (t : dtype) (a b : Z) : Z := if less t a b then b else a.
(** OpElemWiseCpu.h:203-208. *)
Definition opMinimum (t : dtype) (a b : Z) : Z := if less t b a then b else a.
(** OpElemWiseCpu.h:273-294. *)
Definition opClampMin (t : dtype) (a minVal : Z) : Z := if less t a minVal then minVal else a.
(** OpElemWiseCpu.h:280-285. *)
Definition opClampMax (t : dtype) (a maxVal : Z) : Z := if greater t a maxVal then maxVal else a.
(** OpElemWiseCpu.h:287-294. *)
Definition opClamp (t : dtype) (a minVal maxVal : Z) : Z :=
  if less t a minVal then minVal else if greater t a maxVal then maxVal else a.
(** OpElemWiseCpu.h:30-35, 107-112. *)
Definition opSign (t : dtype) (a : Z) : Z := if greater t a (zeroW t) then oneW t else minusOneW t.
(** OpElemWiseCpu.h:107-112. *)
Definition opRelu (t : dtype) (a : Z) : Z := if greater t a (zeroW t) then a else zeroW t.

(** OpElemWiseCpu.h:416-428, 375-383, 446-455, 296-305. *)
Definition cmpTensors (o : cmpOp) (t : dtype) (self other : tensor Z) : res (tensor bool) :=
  elementwise (fun l => cmpApply o t (nth 0 l 0) (nth 1 l 0)) [self; other].
(** OpElemWiseCpu.h:375-383. *)
Definition binaryTensors (f : dtype -> Z -> Z -> Z) (t : dtype) (self other : tensor Z) : res (tensor Z) :=
  elementwise (fun l => f t (nth 0 l 0) (nth 1 l 0)) [self; other].
(** OpElemWiseCpu.h:375-383 with 196-201. *)
Definition maximum := binaryTensors opMaximum.
(** OpElemWiseCpu.h:375-383 with 203-208. *)
Definition minimum := binaryTensors opMinimum.
(** OpElemWiseCpu.h:375-383 with 273-278. *)
Definition clampMin := binaryTensors opClampMin.
(** OpElemWiseCpu.h:375-383 with 280-285. *)
Definition clampMax := binaryTensors opClampMax.
(** OpElemWiseCpu.h:446-455 with 287-294. *)
Definition clamp (t : dtype) (self p1 p2 : tensor Z) : res (tensor Z) :=
  elementwise (fun l => opClamp t (nth 0 l 0) (nth 1 l 0) (nth 2 l 0)) [self; p1; p2].
(** OpElemWiseCpu.h:296-305. *)
Definition unaryTensor (f : dtype -> Z -> Z) (t : dtype) (self : tensor Z) : res (tensor Z) :=
  match unary (f t) self with None => UB | Some r => Ok r end.
(** OpElemWiseCpu.h:296-305 with 30-35. *)
Definition sign := unaryTensor opSign.
(** OpElemWiseCpu.h:296-305 with 107-112. *)
Definition relu := unaryTensor opRelu.
(** FuncActivation.h:16-18: relu of the autograd interface. *)
Definition reluFunction (t : dtype) (self : tensor Z) : res (tensor Z) := clampMin t self (mkT [] [zeroW t]).
