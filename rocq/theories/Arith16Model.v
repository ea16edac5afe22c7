(** Arithmetic of the 16-bit element types: src/Utils/Half.h and
    src/Utils/BFloat16.h, and the operations of src/Operation/OpElemWiseCpu.h on
    them.  Every operator widens its operands to float32, computes there (IEEE
    binary32, rounding to nearest even: the operations of Flocq) and narrows the
    result.  Elements are their 16-bit words. *)
From Coq Require Import ZArith Bool.
From Flocq Require Import IEEE754.BinarySingleNaN IEEE754.Binary IEEE754.Bits.
From Verif Require Import FloatModel.
Open Scope Z_scope.

(** Half.h:367-373, [operator float]. *)
Definition half_float (a : Z) : binary32 := b32_of_bits (fp16_ieee_to_fp32_value a).
(** Half.h:355-363, the constructor from a float. *)
Definition float_half (f : binary32) : Z := fp16_ieee_from_fp32_value (bits_of_b32 f).
(** Half.h:388-390. *)
Definition half_add (a b : Z) : Z := float_half (b32_plus mode_NE (half_float a) (half_float b)).
(** Half.h:392-394. *)
Definition half_sub (a b : Z) : Z := float_half (b32_minus mode_NE (half_float a) (half_float b)).
(** Half.h:396-398. *)
Definition half_mul (a b : Z) : Z := float_half (b32_mult mode_NE (half_float a) (half_float b)).
(** Half.h:400-402. *)
Definition half_div (a b : Z) : Z := float_half (b32_div mode_NE (half_float a) (half_float b)).
(** Half.h:404-410; the host variant. *)
Definition half_neg (a : Z) : Z := float_half (b32_opp (half_float a)).
(** OpElemWiseCpu.h:37-42, [OpCpuSqrt]: [std::sqrt] of the float. *)
Definition half_sqrt (a : Z) : Z := float_half (b32_sqrt mode_NE (half_float a)).
(** OpElemWiseCpu.h:16-21, [OpCpuAbs]: [std::abs] of the float. *)
Definition half_abs (a : Z) : Z := float_half (b32_abs (half_float a)).

(** Model only: the binary operators by name. *)
Inductive operator := OpAdd | OpSub | OpMul | OpDiv.
(** Model only. *)
Definition half_op (op : operator) : Z -> Z -> Z := match op with OpAdd => half_add | OpSub => half_sub | OpMul => half_mul | OpDiv => half_div end.

(** BFloat16.h:102-108, [operator float]; the host variant. *)
Definition bf16_float (a : Z) : binary32 := b32_of_bits (f32_from_bits a).
(** BFloat16.h:90-99, the constructor from a float; the host variant. *)
Definition float_bf16 (f : binary32) : Z := round_to_nearest_even (bits_of_b32 f).
(** BFloat16.h:131-133. *)
Definition bf16_add (a b : Z) : Z := float_bf16 (b32_plus mode_NE (bf16_float a) (bf16_float b)).
(** BFloat16.h:135-137. *)
Definition bf16_sub (a b : Z) : Z := float_bf16 (b32_minus mode_NE (bf16_float a) (bf16_float b)).
(** BFloat16.h:139-141. *)
Definition bf16_mul (a b : Z) : Z := float_bf16 (b32_mult mode_NE (bf16_float a) (bf16_float b)).
(** BFloat16.h:143-145. *)
Definition bf16_div (a b : Z) : Z := float_bf16 (b32_div mode_NE (bf16_float a) (bf16_float b)).
(** BFloat16.h:147. *)
Definition bf16_neg (a : Z) : Z := float_bf16 (b32_opp (bf16_float a)).
(** OpElemWiseCpu.h:37-42. *)
Definition bf16_sqrt (a : Z) : Z := float_bf16 (b32_sqrt mode_NE (bf16_float a)).
(** OpElemWiseCpu.h:16-21. *)
Definition bf16_abs (a : Z) : Z := float_bf16 (b32_abs (bf16_float a)).

(** Model only. *)
Definition bf16_op (op : operator) : Z -> Z -> Z := match op with OpAdd => bf16_add | OpSub => bf16_sub | OpMul => bf16_mul | OpDiv => bf16_div end.

(** The conversion of an int or int64_t to float that [static_cast<Half>(b)] and
    [static_cast<BFloat16>(b)] start with; IEEE conversion from an integer. *)
Definition int_float (n : Z) : binary32 := binary_normalize 24 128 eq_refl eq_refl mode_NE n 0 false.
(** Half.h:463-531, [static_cast<Half>(b)] of the operators with an integer. *)
Definition half_of_int (n : Z) : Z := float_half (int_float n).
(** BFloat16.h:215-283, [static_cast<BFloat16>(b)]. *)
Definition bf16_of_int (n : Z) : Z := float_bf16 (int_float n).

(** The comparisons of two floats (IEEE: NaN is unordered). *)
Inductive cmp := CGt | CLt | CGe | CLe.
(** Model only: the result of a comparison of floats. *)
Definition float_cmp (c : cmp) (x y : binary32) : bool :=
  match b32_compare x y with
  | Some Lt => match c with CLt | CLe => true | _ => false end
  | Some Eq => match c with CGe | CLe => true | _ => false end
  | Some Gt => match c with CGt | CGe => true | _ => false end
  | None => false
  end.
(** Half.h:535-541: operators >, <, >=, <= on two Half variables. *)
Definition half_cmp (c : cmp) (a b : Z) : bool := float_cmp c (half_float a) (half_float b).
(** Half.h:543: on two variables [operator==] compares the words. *)
Definition half_eq (a b : Z) : bool := a =? b.
(** Half.h:545. *)
Definition half_ne (a b : Z) : bool := negb (a =? b).
(** BFloat16.h:287-293. *)
Definition bf16_cmp (c : cmp) (a b : Z) : bool := float_cmp c (bf16_float a) (bf16_float b).
(** BFloat16.h:295. *)
Definition bf16_eq (a b : Z) : bool := a =? b.
(** BFloat16.h:297. *)
Definition bf16_ne (a b : Z) : bool := negb (a =? b).

(** Half.h:576-584, [std::numeric_limits<Half>]: the words of min, lowest, max,
    epsilon, infinity, quiet_NaN, signaling_NaN and denorm_min. *)
Record limits := mkLimits { l_min : Z; l_lowest : Z; l_max : Z; l_epsilon : Z; l_infinity : Z; l_qnan : Z; l_snan : Z; l_denorm_min : Z; l_round_error : Z }.
(** Half.h:576-584. *)
Definition half_limits : limits := mkLimits 0x0400 0xFBFF 0x7BFF 0x1400 0x7C00 0x7E00 0x7D00 0x0001 0x3800.
(** BFloat16.h:329-337. *)
Definition bf16_limits : limits := mkLimits 0x0080 0xFF7F 0x7F7F 0x3C00 0x7F80 0x7FC0 0x7F80 0x0001 0x3F00.
