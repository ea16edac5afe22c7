(** 16-bit floating-point conversions: src/Utils/BFloat16.h and src/Utils/Half.h.
    Words are integers in range; the float operations are the IEEE binary32
    operations of Flocq, rounding to nearest even. *)
From Coq Require Import ZArith Bool.
From Flocq Require Import IEEE754.BinarySingleNaN IEEE754.Binary IEEE754.Bits.
Open Scope Z_scope.

(** Model only: uint16_t arithmetic. *)
Definition u16 (x : Z) : Z := x mod 2 ^ 16.
(** Model only: uint32_t arithmetic. *)
Definition u32 (x : Z) : Z := x mod 2 ^ 32.

(** BFloat16.h:56-63, [f32_from_bits]: the bits of the float. *)
Definition f32_from_bits (src : Z) : Z := u32 (Z.shiftl src 16).
(** BFloat16.h:72-85, [round_to_nearest_even] of the float with bits [U32]. *)
Definition round_to_nearest_even (U32 : Z) : Z :=
  if is_nan 24 128 (b32_of_bits U32) then 0x7FC0
  else
    let rounding_bias := Z.land (Z.shiftr U32 16) 1 + 0x7FFF in
    u16 (Z.shiftr (u32 (U32 + rounding_bias)) 16).

(** Half.h:90-215, [fp16_ieee_to_fp32_value]. *)
Definition fp16_ieee_to_fp32_value (h : Z) : Z :=
  let w := u32 (Z.shiftl h 16) in
  let sign := Z.land w 0x80000000 in
  let two_w := u32 (w + w) in
  let exp_offset := u32 (Z.shiftl 0xE0 23) in
  let exp_scale := b32_of_bits (Z.shiftl 15 23) in
  let normalized_value := b32_mult mode_NE (b32_of_bits (u32 (Z.shiftr two_w 4 + exp_offset))) exp_scale in
  let magic_mask := Z.shiftl 126 23 in
  let magic_bias := b32_of_bits 0x3F000000 in
  let denormalized_value := b32_minus mode_NE (b32_of_bits (Z.lor (Z.shiftr two_w 17) magic_mask)) magic_bias in
  let denormalized_cutoff := Z.shiftl 1 27 in
  Z.lor sign (if two_w <? denormalized_cutoff then bits_of_b32 denormalized_value else bits_of_b32 normalized_value).

(** Half.h:226-257, [fp16_ieee_from_fp32_value] of the float with bits [w]. *)
Definition fp16_ieee_from_fp32_value (w : Z) : Z :=
  let f := b32_of_bits w in
  let scale_to_inf := b32_of_bits (Z.shiftl 239 23) in
  let scale_to_zero := b32_of_bits (Z.shiftl 17 23) in
  let base := b32_mult mode_NE (b32_mult mode_NE (b32_abs f) scale_to_inf) scale_to_zero in
  let shl1_w := u32 (w + w) in
  let sign := Z.land w 0x80000000 in
  let bias := Z.land shl1_w 0xFF000000 in
  let bias := if bias <? 0x71000000 then 0x71000000 else bias in
  let base := b32_plus mode_NE (b32_of_bits (u32 (Z.shiftr bias 1 + 0x07800000))) base in
  let bits := bits_of_b32 base in
  let exp_bits := Z.land (Z.shiftr bits 13) 0x00007C00 in
  let mantissa_bits := Z.land bits 0x00000FFF in
  let nonsign := u32 (exp_bits + mantissa_bits) in
  u16 (Z.lor (Z.shiftr sign 16) (if 0xFF000000 <? shl1_w then 0x7E00 else nonsign)).

(** Model only: int32_t arithmetic. *)
Definition s32 (x : Z) : Z := let y := u32 x in if y <? 2 ^ 31 then y else y - 2 ^ 32.
(** Half.h:266-349, [fp16_ieee_to_fp32_bits], the widening without float
    operations. [clz0] stands for the unspecified result of [__builtin_clz(0)]. *)
Definition clz32 (clz0 x : Z) : Z := if x =? 0 then clz0 else 31 - Z.log2 x.
(** Half.h:266-349. *)
Definition fp16_ieee_to_fp32_bits (clz0 h : Z) : Z :=
  let w := u32 (Z.shiftl h 16) in
  let sign := Z.land w 0x80000000 in
  let nonsign := Z.land w 0x7FFFFFFF in
  let renorm_shift := clz32 clz0 nonsign in
  let renorm_shift := if 5 <? renorm_shift then renorm_shift - 5 else 0 in
  let inf_nan_mask := Z.land (Z.shiftr (s32 (nonsign + 0x04000000)) 8) 0x7F800000 in
  let zero_mask := Z.shiftr (s32 (nonsign - 1)) 31 in
  Z.lor sign (Z.land (Z.lor (u32 (Z.shiftr (u32 (Z.shiftl nonsign renorm_shift)) 3 + u32 (Z.shiftl (0x70 - renorm_shift) 23))) (u32 inf_nan_mask))
                     (u32 (Z.lnot zero_mask))).
