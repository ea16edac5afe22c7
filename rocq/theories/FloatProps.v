(** C27, C28: 16-bit floating-point conversions.
    Bit patterns are integers in range; [b32_of_bits], [bf16] and [fp16] give
    the IEEE number a pattern denotes. *)
From Coq Require Import ZArith Reals Bool.
From Flocq Require Import Core IEEE754.Binary IEEE754.Bits.
From Verif Require Import FloatModel FloatSpec FloatProofs FloatProofs2 FloatProofs3 FloatProofs4.
Open Scope Z_scope.

(** * C27 *)
(** Widening a bfloat16 keeps its value, sign, infinity or NaN. *)
Theorem bf16_widen_exact : forall h, 0 <= h < 2 ^ 16 -> same_value (bf16 h) (b32_of_bits (f32_from_bits h)).
Proof. exact bf16_widen_lemma. Qed.
(** Narrowing any float32 gives the nearest bfloat16. *)
Theorem bf16_narrow_rounds_to_nearest_even : forall w, 0 <= w < 2 ^ 32 -> rounded (b32_of_bits w) (bf16 (round_to_nearest_even w)).
Proof. exact bf16_rounded_lemma. Qed.
(** There and back gives the same bits, except that a NaN gives a NaN. *)
Theorem bf16_round_trip : forall h, 0 <= h < 2 ^ 16 ->
  if is_nan 8 128 (bf16 h) then is_nan 8 128 (bf16 (round_to_nearest_even (f32_from_bits h))) = true
  else round_to_nearest_even (f32_from_bits h) = h.
Proof.
  intros h Hh. destruct (is_nan 8 128 (bf16 h)) eqn:E; [|apply bf16_back_lemma; auto].
  pose proof (bf16_widen_exact h Hh) as [A _]. pose proof (bf16_narrow_rounds_to_nearest_even _ (f32_from_bits_range h)) as R.
  unfold rounded in R. rewrite <- A, E in R. exact R.
Qed.
Theorem bf16_narrow_monotone : forall v w, 0 <= v < 2 ^ 32 -> 0 <= w < 2 ^ 32 ->
  is_nan 24 128 (b32_of_bits v) = false -> is_nan 24 128 (b32_of_bits w) = false ->
  below (b32_of_bits v) (b32_of_bits w) -> below (bf16 (round_to_nearest_even v)) (bf16 (round_to_nearest_even w)).
Proof.
  intros v w Hv Hw NV NW HB. refine (rounded_order 8 128 eq_refl eq_refl _ _ _ _ (bf16_rounded_lemma v Hv) (bf16_rounded_lemma w Hw) NV NW HB).
Qed.
(** 1.00390625 is half way between 1 and the next bfloat16 and goes to 1, whose
    last bit is even; the next tie goes up. *)
Example bf16_tie_example : round_to_nearest_even 0x3F808000 = 0x3F80 /\ round_to_nearest_even 0x3F818000 = 0x3F82
  /\ round_to_nearest_even 0x7F7FFFFF = 0x7F80 /\ round_to_nearest_even 0x7F800001 = 0x7FC0.
Proof. vm_compute. repeat split. Qed.
Example bf16_below_example : below (b32_of_bits 0x3F808000) (b32_of_bits 0x3F818000) /\ is_nan 24 128 (b32_of_bits 0x3F818000) = false.
Proof.
  split; [|reflexivity].
  pose proof (f32_finite false 127 0x8000 ltac:(split; [discriminate|reflexivity]) ltac:(split; [discriminate|reflexivity])) as (A1 & _ & _ & A4).
  pose proof (f32_finite false 127 0x18000 ltac:(split; [discriminate|reflexivity]) ltac:(split; [discriminate|reflexivity])) as (B1 & _ & _ & B4).
  change (word 23 8 false (127 * 2 ^ 23 + 0x8000)) with 0x3F808000 in *. change (word 23 8 false (127 * 2 ^ 23 + 0x18000)) with 0x3F818000 in *.
  unfold below. rewrite A1, B1, A4, B4. cbn [pm]. apply Rmult_le_compat_r; [apply bpow_ge_0|]. apply IZR_le. discriminate.
Qed.

(** * C28 *)
Theorem half_widen_exact : forall h, 0 <= h < 2 ^ 16 -> same_value (fp16 h) (b32_of_bits (fp16_ieee_to_fp32_value h)).
Proof. exact half_widen_lemma. Qed.
(** The integer-only variant agrees, whatever counting the leading zeros of 0
    gives. *)
Theorem half_widen_bits_exact : forall clz0 h, 0 <= h < 2 ^ 16 -> same_value (fp16 h) (b32_of_bits (fp16_ieee_to_fp32_bits clz0 h)).
Proof. exact half_bits_lemma. Qed.
Theorem half_narrow_rounds_to_nearest_even : forall w, 0 <= w < 2 ^ 32 -> rounded (b32_of_bits w) (fp16 (fp16_ieee_from_fp32_value w)).
Proof. exact fp16_rounded_lemma. Qed.
Theorem half_round_trip : forall h, 0 <= h < 2 ^ 16 ->
  if is_nan 11 16 (fp16 h) then is_nan 11 16 (fp16 (fp16_ieee_from_fp32_value (fp16_ieee_to_fp32_value h))) = true
  else fp16_ieee_from_fp32_value (fp16_ieee_to_fp32_value h) = h.
Proof.
  intros h Hh. destruct (is_nan 11 16 (fp16 h)) eqn:E; [|apply half_back_lemma; auto].
  pose proof (half_widen_exact h Hh) as [A _]. pose proof (half_narrow_rounds_to_nearest_even _ (half_wide_range h Hh)) as R.
  revert A R. generalize (fp16_ieee_from_fp32_value (fp16_ieee_to_fp32_value h)). generalize (fp16_ieee_to_fp32_value h). intros w n A R.
  unfold rounded in R. rewrite <- A, E in R. exact R.
Qed.
Theorem half_narrow_monotone : forall v w, 0 <= v < 2 ^ 32 -> 0 <= w < 2 ^ 32 ->
  is_nan 24 128 (b32_of_bits v) = false -> is_nan 24 128 (b32_of_bits w) = false ->
  below (b32_of_bits v) (b32_of_bits w) -> below (fp16 (fp16_ieee_from_fp32_value v)) (fp16 (fp16_ieee_from_fp32_value w)).
Proof.
  intros v w Hv Hw NV NW HB. refine (rounded_order 11 16 eq_refl eq_refl _ _ _ _ (fp16_rounded_lemma v Hv) (fp16_rounded_lemma w Hw) NV NW HB).
Qed.
(** 65504 is the largest half, 65519.996 rounds to it and 65520 to infinity;
    the smallest subnormal, half of it (tie to zero), a tie to even. *)
Example half_examples : fp16_ieee_from_fp32_value 0x477FE000 = 0x7BFF /\ fp16_ieee_from_fp32_value 0x477FEFFF = 0x7BFF
  /\ fp16_ieee_from_fp32_value 0x477FF000 = 0x7C00 /\ fp16_ieee_from_fp32_value 0xB3800000 = 0x8001
  /\ fp16_ieee_from_fp32_value 0x33000000 = 0 /\ fp16_ieee_from_fp32_value 0x3F801000 = 0x3C00 /\ fp16_ieee_from_fp32_value 0x3F803000 = 0x3C02
  /\ fp16_ieee_to_fp32_value 1 = 0x33800000 /\ fp16_ieee_to_fp32_bits 17 0x8000 = 0x80000000.
Proof. vm_compute. repeat split. Qed.

Print Assumptions bf16_widen_exact.
Print Assumptions bf16_narrow_rounds_to_nearest_even.
Print Assumptions bf16_round_trip.
Print Assumptions bf16_narrow_monotone.
Print Assumptions half_widen_exact.
Print Assumptions half_widen_bits_exact.
Print Assumptions half_narrow_rounds_to_nearest_even.
Print Assumptions half_round_trip.
Print Assumptions half_narrow_monotone.
