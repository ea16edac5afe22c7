(** C88, C89: arithmetic, comparison, conversion from integers and limits of the
    16-bit element types. *)
From Coq Require Import List ZArith Reals Bool Lia Lra.
From Flocq Require Import Core IEEE754.BinarySingleNaN IEEE754.Binary IEEE754.Bits.
From Verif Require Import ShapeModel ShapeSpec TensorModel TensorSpec TensorLemmas BcastModel BcastSpec BcastProps FloatModel FloatSpec Arith16Model Arith16Spec Arith16Proofs3 Arith16Proofs4.
Import ListNotations.
Open Scope Z_scope.

(** C88.  +, -, * and / on half and on bfloat16 are the IEEE operations of that
    format, although they are computed in float32 and rounded twice: for all
    operands, with gradual underflow, overflow, signed zeros, infinities and NaN. *)
Theorem half_arithmetic_correctly_rounded : forall op nan a b, word16 a -> word16 b ->
  word16 (half_op op a b) /\ same_value (fp16 (half_op op a b)) (ieee 11 16 eq_refl eq_refl nan op (fp16 a) (fp16 b)).
Proof. intros op nan a b Ha Hb. split; [destruct op; apply half_word|apply half_arith_lemma; auto]. Qed.
Theorem bf16_arithmetic_correctly_rounded : forall op nan a b, word16 a -> word16 b ->
  word16 (bf16_op op a b) /\ same_value (bf16 (bf16_op op a b)) (ieee 8 128 eq_refl eq_refl nan op (bf16 a) (bf16 b)).
Proof. intros op nan a b Ha Hb. split; [destruct op; apply bf16_word|apply bf16_arith_lemma; auto]. Qed.
(** In terms of numbers: a finite result is nearest to the exact one among all
    numbers of the format. *)
Theorem half_nearest : forall op a b, word16 a -> word16 b -> is_finite 11 16 (fp16 a) = true -> is_finite 11 16 (fp16 b) = true ->
  (op = OpDiv -> B2R 11 16 (fp16 b) <> 0%R) -> is_finite 11 16 (fp16 (half_op op a b)) = true ->
  forall h, let exact := exactly op (B2R 11 16 (fp16 a)) (B2R 11 16 (fp16 b)) in
  (Rabs (B2R 11 16 (fp16 (half_op op a b)) - exact) <= Rabs (B2R 11 16 (fp16 h) - exact))%R.
Proof.
  intros op a b Ha Hb Fa Fb D F h.
  refine (nearest_of_same 11 16 eq_refl eq_refl _ (fun _ _ => exist _ (B754_nan 11 16 false 1 eq_refl) eq_refl) op _ _ (half_arith_lemma op _ a b Ha Hb) Fa Fb D F _).
Qed.
Theorem bf16_nearest : forall op a b, word16 a -> word16 b -> is_finite 8 128 (bf16 a) = true -> is_finite 8 128 (bf16 b) = true ->
  (op = OpDiv -> B2R 8 128 (bf16 b) <> 0%R) -> is_finite 8 128 (bf16 (bf16_op op a b)) = true ->
  forall h, let exact := exactly op (B2R 8 128 (bf16 a)) (B2R 8 128 (bf16 b)) in
  (Rabs (B2R 8 128 (bf16 (bf16_op op a b)) - exact) <= Rabs (B2R 8 128 (bf16 h) - exact))%R.
Proof.
  intros op a b Ha Hb Fa Fb D F h.
  refine (nearest_of_same 8 128 eq_refl eq_refl _ (fun _ _ => exist _ (B754_nan 8 128 false 1 eq_refl) eq_refl) op _ _ (bf16_arith_lemma op _ a b Ha Hb) Fa Fb D F _).
Qed.
(** Negation and absolute value are exact, the square root correctly rounded. *)
Theorem half_unary : forall nan a, word16 a ->
  same_value (fp16 (half_neg a)) (Bopp 11 16 nan (fp16 a)) /\ same_value (fp16 (half_abs a)) (Babs 11 16 nan (fp16 a))
  /\ same_value (fp16 (half_sqrt a)) (Bsqrt 11 16 eq_refl eq_refl nan mode_NE (fp16 a)).
Proof. exact half_unary_lemma. Qed.
Theorem bf16_unary : forall nan a, word16 a ->
  same_value (bf16 (bf16_neg a)) (Bopp 8 128 nan (bf16 a)) /\ same_value (bf16 (bf16_abs a)) (Babs 8 128 nan (bf16 a))
  /\ same_value (bf16 (bf16_sqrt a)) (Bsqrt 8 128 eq_refl eq_refl nan mode_NE (bf16 a)).
Proof. exact bf16_unary_lemma. Qed.
(** So every element of a sum, difference, product or quotient of two tensors is. *)
Theorem half_tensors : forall op nan sh1 sh2 sh F1 F2, positive sh1 -> positive sh2 -> is_broadcast [sh1; sh2] sh ->
  (forall idx, word16 (F1 idx)) -> (forall idx, word16 (F2 idx)) ->
  exists G, elementwise (fun l => half_op op (nth 0 l 0) (nth 1 l 0)) [tensor_of sh1 F1; tensor_of sh2 F2] = Ok (tensor_of sh G)
  /\ forall idx, same_value (fp16 (G idx)) (ieee 11 16 eq_refl eq_refl nan op (fp16 (F1 (bidx sh1 idx))) (fp16 (F2 (bidx sh2 idx)))).
Proof.
  intros op nan sh1 sh2 sh F1 F2 P1 P2 B W1 W2. eexists. split.
  - apply (elementwise_broadcasts_partial _ _ (fun l => half_op op (nth 0 l 0) (nth 1 l 0)) [(sh1, F1); (sh2, F2)] sh); [repeat constructor; auto|exact B].
  - intros idx. cbn [map nth fst snd]. apply half_arith_lemma; auto.
Qed.
Theorem bf16_tensors : forall op nan sh1 sh2 sh F1 F2, positive sh1 -> positive sh2 -> is_broadcast [sh1; sh2] sh ->
  (forall idx, word16 (F1 idx)) -> (forall idx, word16 (F2 idx)) ->
  exists G, elementwise (fun l => bf16_op op (nth 0 l 0) (nth 1 l 0)) [tensor_of sh1 F1; tensor_of sh2 F2] = Ok (tensor_of sh G)
  /\ forall idx, same_value (bf16 (G idx)) (ieee 8 128 eq_refl eq_refl nan op (bf16 (F1 (bidx sh1 idx))) (bf16 (F2 (bidx sh2 idx)))).
Proof.
  intros op nan sh1 sh2 sh F1 F2 P1 P2 B W1 W2. eexists. split.
  - apply (elementwise_broadcasts_partial _ _ (fun l => bf16_op op (nth 0 l 0) (nth 1 l 0)) [(sh1, F1); (sh2, F2)] sh); [repeat constructor; auto|exact B].
  - intros idx. cbn [map nth fst snd]. apply bf16_arith_lemma; auto.
Qed.
(** 1 + 2^-11 is a tie and stays 1; (1 + 2^-10) + 2^-11 goes up; 65504 + 16
    overflows; a product of small numbers that underflows to a tie; 1/0; 0/0. *)
Example half_arith_example : half_add 0x3C00 0x1000 = 0x3C00 /\ half_add 0x3C01 0x1000 = 0x3C02 /\ half_add 0x7BFF 0x4C00 = 0x7C00
  /\ half_mul 0x0001 0x3800 = 0 /\ half_mul 0x0003 0x3800 = 2 /\ half_div 0x3C00 0x8000 = 0xFC00 /\ half_sub 0x7C00 0x7C00 = 0x7E00 /\ half_sqrt 0x4000 = 0x3DA8.
Proof. repeat split; vm_compute; reflexivity. Qed.
Example bf16_arith_example : bf16_add 0x3F80 0x3B80 = 0x3F80 /\ bf16_add 0x3F81 0x3B80 = 0x3F82 /\ bf16_mul 0x7F7F 0x4000 = 0x7F80
  /\ bf16_mul 0x0001 0x0001 = 0 /\ bf16_mul 0x0003 0x3F00 = 2 /\ bf16_div 0x3F80 0x4040 = 0x3EAB /\ bf16_neg 0 = 0x8000.
Proof. repeat split; vm_compute; reflexivity. Qed.

(** C89.  An integer operand of a half operator is converted with one rounding,
    whatever its size. *)
Theorem half_of_int_correctly_rounded : forall n, same_value (fp16 (half_of_int n)) (ieee_of_int 11 16 eq_refl eq_refl n).
Proof. exact half_int_lemma. Qed.
(** For bfloat16 this holds up to 2^24 ... *)
Theorem bf16_of_int_partial : forall n, Z.abs n <= 2 ^ 24 -> same_value (bf16 (bf16_of_int n)) (ieee_of_int 8 128 eq_refl eq_refl n).
Proof. exact bf16_int_lemma. Qed.
(** ... but not beyond: 16842753 = 2^24 + 2^16 + 1 is rounded to float32 first, to
    a tie, and then to the even neighbour 2^24, although 2^24 + 2^17 is nearer. *)
Theorem bf16_of_int_refuted : bf16_of_int 16842753 = 0x4B80 /\ B2R 8 128 (bf16 0x4B80) = IZR 16777216 /\ B2R 8 128 (bf16 0x4B81) = IZR 16908288
  /\ (Rabs (IZR 16908288 - IZR 16842753) < Rabs (IZR 16777216 - IZR 16842753))%R
  /\ ~ same_value (bf16 (bf16_of_int 16842753)) (ieee_of_int 8 128 eq_refl eq_refl 16842753).
Proof.
  assert (A : B2R 8 128 (bf16 0x4B80) = IZR 16777216) by value. assert (B : B2R 8 128 (bf16 0x4B81) = IZR 16908288) by value.
  assert (W : bf16_of_int 16842753 = 0x4B80) by (vm_compute; reflexivity).
  split; [exact W|]. split; [exact A|]. split; [exact B|]. split.
  - rewrite <- !minus_IZR, <- !abs_IZR. apply IZR_lt. reflexivity.
  - intros [_ H]. rewrite W in H. destruct H as (_ & _ & H); [reflexivity|]. rewrite A in H.
    assert (C : B2R 8 128 (ieee_of_int 8 128 eq_refl eq_refl 16842753) = IZR 16908288) by value. rewrite C in H. apply eq_IZR in H. discriminate.
Qed.
(** >, <, >=, <= on two values follow the order of the numbers. *)
Theorem half_order : forall c a b, word16 a -> word16 b -> half_cmp c a b = holds c (Bcompare 11 16 (fp16 a) (fp16 b)).
Proof. exact half_cmp_lemma. Qed.
Theorem bf16_order : forall c a b, word16 a -> word16 b -> bf16_cmp c a b = holds c (Bcompare 8 128 (bf16 a) (bf16 b)).
Proof. exact bf16_cmp_lemma. Qed.
(** == of two variables is equality of the numbers unless they are NaN or zero ... *)
Theorem half_eq_partial : forall a b, word16 a -> word16 b -> is_nan 11 16 (fp16 a) = false ->
  B2R 11 16 (fp16 a) <> 0%R \/ is_finite 11 16 (fp16 a) = false ->
  (half_eq a b = true <-> Bcompare 11 16 (fp16 a) (fp16 b) = Some Eq) /\ half_ne a b = negb (half_eq a b).
Proof. intros a b Ha Hb N NZ. split; [|reflexivity]. exact (eq_lemma 11 16 fp16 fp16_inj a b Ha Hb N NZ). Qed.
Theorem bf16_eq_partial : forall a b, word16 a -> word16 b -> is_nan 8 128 (bf16 a) = false ->
  B2R 8 128 (bf16 a) <> 0%R \/ is_finite 8 128 (bf16 a) = false ->
  (bf16_eq a b = true <-> Bcompare 8 128 (bf16 a) (bf16 b) = Some Eq) /\ bf16_ne a b = negb (bf16_eq a b).
Proof. intros a b Ha Hb N NZ. split; [|reflexivity]. exact (eq_lemma 8 128 bf16 bf16_inj a b Ha Hb N NZ). Qed.
(** ... but 0 == -0 is false although 0 >= -0 and 0 <= -0, and NaN == NaN is true. *)
Theorem half_eq_refuted : half_eq 0 0x8000 = false /\ half_cmp CGe 0 0x8000 = true /\ half_cmp CLe 0 0x8000 = true
  /\ Bcompare 11 16 (fp16 0) (fp16 0x8000) = Some Eq /\ is_nan 11 16 (fp16 0x7E00) = true /\ half_eq 0x7E00 0x7E00 = true.
Proof. repeat split; vm_compute; reflexivity. Qed.
Theorem bf16_eq_refuted : bf16_eq 0 0x8000 = false /\ bf16_cmp CGe 0 0x8000 = true /\ bf16_cmp CLe 0 0x8000 = true
  /\ Bcompare 8 128 (bf16 0) (bf16 0x8000) = Some Eq /\ is_nan 8 128 (bf16 0x7FC0) = true /\ bf16_eq 0x7FC0 0x7FC0 = true.
Proof. repeat split; vm_compute; reflexivity. Qed.
(** The numeric limits are those of the format ... *)
Theorem half_limits_correct : limits_ok 11 16 fp16 9 half_limits /\ snan_ok 11 16 fp16 9 half_limits.
Proof. split; [exact half_limits_lemma|split; reflexivity]. Qed.
Theorem bf16_limits_partial : limits_ok 8 128 bf16 6 bf16_limits.
Proof. exact bf16_limits_lemma. Qed.
(** ... except that the signalling NaN of bfloat16 is infinity. *)
Theorem bf16_snan_refuted : ~ snan_ok 8 128 bf16 6 bf16_limits /\ bf16 (l_snan bf16_limits) = B754_infinity 8 128 false.
Proof. split; [intros [H _]; vm_compute in H; discriminate|reflexivity]. Qed.
Example half_int_example : half_of_int 2049 = 0x6800 /\ half_of_int 2051 = 0x6802 /\ half_of_int (-70000) = 0xFC00 /\ half_of_int 65519 = 0x7BFF
  /\ bf16_of_int 257 = 0x4380 /\ half_cmp CLt 0x3C00 0x4000 = true /\ half_cmp CLt 0x3C00 0x7E00 = false.
Proof. repeat split; vm_compute; reflexivity. Qed.

Print Assumptions half_arithmetic_correctly_rounded.
Print Assumptions bf16_arithmetic_correctly_rounded.
Print Assumptions half_nearest.
Print Assumptions bf16_nearest.
Print Assumptions half_unary.
Print Assumptions bf16_unary.
Print Assumptions half_tensors.
Print Assumptions bf16_tensors.
Print Assumptions half_of_int_correctly_rounded.
Print Assumptions bf16_of_int_partial.
Print Assumptions bf16_of_int_refuted.
Print Assumptions half_order.
Print Assumptions bf16_order.
Print Assumptions half_eq_partial.
Print Assumptions bf16_eq_partial.
Print Assumptions half_eq_refuted.
Print Assumptions bf16_eq_refuted.
Print Assumptions half_limits_correct.
Print Assumptions bf16_limits_partial.
Print Assumptions bf16_snan_refuted.
