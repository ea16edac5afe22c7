From Coq Require Import ZArith Reals Bool Lia Lra Psatz.
From Flocq Require Import Core IEEE754.BinarySingleNaN IEEE754.Binary IEEE754.Bits.
From Verif Require Import FloatModel FloatSpec FloatProofs FloatProofs2 FloatProofs3.
Open Scope Z_scope.

(** * Round trip *)
Lemma rounded_back : forall mw ew (Hmw : 0 < mw) (Hew : 0 < ew) (Hmax : mw + 1 < 2 ^ (ew - 1)) (f : binary32) x y,
  let val := binary_float_of_bits mw ew Hmw Hew Hmax in
  0 <= x < 2 ^ (mw + ew + 1) -> 0 <= y < 2 ^ (mw + ew + 1) ->
  same_value (val x) f -> rounded f (val y) -> is_nan (mw + 1) (2 ^ (ew - 1)) (val x) = false -> x = y.
Proof.
  intros mw ew Hmw Hew Hmax f x y val Hx Hy [HN HS] HR HF. destruct (HS HF) as (S1 & S2 & S3). unfold rounded in HR. rewrite <- HN, HF in HR.
  destruct HR as (R1 & R2 & R3). rewrite <- S1, <- S3 in R3. rewrite <- S2 in R2. cbv zeta in R3.
  assert (HP : Prec_gt_0 (mw + 1)) by (unfold Prec_gt_0; lia).
  assert (HV : val x = val y).
  { destruct (is_finite (mw + 1) (2 ^ (ew - 1)) (val x)) eqn:EF.
    - rewrite round_generic in R3; [|auto with typeclass_instances|apply generic_format_B2R].
      rewrite Rlt_bool_true in R3 by apply abs_B2R_lt_emax. cbn [andb] in R3. destruct R3 as [A B]. apply B2R_Bsign_inj; congruence.
    - cbn [andb] in R3. destruct (val x), (val y); cbn in *; try discriminate. congruence. }
  rewrite <- (bits_of_binary_float_of_bits mw ew Hmw Hew Hmax x Hx). rewrite <- (bits_of_binary_float_of_bits mw ew Hmw Hew Hmax y Hy). fold val. congruence.
Qed.
Lemma rtne_range : forall w, 0 <= round_to_nearest_even w < 2 ^ 16.
Proof. intros w. unfold round_to_nearest_even. destruct (is_nan _ _ _); [lia|]. apply Z.mod_pos_bound. lia. Qed.
Lemma fromfp_range : forall w, 0 <= fp16_ieee_from_fp32_value w < 2 ^ 16.
Proof. intros w. unfold fp16_ieee_from_fp32_value. apply Z.mod_pos_bound. lia. Qed.
Lemma f32_from_bits_range : forall w, 0 <= f32_from_bits w < 2 ^ 32.
Proof. intros w. apply Z.mod_pos_bound. lia. Qed.
Lemma half_wide_range : forall h, 0 <= h < 2 ^ 16 -> 0 <= fp16_ieee_to_fp32_value h < 2 ^ 32.
Proof.
  intros h Hh. unfold fp16_ieee_to_fp32_value. cbv zeta.
  assert (HB : forall x : binary32, 0 <= bits_of_b32 x < 2 ^ 32) by (intros x; apply (bits_of_binary_float_range 23 8); reflexivity).
  assert (HL : forall a b, 0 <= a < 2 ^ 32 -> 0 <= b < 2 ^ 32 -> 0 <= Z.lor a b < 2 ^ 32).
  { intros a b Ha Hb. split; [apply Z.lor_nonneg; lia|]. destruct (Z.eq_dec (Z.lor a b) 0) as [->|]; [lia|].
    apply Z.log2_lt_pow2; [pose proof (proj2 (Z.lor_nonneg a b)); lia|]. rewrite Z.log2_lor by lia.
    apply Z.max_lub_lt; (destruct (Z.eq_dec a 0) as [->|]; destruct (Z.eq_dec b 0) as [->|]; cbn; try lia; try (apply Z.log2_lt_pow2; lia)). }
  apply HL; [|destruct (_ <? _); apply HB].
  change 0x80000000 with (Z.shiftl (Z.ones 1) 31). rewrite land_shifted by lia. pose proof (Z.mod_pos_bound (u32 (Z.shiftl h 16) / 2 ^ 31) (2 ^ 1) ltac:(lia)). change (2 ^ 1) with 2 in *. lia.
Qed.
Lemma bf16_back_lemma : forall h, 0 <= h < 2 ^ 16 -> is_nan 8 128 (bf16 h) = false -> round_to_nearest_even (f32_from_bits h) = h.
Proof.
  intros h Hh HN. symmetry. apply (rounded_back 7 8 eq_refl eq_refl eq_refl (b32_of_bits (f32_from_bits h))); auto.
  - apply rtne_range.
  - apply bf16_widen_lemma; auto.
  - apply bf16_rounded_lemma. apply f32_from_bits_range.
Qed.
Lemma half_back_lemma : forall h, 0 <= h < 2 ^ 16 -> is_nan 11 16 (fp16 h) = false -> fp16_ieee_from_fp32_value (fp16_ieee_to_fp32_value h) = h.
Proof.
  intros h Hh HN. pose proof (half_widen_lemma h Hh) as A. pose proof (fp16_rounded_lemma _ (half_wide_range h Hh)) as B. pose proof (fromfp_range (fp16_ieee_to_fp32_value h)) as C.
  revert A B C. generalize (fp16_ieee_from_fp32_value (fp16_ieee_to_fp32_value h)). generalize (fp16_ieee_to_fp32_value h). intros w n A B C.
  symmetry. exact (rounded_back 10 5 eq_refl eq_refl eq_refl (b32_of_bits w) h n Hh C A B HN).
Qed.

(** * Order *)
Lemma rounded_order : forall p e (Hp : 0 < p) (He : p < e) (f g : binary32) (x y : binary_float p e),
  rounded f x -> rounded g y -> is_nan 24 128 f = false -> is_nan 24 128 g = false ->
  below f g -> below x y.
Proof.
  intros p e Hp He f g x y HF HG NF NG HL. unfold rounded in HF, HG. rewrite NF in HF. rewrite NG in HG. destruct HF as (F1 & F2 & F3). destruct HG as (G1 & G2 & G3). cbv zeta in F3, G3.
  assert (HP : Prec_gt_0 p) by exact Hp.
  unfold below in *.
  assert (HM : forall a b, (a <= b)%R -> (round radix2 (FLT_exp (3 - e - p) p) ZnearestE a <= round radix2 (FLT_exp (3 - e - p) p) ZnearestE b)%R).
  { intros a b Hab. apply round_le; auto with typeclass_instances. }
  assert (HSn : forall (z : binary_float p e) (h : binary32), Bsign p e z = Bsign 24 128 h -> True) by auto.
  assert (sgn : forall h : binary32, is_finite 24 128 h = true ->
     (Bsign 24 128 h = true -> (B2R 24 128 h <= 0)%R) /\ (Bsign 24 128 h = false -> (0 <= B2R 24 128 h)%R)).
  { intros [s|s|s pl H|s m g' H] Hh; cbn in *; try discriminate; split; intros ->; try lra.
    - apply F2R_le_0. cbn. lia.
    - apply F2R_ge_0. cbn. lia. }
  destruct (is_finite 24 128 f) eqn:EF; destruct (is_finite 24 128 g) eqn:EG; cbn [andb] in *.
  - pose proof (HM _ _ HL) as HMM. destruct (Rlt_bool_spec (Rabs (round radix2 (FLT_exp (3 - e - p) p) ZnearestE (B2R 24 128 f))) (bpow radix2 e)) as [A|A];
    destruct (Rlt_bool_spec (Rabs (round radix2 (FLT_exp (3 - e - p) p) ZnearestE (B2R 24 128 g))) (bpow radix2 e)) as [B|B].
    + destruct F3 as [F3 F4]. destruct G3 as [G3 G4]. rewrite F3, G3, F4, G4. exact HMM.
    + destruct F3 as [F3 F4]. rewrite F3, G3, G2. destruct (Bsign 24 128 g) eqn:SG; auto. destruct (sgn g EG) as [S1 _]. specialize (S1 SG). exfalso.
      assert (round radix2 (FLT_exp (3 - e - p) p) ZnearestE (B2R 24 128 g) <= 0)%R by (rewrite <- (round_0 radix2 (FLT_exp (3 - e - p) p) ZnearestE); apply HM; auto).
      rewrite Rabs_left1 in B by auto. apply Rabs_def2 in A. lra.
    + destruct G3 as [G3 G4]. rewrite F3, G3, F2. destruct (Bsign 24 128 f) eqn:SF; auto. destruct (sgn f EF) as [_ S1]. specialize (S1 SF). exfalso.
      assert (0 <= round radix2 (FLT_exp (3 - e - p) p) ZnearestE (B2R 24 128 f))%R by (rewrite <- (round_0 radix2 (FLT_exp (3 - e - p) p) ZnearestE); apply HM; auto).
      rewrite Rabs_pos_eq in A by auto. apply Rabs_def2 in B. lra.
    + rewrite F3, G3, F2, G2. destruct (Bsign 24 128 f) eqn:SF; auto. destruct (Bsign 24 128 g) eqn:SG; auto.
      destruct (sgn f EF) as [_ S1]. specialize (S1 SF). destruct (sgn g EG) as [S2 _]. specialize (S2 SG).
      assert (0 <= round radix2 (FLT_exp (3 - e - p) p) ZnearestE (B2R 24 128 f))%R by (rewrite <- (round_0 radix2 (FLT_exp (3 - e - p) p) ZnearestE); apply HM; auto).
      assert (round radix2 (FLT_exp (3 - e - p) p) ZnearestE (B2R 24 128 g) <= 0)%R by (rewrite <- (round_0 radix2 (FLT_exp (3 - e - p) p) ZnearestE); apply HM; auto).
      rewrite Rabs_pos_eq in A by auto. pose proof (bpow_gt_0 radix2 e). lra.
  - rewrite G3, G2, HL. destruct (Rlt_bool_spec (Rabs (round radix2 (FLT_exp (3 - e - p) p) ZnearestE (B2R 24 128 f))) (bpow radix2 e)) as [A|A].
    + destruct F3 as [F3 F4]. rewrite F3. auto.
    + rewrite F3, F2. destruct (Bsign 24 128 f); auto.
  - rewrite F3, F2, HL. destruct (Rlt_bool_spec (Rabs (round radix2 (FLT_exp (3 - e - p) p) ZnearestE (B2R 24 128 g))) (bpow radix2 e)) as [A|A].
    + destruct G3 as [G3 G4]. rewrite G3. auto.
    + rewrite G3. auto.
  - rewrite F3, G3, F2, G2. exact HL.
Qed.
