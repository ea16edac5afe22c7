(** Comparisons and limits. *)
From Coq Require Import ZArith Reals Bool Lia Lra.
From Flocq Require Import Core IEEE754.BinarySingleNaN IEEE754.Binary IEEE754.Bits.
From Verif Require Import FloatModel FloatSpec FloatProps Arith16Model Arith16Spec Arith16Proofs Arith16Proofs2 Arith16Proofs3.
Open Scope Z_scope.

Lemma compare_same : forall p e (x y : binary_float p e) (x' y' : binary32), same_value x x' -> same_value y y' ->
  b32_compare x' y' = Bcompare p e x y.
Proof.
  intros p e x y x' y' Sx Sy. destruct (is_finite p e x) eqn:Fx; [destruct (is_finite p e y) eqn:Fy|].
  - destruct (same_finite _ _ _ _ _ _ Sx Fx) as (A1 & A2 & A3). destruct (same_finite _ _ _ _ _ _ Sy Fy) as (B1 & B2 & B3).
    unfold b32_compare. rewrite (Bcompare_correct p e x y Fx Fy), (Bcompare_correct 24 128 x' y' A1 B1), A3, B3. reflexivity.
  - destruct (shape_of _ _ _ _ Sy); subst; try discriminate Fy; destruct (shape_of _ _ _ _ Sx); subst; try discriminate Fx; reflexivity.
  - destruct (shape_of _ _ _ _ Sx); subst; try discriminate Fx; destruct (shape_of _ _ _ _ Sy); subst; reflexivity.
Qed.
Lemma half_cmp_lemma : forall c a b, word16 a -> word16 b -> half_cmp c a b = holds c (Bcompare 11 16 (fp16 a) (fp16 b)).
Proof.
  intros c a b Ha Hb. unfold half_cmp, float_cmp, half_float. rewrite (compare_same _ _ _ _ _ _ (half_widen_exact a Ha) (half_widen_exact b Hb)).
  destruct (Bcompare _ _ _ _) as [[]|], c; reflexivity.
Qed.
Lemma bf16_cmp_lemma : forall c a b, word16 a -> word16 b -> bf16_cmp c a b = holds c (Bcompare 8 128 (bf16 a) (bf16 b)).
Proof.
  intros c a b Ha Hb. unfold bf16_cmp, float_cmp, bf16_float. rewrite (compare_same _ _ _ _ _ _ (bf16_widen_exact a Ha) (bf16_widen_exact b Hb)).
  destruct (Bcompare _ _ _ _) as [[]|], c; reflexivity.
Qed.

(** Equal numbers, not both zero, are the same float. *)
Lemma equal_inj : forall p e (x y : binary_float p e), Bcompare p e x y = Some Eq -> (B2R p e x <> 0%R \/ is_finite p e x = false) -> x = y.
Proof.
  intros p e x y H N. destruct x as [s|s|s pl h|s m ex h].
  - destruct N as [N|N]; [simpl in N; lra|discriminate].
  - destruct y as [s'|s'|s' pl' h'|s' m' ex' h']; destruct s; try destruct s'; simpl in H; try discriminate; reflexivity.
  - destruct y as [s'|s'|s' pl' h'|s' m' ex' h']; simpl in H; discriminate.
  - destruct (is_finite p e y) eqn:Fy.
    + rewrite Bcompare_correct in H by auto. injection H as H. apply Rcompare_Eq_inv in H.
      destruct y as [s'|s'|s' pl' h'|s' m' ex' h']; try discriminate Fy; [exfalso; exact (nonzero _ _ _ _ _ h H)|].
      apply B2R_inj; auto.
    + destruct y as [s'|s'|s' pl' h'|s' m' ex' h']; destruct s; try destruct s'; simpl in H; try discriminate.
Qed.
Lemma equal_refl : forall p e (x : binary_float p e), is_nan p e x = false -> Bcompare p e x x = Some Eq.
Proof.
  intros p e x N. destruct (is_finite p e x) eqn:Fx.
  - rewrite Bcompare_correct by auto. rewrite Rcompare_Eq; reflexivity.
  - destruct x as [s|s|s pl h|s m ex h]; try discriminate. destruct s; reflexivity.
Qed.
Lemma fp16_inj : forall a b, word16 a -> word16 b -> fp16 a = fp16 b -> a = b.
Proof.
  intros a b Ha Hb E. rewrite <- (bits_of_binary_float_of_bits 10 5 eq_refl eq_refl eq_refl a Ha), <- (bits_of_binary_float_of_bits 10 5 eq_refl eq_refl eq_refl b Hb).
  unfold fp16 in E. rewrite E. reflexivity.
Qed.
Lemma bf16_inj : forall a b, word16 a -> word16 b -> bf16 a = bf16 b -> a = b.
Proof.
  intros a b Ha Hb E. rewrite <- (bits_of_binary_float_of_bits 7 8 eq_refl eq_refl eq_refl a Ha), <- (bits_of_binary_float_of_bits 7 8 eq_refl eq_refl eq_refl b Hb).
  unfold bf16 in E. rewrite E. reflexivity.
Qed.
Lemma eq_lemma : forall p e (val : Z -> binary_float p e), (forall a b, word16 a -> word16 b -> val a = val b -> a = b) ->
  forall a b, word16 a -> word16 b -> is_nan p e (val a) = false -> B2R p e (val a) <> 0%R \/ is_finite p e (val a) = false ->
  (a =? b = true <-> Bcompare p e (val a) (val b) = Some Eq).
Proof.
  intros p e val I a b Ha Hb N NZ. split; intros H.
  - apply Z.eqb_eq in H. subst b. apply equal_refl. exact N.
  - apply Z.eqb_eq. apply I; auto. apply equal_inj; auto.
Qed.

Section Limits.
Variables (p e : Z).
Hypothesis (Hp : Prec_gt_0 p) (He : Prec_lt_emax p e) (Hp1 : 1 < p) (He1 : 2 < e).
Notation F := (binary_float p e).
Notation fe := (FLT_exp (3 - e - p) p).
Lemma top : forall (x m : F), B2R p e m = (bpow radix2 e - bpow radix2 (e - p))%R -> (B2R p e x <= B2R p e m)%R.
Proof.
  intros x m E. rewrite E. eapply Rle_trans; [apply Rle_abs|]. apply (abs_B2R_le_emax_minus_prec p e Hp x).
Qed.
Lemma bottom : forall (x m : F), B2R p e m = (- (bpow radix2 e - bpow radix2 (e - p)))%R -> (B2R p e m <= B2R p e x)%R.
Proof.
  intros x m E. rewrite E. pose proof (abs_B2R_le_emax_minus_prec p e Hp x) as B. pose proof (Rle_abs (- B2R p e x)) as C. rewrite Rabs_Ropp in C. lra.
Qed.
Lemma least : forall (x m : F), B2R p e m = bpow radix2 (3 - e - p) -> (0 < B2R p e x -> B2R p e m <= B2R p e x)%R.
Proof.
  intros x m E P. rewrite E. apply (generic_format_ge_bpow radix2 fe (3 - e - p)); auto; [intros; unfold FLT_exp; lia|apply generic_format_B2R].
Qed.
Lemma after_one : forall (x m : F), B2R p e m = bpow radix2 (1 - p) -> (1 < B2R p e x -> 1 + B2R p e m <= B2R p e x)%R.
Proof.
  intros x m E P. rewrite E. assert (V : Valid_exp fe) by (apply FLT_exp_valid; auto).
  assert (G : generic_format radix2 fe (bpow radix2 0)) by (apply generic_format_bpow; unfold FLT_exp; unfold Prec_gt_0, Prec_lt_emax in *; lia).
  pose proof (succ_le_lt radix2 fe (bpow radix2 0) (B2R p e x) G (generic_format_B2R p e x) P) as S.
  rewrite succ_eq_pos in S by apply bpow_ge_0. rewrite ulp_bpow in S.
  replace (fe (0 + 1)) with (1 - p) in S by (unfold FLT_exp; unfold Prec_gt_0, Prec_lt_emax in *; lia). exact S.
Qed.
End Limits.

Lemma half_val : forall s m ex h, B2R 11 16 (B754_finite 11 16 s m ex h) = F2R (Float radix2 (SpecFloat.cond_Zopp s (Zpos m)) ex).
Proof. reflexivity. Qed.
Ltac value := match goal with |- B2R ?p ?e ?x = _ => let y := eval vm_compute in (B2FF p e x) in
  match y with F754_finite ?s ?m ?ex => transitivity (F2R (Float radix2 (SpecFloat.cond_Zopp s (Zpos m)) ex)); [reflexivity|unfold F2R; cbn; lra] end end.

Lemma half_limits_lemma : limits_ok 11 16 fp16 9 half_limits.
Proof.
  constructor; cbn [half_limits l_min l_lowest l_max l_epsilon l_infinity l_qnan l_denorm_min l_round_error].
  - value.
  - split; [reflexivity|]. intros h _. apply top; [reflexivity|]. value.
  - split; [reflexivity|]. intros h _. apply bottom; [reflexivity|]. value.
  - assert (E : B2R 11 16 (fp16 0x1400) = bpow radix2 (1 - 11)) by value. split.
    + exists 0x3C01. split; [unfold word16; lia|]. rewrite E. split; [value|apply bpow_gt_0].
    + intros h _. apply after_one; try reflexivity. exact E.
  - reflexivity.
  - split; reflexivity.
  - assert (E : B2R 11 16 (fp16 0x0001) = bpow radix2 (3 - 16 - 11)) by value. split; [rewrite E; apply bpow_gt_0|].
    intros h _. apply least; try reflexivity. exact E.
  - value.
Qed.
Lemma bf16_limits_lemma : limits_ok 8 128 bf16 6 bf16_limits.
Proof.
  constructor; cbn [bf16_limits l_min l_lowest l_max l_epsilon l_infinity l_qnan l_denorm_min l_round_error].
  - value.
  - split; [reflexivity|]. intros h _. apply top; [reflexivity|]. value.
  - split; [reflexivity|]. intros h _. apply bottom; [reflexivity|]. value.
  - assert (E : B2R 8 128 (bf16 0x3C00) = bpow radix2 (1 - 8)) by value. split.
    + exists 0x3F81. split; [unfold word16; lia|]. rewrite E. split; [value|apply bpow_gt_0].
    + intros h _. apply after_one; try reflexivity. exact E.
  - reflexivity.
  - split; reflexivity.
  - assert (E : B2R 8 128 (bf16 0x0001) = bpow radix2 (3 - 128 - 8)) by value. split; [rewrite E; apply bpow_gt_0|].
    intros h _. apply least; try reflexivity. exact E.
  - value.
Qed.
