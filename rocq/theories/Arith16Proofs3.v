(** The two 16-bit formats. *)
From Coq Require Import ZArith Reals Bool Lia Lra.
From Flocq Require Import Core IEEE754.BinarySingleNaN IEEE754.Binary IEEE754.Bits Double_rounding.
From Verif Require Import FloatModel FloatSpec FloatProofs4 FloatProps Arith16Model Arith16Spec Arith16Proofs Arith16Proofs2.
Open Scope Z_scope.

Lemma bits_back : forall f : binary32, b32_of_bits (bits_of_b32 f) = f.
Proof. intros f. apply (binary_float_of_bits_of_binary_float 23 8 eq_refl eq_refl eq_refl f). Qed.
Lemma bits_range : forall f : binary32, 0 <= bits_of_b32 f < 2 ^ 32.
Proof. intros f. exact (bits_of_binary_float_range 23 8 eq_refl eq_refl f). Qed.
Lemma half_narrow : forall f : binary32, rounded f (fp16 (float_half f)).
Proof. intros f. pose proof (half_narrow_rounds_to_nearest_even _ (bits_range f)) as H. rewrite bits_back in H. exact H. Qed.
Lemma bf16_narrow : forall f : binary32, rounded f (bf16 (float_bf16 f)).
Proof. intros f. pose proof (bf16_narrow_rounds_to_nearest_even _ (bits_range f)) as H. rewrite bits_back in H. exact H. Qed.
Lemma half_word : forall f, word16 (float_half f).
Proof. intros f. apply fromfp_range. Qed.
Lemma bf16_word : forall f, word16 (float_bf16 f).
Proof. intros f. apply rtne_range. Qed.

Notation rh := (round radix2 (FLT_exp (-24) 11) ZnearestE).
Notation rb := (round radix2 (FLT_exp (-133) 8) ZnearestE).
Notation r32 := (round radix2 (FLT_exp (-149) 24) ZnearestE).

Lemma half_mult_twice : forall x y : binary_float 11 16, rh (r32 (B2R 11 16 x * B2R 11 16 y)) = rh (B2R 11 16 x * B2R 11 16 y).
Proof.
  intros x y. apply round_round_mult_FLT; try lia; [apply valid_rnd_N| |]; apply (fmt 11 16 eq_refl).
Qed.

Lemma tiny : forall u, (Rabs u <= bpow radix2 (-134))%R -> rb u = 0%R.
Proof.
  intros u H. destruct (Req_dec u 0) as [->|N]; [apply round_0, valid_rnd_N|].
  unfold round, scaled_mantissa. assert (C : cexp radix2 (FLT_exp (-133) 8) u = -133).
  { unfold cexp, FLT_exp. assert (mag radix2 u <= -133); [|lia]. apply mag_le_bpow; [exact N|]. eapply Rle_lt_trans; [exact H|]. apply bpow_lt. lia. }
  rewrite C. assert (Z : ZnearestE (u * bpow radix2 (- -133)) = 0).
  { assert (B : (Rabs (u * bpow radix2 (- -133)) <= /2)%R).
    { rewrite Rabs_mult. rewrite (Rabs_pos_eq (bpow _ _)) by apply bpow_ge_0.
      replace (/ 2)%R with (bpow radix2 (-134) * bpow radix2 (- -133))%R by (rewrite <- bpow_plus; reflexivity).
      apply Rmult_le_compat_r; [apply bpow_ge_0|exact H]. }
    set (t := (u * bpow radix2 (- -133))%R) in *. clearbody t. destruct (Rle_lt_or_eq_dec _ _ B) as [L|E].
    - apply Znearest_imp. rewrite Rminus_0_r. exact L.
    - unfold Znearest. assert (T : t = (/2)%R \/ t = (- / 2)%R) by (destruct (Rcase_abs t); [rewrite Rabs_left in E by lra|rewrite Rabs_right in E by lra]; lra).
      destruct T as [->| ->].
      + replace (Zfloor (/2)) with 0 by (symmetry; apply Zfloor_imp; simpl; lra). rewrite Rcompare_Eq by (simpl; lra). reflexivity.
      + replace (Zfloor (- / 2)) with (-1) by (symmetry; apply Zfloor_imp; simpl; lra). rewrite Rcompare_Eq by (simpl; lra). simpl.
        apply Zceil_imp. simpl. lra. }
  rewrite Z. apply F2R_0.
Qed.

Lemma bf16_mult_twice : forall x y : binary_float 8 128, rb (r32 (B2R 8 128 x * B2R 8 128 y)) = rb (B2R 8 128 x * B2R 8 128 y).
Proof.
  intros x y. destruct (fmt 8 128 eq_refl x) as [[mx ex] Ex Mx Lx]. destruct (fmt 8 128 eq_refl y) as [[my ey] Ey My Ly].
  rewrite Ex, Ey. simpl in Mx, My, Lx, Ly.
  assert (E : (F2R (Float radix2 mx ex) * F2R (Float radix2 my ey))%R = F2R (Float radix2 (mx * my) (ex + ey))).
  { unfold F2R. simpl. rewrite mult_IZR, bpow_plus. ring. }
  rewrite E. assert (M : Z.abs (mx * my) < 2 ^ 16) by (rewrite Z.abs_mul; simpl in *; nia).
  destruct (Z_le_gt_dec (-149) (ex + ey)) as [G|G].
  - f_equal. apply round_generic; [apply valid_rnd_N|]. apply generic_format_FLT. exists (Float radix2 (mx * my) (ex + ey)); simpl; auto. lia.
  - assert (B : (Rabs (F2R (Float radix2 (mx * my) (ex + ey))) <= bpow radix2 (-134))%R).
    { rewrite <- F2R_Zabs. unfold F2R. cbn [Fnum Fexp]. replace (bpow radix2 (-134)) with (bpow radix2 16 * bpow radix2 (-150))%R by (rewrite <- bpow_plus; reflexivity).
      apply Rmult_le_compat; [apply IZR_le; lia|apply bpow_ge_0| |apply bpow_le; lia].
      change (bpow radix2 16) with (IZR (2 ^ 16)). apply IZR_le. lia. }
    rewrite (tiny _ B). apply tiny. rewrite <- round_NE_abs by (apply FLT_exp_valid; reflexivity).
    apply round_le_generic; [apply FLT_exp_valid; reflexivity|apply valid_rnd_N| |exact B].
    apply generic_format_bpow. unfold FLT_exp. lia.
Qed.

Lemma half_arith_lemma : forall op nan a b, word16 a -> word16 b ->
  same_value (fp16 (half_op op a b)) (ieee 11 16 eq_refl eq_refl nan op (fp16 a) (fp16 b)).
Proof.
  intros op nan a b Ha Hb. pose proof (half_widen_exact a Ha) as A. pose proof (half_widen_exact b Hb) as B.
  destruct op; cbn [half_op ieee]; unfold half_add, half_sub, half_mul, half_div.
  - eapply plus_rounded; [lia|lia|lia|exact A|exact B|apply half_narrow].
  - eapply minus_rounded; [lia|lia|lia|exact A|exact B|apply half_narrow].
  - eapply mult_rounded; [lia|exact half_mult_twice|exact A|exact B|apply half_narrow].
  - eapply div_rounded; [lia|lia|lia|exact A|exact B|apply half_narrow].
Qed.
Lemma bf16_arith_lemma : forall op nan a b, word16 a -> word16 b ->
  same_value (bf16 (bf16_op op a b)) (ieee 8 128 eq_refl eq_refl nan op (bf16 a) (bf16 b)).
Proof.
  intros op nan a b Ha Hb. pose proof (bf16_widen_exact a Ha) as A. pose proof (bf16_widen_exact b Hb) as B.
  destruct op; cbn [bf16_op ieee]; unfold bf16_add, bf16_sub, bf16_mul, bf16_div.
  - eapply plus_rounded; [lia|lia|lia|exact A|exact B|apply bf16_narrow].
  - eapply minus_rounded; [lia|lia|lia|exact A|exact B|apply bf16_narrow].
  - eapply mult_rounded; [lia|exact bf16_mult_twice|exact A|exact B|apply bf16_narrow].
  - eapply div_rounded; [lia|lia|lia|exact A|exact B|apply bf16_narrow].
Qed.

Lemma half_unary_lemma : forall nan a, word16 a ->
  same_value (fp16 (half_neg a)) (Bopp 11 16 nan (fp16 a)) /\ same_value (fp16 (half_abs a)) (Babs 11 16 nan (fp16 a))
  /\ same_value (fp16 (half_sqrt a)) (Bsqrt 11 16 eq_refl eq_refl nan mode_NE (fp16 a)).
Proof.
  intros nan a Ha. pose proof (half_widen_exact a Ha) as A. split; [|split].
  - eapply opp_rounded; [reflexivity|reflexivity|lia|exact A|apply half_narrow].
  - eapply abs_rounded; [reflexivity|reflexivity|lia|exact A|apply half_narrow].
  - eapply sqrt_rounded; [lia|lia|lia|lia|exact A|apply half_narrow].
Qed.
Lemma bf16_unary_lemma : forall nan a, word16 a ->
  same_value (bf16 (bf16_neg a)) (Bopp 8 128 nan (bf16 a)) /\ same_value (bf16 (bf16_abs a)) (Babs 8 128 nan (bf16 a))
  /\ same_value (bf16 (bf16_sqrt a)) (Bsqrt 8 128 eq_refl eq_refl nan mode_NE (bf16 a)).
Proof.
  intros nan a Ha. pose proof (bf16_widen_exact a Ha) as A. split; [|split].
  - eapply opp_rounded; [reflexivity|reflexivity|lia|exact A|apply bf16_narrow].
  - eapply abs_rounded; [reflexivity|reflexivity|lia|exact A|apply bf16_narrow].
  - eapply sqrt_rounded; [lia|lia|lia|lia|exact A|apply bf16_narrow].
Qed.

Lemma ieee_computes : forall p e hp he nan op (x y : binary_float p e), is_finite p e x = true -> is_finite p e y = true ->
  (op = OpDiv -> B2R p e y <> 0%R) -> exists s, computes p e (ieee p e hp he nan op x y) (exactly op (B2R p e x) (B2R p e y)) s.
Proof.
  intros p e hp he nan op x y Fx Fy D. destruct op; eexists.
  - apply plus_computes; auto.
  - apply minus_computes; auto.
  - apply mult_computes; auto.
  - apply div_computes; auto.
Qed.

Lemma nearest_of_same : forall p e hp he (z : binary_float p e) nan op x y, same_value z (ieee p e hp he nan op x y) ->
  is_finite p e x = true -> is_finite p e y = true -> (op = OpDiv -> B2R p e y <> 0%R) -> is_finite p e z = true ->
  forall w, (Rabs (B2R p e z - exactly op (B2R p e x) (B2R p e y)) <= Rabs (B2R p e w - exactly op (B2R p e x) (B2R p e y)))%R.
Proof.
  intros p e hp he z nan op x y S Fx Fy D Fz w. destruct (ieee_computes p e hp he nan op x y Fx Fy D) as [s C].
  destruct (same_finite _ _ _ _ _ _ S Fz) as (F & _ & V). rewrite V. eapply computes_nearest; [exact hp|exact C|exact F].
Qed.

Lemma int_exact : forall n, Z.abs n <= 2 ^ 24 -> r32 (IZR n) = IZR n.
Proof.
  intros n H. apply round_generic; [apply valid_rnd_N|]. destruct (Z.eq_dec (Z.abs n) (2 ^ 24)) as [E|E].
  - assert (G : generic_format radix2 (FLT_exp (-149) 24) (bpow radix2 24)) by (apply generic_format_bpow; unfold FLT_exp; lia).
    change (bpow radix2 24) with (IZR (2 ^ 24)) in G. destruct (Z.abs_eq_or_opp n) as [A|A]; rewrite A in E.
    + rewrite E. exact G.
    + replace n with (- 2 ^ 24) by lia. rewrite opp_IZR. apply generic_format_opp. exact G.
  - apply generic_format_FLT. exists (Float radix2 n 0); simpl; [unfold F2R; simpl; ring|change (Z.pow_pos 2 24) with (2 ^ 24); lia|lia].
Qed.
Lemma big_int : forall p v, Prec_gt_0 p -> (bpow radix2 24 <= Rabs v)%R -> forall emin, emin <= 16 - p -> (bpow radix2 16 <= Rabs (round radix2 (FLT_exp emin p) ZnearestE v))%R.
Proof.
  intros p v Hp H emin He. unfold Prec_gt_0 in Hp. rewrite <- round_NE_abs by (apply FLT_exp_valid; auto).
  apply round_ge_generic; [apply FLT_exp_valid; auto|apply valid_rnd_N|apply generic_format_bpow; unfold FLT_exp; lia|].
  eapply Rle_trans; [|exact H]. apply bpow_le. lia.
Qed.
Lemma big_int32 : forall v, (bpow radix2 24 <= Rabs v)%R -> (bpow radix2 24 <= Rabs (r32 v))%R.
Proof.
  intros v H. rewrite <- round_NE_abs by (apply FLT_exp_valid; reflexivity).
  apply round_ge_generic; [apply FLT_exp_valid; reflexivity|apply valid_rnd_N|apply generic_format_bpow; unfold FLT_exp; lia|exact H].
Qed.
Lemma half_int_lemma : forall n, same_value (fp16 (half_of_int n)) (ieee_of_int 11 16 eq_refl eq_refl n).
Proof.
  intros n. apply int_rounded; [lia|..|apply half_narrow].
  destruct (Z_le_gt_dec (Z.abs n) (2 ^ 24)) as [L|L].
  - left. rewrite (int_exact n L). reflexivity.
  - right. assert (H : (bpow radix2 24 <= Rabs (IZR n))%R).
    { rewrite <- abs_IZR. change (bpow radix2 24) with (IZR (2 ^ 24)). apply IZR_le. lia. }
    split; [apply big_int; [reflexivity|apply big_int32; exact H|lia]|apply big_int; [reflexivity|exact H|lia]].
Qed.
Lemma bf16_int_lemma : forall n, Z.abs n <= 2 ^ 24 -> same_value (bf16 (bf16_of_int n)) (ieee_of_int 8 128 eq_refl eq_refl n).
Proof.
  intros n L. apply int_rounded; [lia|..|apply bf16_narrow]. left. rewrite (int_exact n L). reflexivity.
Qed.
