(** Each operation of a 16-bit format computed in float32. *)
From Coq Require Import ZArith Reals Bool Lia Lra.
From Flocq Require Import Core IEEE754.BinarySingleNaN IEEE754.Binary IEEE754.Bits Double_rounding.
From Verif Require Import FloatModel FloatSpec Arith16Proofs.
Open Scope Z_scope.

Section Ops.
Variables (prec emax : Z).
Hypothesis (Hp : Prec_gt_0 prec) (He : Prec_lt_emax prec emax).
Hypothesis (Hmax : emax <= 128).
Notation F := (binary_float prec emax).
Notation r16 := (round radix2 (FLT_exp (3 - emax - prec) prec) ZnearestE).
Notation r32 := (round radix2 (FLT_exp (-149) 24) ZnearestE).

Inductive shape (x : F) (x' : binary32) : Prop :=
| s_zero s : x = B754_zero prec emax s -> x' = B754_zero 24 128 s -> shape x x'
| s_inf s : x = B754_infinity prec emax s -> x' = B754_infinity 24 128 s -> shape x x'
| s_nan s s' pl pl' h h' : x = B754_nan prec emax s pl h -> x' = B754_nan 24 128 s' pl' h' -> shape x x'
| s_fin s m m' e e' h h' : x = B754_finite prec emax s m e h -> x' = B754_finite 24 128 s m' e' h' -> B2R prec emax x = B2R 24 128 x' -> shape x x'.

Lemma nonzero : forall p e s m ex h, B2R p e (B754_finite p e s m ex h) <> 0%R.
Proof.
  intros p e s m ex h. simpl. destruct s; simpl.
  - pose proof (F2R_lt_0 radix2 (Float radix2 (Z.neg m) ex) eq_refl). lra.
  - pose proof (F2R_gt_0 radix2 (Float radix2 (Z.pos m) ex) eq_refl). lra.
Qed.

Lemma shape_of : forall x x', same_value x x' -> shape x x'.
Proof.
  intros x x' [A B]. destruct x as [s|s|s pl h|s m ex h], x' as [s'|s'|s' pl' h'|s' m' ex' h']; try (simpl in A; discriminate A);
    try (destruct (B eq_refl) as (B1 & B2 & B3); simpl in B1, B2; try discriminate B1; subst s').
  - eapply s_zero; reflexivity.
  - exfalso. symmetry in B3. simpl in B3. exact (nonzero _ _ _ _ _ h' B3).
  - eapply s_inf; reflexivity.
  - eapply s_nan; reflexivity.
  - exfalso. exact (nonzero _ _ _ _ _ h B3).
  - eapply s_fin; try reflexivity. exact B3.
Qed.

Ltac specials R :=
  first [ solve [apply both_nan; [eapply rounded_nan; [|exact R]; reflexivity|reflexivity]]
        | solve [apply rounded_inf in R; subst; apply same_refl]
        | solve [apply rounded_zero in R; [subst; apply same_refl|assumption..]] ].

Lemma plus_rounded : 2 * prec + 1 <= 24 -> -149 <= 3 - emax - prec ->
  forall nan (x y z : F) (x' y' : binary32), same_value x x' -> same_value y y' ->
  rounded (b32_plus mode_NE x' y') z -> same_value z (Bplus prec emax Hp He nan mode_NE x y).
Proof.
  intros P1 P2 nan x y z x' y' Sx Sy R. pose proof (shape_of _ _ Sx) as Qx. pose proof (shape_of _ _ Sy) as Qy.
  destruct (is_finite prec emax x) eqn:Fx; [destruct (is_finite prec emax y) eqn:Fy|].
  - destruct (same_finite _ _ _ _ _ _ Sx Fx) as (A1 & A2 & A3). destruct (same_finite _ _ _ _ _ _ Sy Fy) as (B1 & B2 & B3).
    pose proof (plus_computes 24 128 eq_refl eq_refl binop_nan_pl32 x' y' A1 B1) as C.
    pose proof (plus_computes prec emax Hp He nan x y Fx Fy) as D. rewrite <- A2, <- A3, <- B2, <- B3 in C.
    refine (narrowed prec emax Hp He Hmax _ _ _ _ _ _ C D R).
    apply round_round_plus_FLT; auto using fmt. reflexivity.
  - destruct Qy; subst; try discriminate Fy; destruct Qx; subst; try discriminate Fx; try specials R.
  - destruct Qx; subst; try discriminate Fx; destruct Qy; subst; try specials R.
    destruct s, s0; specials R.
Qed.

Lemma minus_rounded : 2 * prec + 1 <= 24 -> -149 <= 3 - emax - prec ->
  forall nan (x y z : F) (x' y' : binary32), same_value x x' -> same_value y y' ->
  rounded (b32_minus mode_NE x' y') z -> same_value z (Bminus prec emax Hp He nan mode_NE x y).
Proof.
  intros P1 P2 nan x y z x' y' Sx Sy R. pose proof (shape_of _ _ Sx) as Qx. pose proof (shape_of _ _ Sy) as Qy.
  destruct (is_finite prec emax x) eqn:Fx; [destruct (is_finite prec emax y) eqn:Fy|].
  - destruct (same_finite _ _ _ _ _ _ Sx Fx) as (A1 & A2 & A3). destruct (same_finite _ _ _ _ _ _ Sy Fy) as (B1 & B2 & B3).
    pose proof (minus_computes 24 128 eq_refl eq_refl binop_nan_pl32 x' y' A1 B1) as C.
    pose proof (minus_computes prec emax Hp He nan x y Fx Fy) as D. rewrite <- A2, <- A3, <- B2, <- B3 in C.
    refine (narrowed prec emax Hp He Hmax _ _ _ _ _ _ C D R).
    apply round_round_minus_FLT; auto using fmt. reflexivity.
  - destruct Qy; subst; try discriminate Fy; destruct Qx; subst; try discriminate Fx; try specials R.
  - destruct Qx; subst; try discriminate Fx; destruct Qy; subst; try specials R.
    destruct s, s0; specials R.
Qed.

Lemma mult_rounded : (forall x y : F, r16 (r32 (B2R prec emax x * B2R prec emax y)) = r16 (B2R prec emax x * B2R prec emax y)) ->
  forall nan (x y z : F) (x' y' : binary32), same_value x x' -> same_value y y' ->
  rounded (b32_mult mode_NE x' y') z -> same_value z (Bmult prec emax Hp He nan mode_NE x y).
Proof.
  intros DR nan x y z x' y' Sx Sy R. pose proof (shape_of _ _ Sx) as Qx. pose proof (shape_of _ _ Sy) as Qy.
  destruct (is_finite prec emax x) eqn:Fx; [destruct (is_finite prec emax y) eqn:Fy|].
  - destruct (same_finite _ _ _ _ _ _ Sx Fx) as (A1 & A2 & A3). destruct (same_finite _ _ _ _ _ _ Sy Fy) as (B1 & B2 & B3).
    pose proof (mult_computes 24 128 eq_refl eq_refl binop_nan_pl32 x' y' A1 B1) as C.
    pose proof (mult_computes prec emax Hp He nan x y Fx Fy) as D. rewrite <- A2, <- A3, <- B2, <- B3 in C.
    refine (narrowed prec emax Hp He Hmax _ _ _ _ _ _ C D R). apply DR.
  - destruct Qy; subst; try discriminate Fy; destruct Qx; subst; try discriminate Fx; try specials R.
  - destruct Qx; subst; try discriminate Fx; destruct Qy; subst; try specials R.
Qed.

Lemma div_rounded : 2 * prec <= 24 -> -149 <= 3 - emax - prec - prec - 2 ->
  forall nan (x y z : F) (x' y' : binary32), same_value x x' -> same_value y y' ->
  rounded (b32_div mode_NE x' y') z -> same_value z (Bdiv prec emax Hp He nan mode_NE x y).
Proof.
  intros P1 P2 nan x y z x' y' Sx Sy R. pose proof (shape_of _ _ Sx) as Qx. pose proof (shape_of _ _ Sy) as Qy.
  destruct (is_finite prec emax x) eqn:Fx; [destruct (is_finite prec emax y) eqn:Fy|].
  - destruct (Req_dec (B2R prec emax y) 0) as [Zy|Zy].
    + destruct Qy; subst; try discriminate Fy; [|exfalso; exact (nonzero _ _ _ _ _ _ Zy)].
      destruct Qx; subst; try discriminate Fx; specials R.
    + destruct (same_finite _ _ _ _ _ _ Sx Fx) as (A1 & A2 & A3). destruct (same_finite _ _ _ _ _ _ Sy Fy) as (B1 & B2 & B3).
      assert (Zy' : B2R 24 128 y' <> 0%R) by (rewrite <- B3; exact Zy).
      pose proof (div_computes 24 128 eq_refl eq_refl binop_nan_pl32 x' y' A1 Zy') as C.
      pose proof (div_computes prec emax Hp He nan x y Fx Zy) as D. rewrite <- A2, <- A3, <- B2, <- B3 in C.
      refine (narrowed prec emax Hp He Hmax _ _ _ _ _ _ C D R).
      apply round_round_div_FLT; auto using fmt; [reflexivity|exists 1; reflexivity].
  - destruct Qy; subst; try discriminate Fy; destruct Qx; subst; try discriminate Fx; try specials R.
  - destruct Qx; subst; try discriminate Fx; destruct Qy; subst; try specials R.
Qed.

Lemma sqrt_rounded : 2 * prec + 2 <= 24 -> -149 <= 3 - emax - prec - prec - 2 -> 3 - emax - prec <= 0 ->
  forall nan (x z : F) (x' : binary32), same_value x x' ->
  rounded (b32_sqrt mode_NE x') z -> same_value z (Bsqrt prec emax Hp He nan mode_NE x).
Proof.
  intros P1 P2 P3 nan x z x' Sx R. pose proof (shape_of _ _ Sx) as Qx. destruct Qx as [s E E'|s E E'|s s' pl pl' h h' E E'|s m m' e e' h h' E E' V].
  - subst. specials R.
  - subst. destruct s; specials R.
  - subst. specials R.
  - destruct s; [subst; specials R|].
    pose proof (Bsqrt_correct 24 128 eq_refl eq_refl unop_nan_pl32 mode_NE x') as (C1 & C2 & C3).
    pose proof (Bsqrt_correct prec emax Hp He nan mode_NE x) as (D1 & D2 & D3).
    change (Bsqrt 24 128 eq_refl eq_refl unop_nan_pl32 mode_NE x') with (b32_sqrt mode_NE x') in *.
    rewrite <- V in C1.
    change (SpecFloat.fexp 24 128) with (FLT_exp (-149) 24) in C1. change (SpecFloat.fexp prec emax) with (FLT_exp (3 - emax - prec) prec) in D1.
    change (round_mode mode_NE) with ZnearestE in C1, D1.
    assert (C2' : is_finite 24 128 (b32_sqrt mode_NE x') = true) by (rewrite C2, E'; reflexivity).
    assert (D2' : is_finite prec emax (Bsqrt prec emax Hp He nan mode_NE x) = true) by (rewrite D2, E; reflexivity).
    specialize (C3 (finite_not_nan _ _ _ C2')). specialize (D3 (finite_not_nan _ _ _ D2')).
    assert (DR : r16 (r32 (sqrt (B2R prec emax x))) = r16 (sqrt (B2R prec emax x))).
    { apply round_round_sqrt_FLT; auto using fmt; reflexivity. }
    refine (narrowed prec emax Hp He Hmax _ _ _ (sqrt (B2R prec emax x)) (Bsign prec emax x) DR _ _ R).
    + unfold computes. cbv zeta. change (3 - 128 - 24) with (-149). rewrite Rlt_bool_true; [|rewrite <- C1; apply abs_B2R_lt_emax].
      split; [exact C1|]. split; [exact C2'|]. rewrite C3. rewrite E, E'. reflexivity.
    + unfold computes. cbv zeta. rewrite Rlt_bool_true; [|rewrite <- D1; apply abs_B2R_lt_emax].
      split; [exact D1|]. split; [exact D2'|]. exact D3.
Qed.

(** A float that is a value of the format is narrowed exactly. *)
Lemma exact_rounded : forall (x z : F) (x' : binary32), same_value x x' -> rounded x' z -> same_value z x.
Proof.
  intros x z x' Sx R. destruct (is_finite prec emax x) eqn:Fx.
  - destruct (same_finite _ _ _ _ _ _ Sx Fx) as (A1 & A2 & A3).
    refine (narrowed prec emax Hp He Hmax x' z x (B2R prec emax x) (Bsign prec emax x) _ _ _ R).
    + f_equal. rewrite A3. apply round_generic; [apply valid_rnd_N|]. apply (generic_format_B2R 24 128 x').
    + unfold computes. cbv zeta. change (3 - 128 - 24) with (-149). rewrite A3.
      rewrite round_generic; [|apply valid_rnd_N|apply (generic_format_B2R 24 128 x')].
      rewrite Rlt_bool_true by apply abs_B2R_lt_emax. auto.
    + unfold computes. cbv zeta. rewrite round_generic; [|apply valid_rnd_N|apply (generic_format_B2R prec emax x)].
      rewrite Rlt_bool_true by apply abs_B2R_lt_emax. auto.
  - destruct (same_special _ _ _ _ _ _ Sx Fx) as [(s & E & E')|[N N']].
    + subst. specials R.
    + apply both_nan; [eapply rounded_nan; [exact N'|exact R]|exact N].
Qed.
Lemma opp_rounded : forall nan (x z : F) (x' : binary32), same_value x x' ->
  rounded (b32_opp x') z -> same_value z (Bopp prec emax nan x).
Proof.
  intros nan x z x' Sx R. apply exact_rounded with (x' := b32_opp x'); [|exact R].
  destruct (shape_of _ _ Sx) as [s E E'|s E E'|s s' pl pl' h h' E E'|s m m' e e' h h' E E' V]; subst; try (split; simpl; auto; fail).
  - split; [|discriminate]. simpl. reflexivity.
  - split; [reflexivity|]. intros _. split; [reflexivity|]. split; [reflexivity|].
    unfold b32_opp. rewrite !B2R_Bopp. f_equal. exact V.
Qed.
Lemma abs_rounded : forall nan (x z : F) (x' : binary32), same_value x x' ->
  rounded (b32_abs x') z -> same_value z (Babs prec emax nan x).
Proof.
  intros nan x z x' Sx R. apply exact_rounded with (x' := b32_abs x'); [|exact R].
  destruct (shape_of _ _ Sx) as [s E E'|s E E'|s s' pl pl' h h' E E'|s m m' e e' h h' E E' V]; subst; try (split; simpl; auto; fail).
  - split; [|discriminate]. simpl. reflexivity.
  - split; [reflexivity|]. intros _. split; [reflexivity|]. split; [reflexivity|].
    unfold b32_abs. rewrite !B2R_Babs. f_equal. exact V.
Qed.

(** From an integer. *)
Lemma int_rounded : forall n,
  r16 (r32 (IZR n)) = r16 (IZR n) \/ (bpow radix2 emax <= Rabs (r16 (r32 (IZR n))) /\ bpow radix2 emax <= Rabs (r16 (IZR n)))%R ->
  forall (z : F), rounded (binary_normalize 24 128 eq_refl eq_refl mode_NE n 0 false) z -> same_value z (binary_normalize prec emax Hp He mode_NE n 0 false).
Proof.
  intros n DR z R.
  assert (E : F2R (Float radix2 n 0) = IZR n) by (unfold F2R; simpl; ring).
  assert (G : forall p e hp he, computes p e (binary_normalize p e hp he mode_NE n 0 false) (IZR n) (Rlt_bool (IZR n) 0)).
  { intros p e hp he. unfold computes. cbv zeta. pose proof (binary_normalize_correct p e hp he mode_NE n 0 false) as H. rewrite E in H.
    change (SpecFloat.fexp p e) with (FLT_exp (3 - e - p) p) in H. change (round_mode mode_NE) with ZnearestE in H.
    destruct (Rlt_bool (Rabs _) _).
    - destruct H as (H1 & H2 & H3). split; [exact H1|]. split; [exact H2|]. rewrite H3.
      destruct (Rcompare_spec (IZR n) 0); [rewrite Rlt_bool_true|rewrite Rlt_bool_false|rewrite Rlt_bool_false]; auto; lra.
    - apply B2FF_inf. exact H. }
  destruct DR as [DR|[O1 O2]].
  - exact (narrowed prec emax Hp He Hmax _ _ _ _ _ DR (G 24 128 eq_refl eq_refl) (G prec emax Hp He) R).
  - exact (narrowed_overflow prec emax _ _ _ _ _ O1 O2 (G 24 128 eq_refl eq_refl) (G prec emax Hp He) R).
Qed.
End Ops.
