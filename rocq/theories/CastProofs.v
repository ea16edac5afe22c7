From Coq Require Import ZArith Reals Bool List Lia Lra Arith.
From Flocq Require Import Core IEEE754.BinarySingleNaN IEEE754.Binary IEEE754.Bits.
From Verif Require Import DispatchModel FloatModel FloatSpec FloatProofs3 FloatProofs4 Arith16Model Arith16Proofs Arith16Proofs3 CmpSpec ShapeModel TensorModel BcastModel CastModel CastSpec.
Import ListNotations.
Local Open Scope Z_scope.

Notation fmt p e := (generic_format radix2 (FLT_exp (3 - e - p) p)).
Lemma nearest_fix : forall p e r, fmt p e r -> (Rabs r < bpow radix2 e)%R -> nearest p e (Num r) = Num r.
Proof.
  intros p e r G B. unfold nearest. cbv zeta. rewrite round_generic by (auto using valid_rnd_N).
  rewrite Rlt_bool_true by exact B. reflexivity.
Qed.
Lemma nearest_own : forall p e (x : binary_float p e), nearest p e (number_of x) = number_of x.
Proof.
  intros p e x. unfold number_of. destruct (is_nan p e x); [reflexivity|]. destruct (is_finite p e x).
  - apply nearest_fix; [apply (generic_format_B2R p e x)|apply abs_B2R_lt_emax].
  - destruct (Bsign p e x); reflexivity.
Qed.
Lemma same_number : forall p e p' e' (x : binary_float p e) (y : binary_float p' e'), same_value x y -> number_of x = number_of y.
Proof.
  intros p e p' e' x y [N S]. unfold number_of. rewrite <- N. destruct (is_nan p e x); [reflexivity|].
  destruct (S eq_refl) as (A & B & C). rewrite A, B, C. reflexivity.
Qed.
(** Narrowing is the nearest number. *)
Lemma rounded_number : forall p e (f : binary32) (y : binary_float p e), rounded f y -> number_of y = nearest p e (number_of f).
Proof.
  intros p e f y R. unfold rounded in R. unfold number_of. destruct (is_nan 24 128 f) eqn:N; [rewrite R; reflexivity|].
  destruct R as (Ny & Sg & R). cbv zeta in R. rewrite Ny. destruct (is_finite 24 128 f) eqn:Ff.
  - unfold nearest. cbv zeta. destruct (Rlt_bool _ _) eqn:L; cbn [andb] in R.
    + destruct R as [R1 R2]. rewrite R1, R2. reflexivity.
    + rewrite R, Sg. destruct f as [s|s|s pl H|s m g H]; cbn in Ff, N; try discriminate.
      * cbn [B2R] in L. rewrite round_0, Rabs_R0, Rlt_bool_true in L by (auto using valid_rnd_N || apply bpow_gt_0). discriminate.
      * cbn [Bsign B2R]. destruct s; cbn [cond_Zopp].
        -- rewrite Rlt_bool_true; [reflexivity|]. apply F2R_lt_0. reflexivity.
        -- rewrite Rlt_bool_false; [reflexivity|]. apply F2R_ge_0. cbn. lia.
  - cbn [andb] in R. rewrite R, Sg. destruct (Bsign 24 128 f); reflexivity.
Qed.
Lemma int_float_number : forall n, number_of (int_float n) = nearest 24 128 (Num (IZR n)).
Proof.
  intros n. unfold int_float.
  assert (E : F2R (Float radix2 n 0) = IZR n) by (unfold F2R; simpl; ring).
  pose proof (binary_normalize_correct 24 128 eq_refl eq_refl mode_NE n 0 false) as H. rewrite E in H.
  change (SpecFloat.fexp 24 128) with (FLT_exp (3 - 128 - 24) 24) in H. change (round_mode mode_NE) with ZnearestE in H.
  unfold nearest. cbv zeta. destruct (Rlt_bool (Rabs _) _).
  - destruct H as (H1 & H2 & _). unfold number_of. rewrite (finite_not_nan _ _ _ H2), H2, H1. reflexivity.
  - revert H. generalize (binary_normalize 24 128 eq_refl eq_refl mode_NE n 0 false). intros x H.
    destruct x as [s|s|s pl Hp|s m g Hb]; cbn in H; try discriminate; try (destruct (Rlt_bool (IZR n) 0); discriminate).
    injection H as ->. destruct (Rlt_bool (IZR n) 0); reflexivity.
Qed.
(** The first half of every conversion. *)
Lemma toFloat_number : forall s w, cell s w -> number_of (toFloat s w) = nearest 24 128 (value s w).
Proof.
  intros s w C. destruct s; cbn [toFloat value]; cbn [cell element] in C.
  - symmetry. apply nearest_own.
  - unfold half_float. rewrite (same_number _ _ _ _ _ _ (half_widen_lemma w C)). symmetry. apply nearest_own.
  - unfold bf16_float. rewrite (same_number _ _ _ _ _ _ (bf16_widen_lemma w C)). symmetry. apply nearest_own.
  - apply int_float_number.
  - apply int_float_number.
  - apply int_float_number.
Qed.
Lemma value_wide : forall s w, cell s w -> floating s -> nearest 24 128 (value s w) = value s w.
Proof.
  intros s w C F. destruct F as [-> | [-> | ->]]; cbn [value]; cbn [cell element] in C.
  - apply nearest_own.
  - rewrite (same_number _ _ _ _ _ _ (half_widen_lemma w C)). apply nearest_own.
  - rewrite (same_number _ _ _ _ _ _ (bf16_widen_lemma w C)). apply nearest_own.
Qed.
Lemma value_own : forall d v, floating d -> nearest (precision d) (exponent d) (value d v) = value d v.
Proof. intros d v [-> | [-> | ->]]; apply nearest_own. Qed.
(** Conversion to a floating-point type: through float32. *)
Lemma cast_float_two : forall s d w, cell s w -> floating d ->
  exists v, cast s d w = Ok v /\ cell d v /\ value d v = nearest (precision d) (exponent d) (nearest 24 128 (value s w)).
Proof.
  intros s d w C F. rewrite <- (toFloat_number s w C). destruct F as [-> | [-> | ->]]; cbn [cast]; eexists; (split; [reflexivity|]); cbn [cell element value precision exponent].
  - split; [apply bits_range|]. rewrite bits_back. symmetry. apply nearest_own.
  - split; [apply fromfp_range|]. apply (rounded_number 11 16). apply half_narrow.
  - split; [apply rtne_range|]. apply (rounded_number 8 128). apply bf16_narrow.
Qed.

(** Integers. *)
Lemma trunc_is : forall f : binary32, Btrunc 24 128 f = Ztrunc (B2R 24 128 f).
Proof.
  intros f. apply eq_IZR. rewrite Btrunc_correct. unfold round, scaled_mantissa, cexp, FIX_exp, F2R. cbn [Fnum Fexp bpow Z.opp].
  rewrite !Rmult_1_r. reflexivity.
  Unshelve. all: reflexivity.
Qed.
Definition inside (t : dtype) (n : Z) : bool := (least t <=? n) && (n <? least t + span t).
Lemma inside_cell : forall t n, integral t -> (inside t n = true <-> cell t n).
Proof.
  intros t n I. unfold inside. rewrite andb_true_iff, Z.leb_le, Z.ltb_lt. destruct I as [-> | [-> | ->]]; cbn [least span cell element]; lia.
Qed.
Lemma converted_int : forall t r, integral t -> converted t (Num r) = if inside t (Ztrunc r) then Some (Num (IZR (Ztrunc r))) else None.
Proof. intros t r [-> | [-> | ->]]; reflexivity. Qed.
Lemma converted_int_none : forall t x, integral t -> (forall r, x <> Num r) -> converted t x = None.
Proof. intros t x [-> | [-> | ->]] H; destruct x; try reflexivity; destruct (H x eq_refl). Qed.
Lemma integral_case : forall t, integral t \/ floating t.
Proof. intros []; unfold integral, floating; auto 6. Qed.
Lemma isInt_integral : forall t, isInt t = true <-> integral t.
Proof. intros []; cbn; unfold integral; split; intro; auto; try discriminate; destruct H as [H|[H|H]]; discriminate. Qed.
Lemma isInt_floating : forall t, isInt t = false <-> floating t.
Proof. intros []; cbn; unfold floating; split; intro; auto; try discriminate; destruct H as [H|[H|H]]; discriminate. Qed.
Lemma cast_integral : forall s d w, integral d -> cast s d w = if isInt s then Ok (wrap d w) else chop d (toFloat s w).
Proof. intros s d w [-> | [-> | ->]]; reflexivity. Qed.
Lemma value_integral : forall d v, integral d -> value d v = Num (IZR v).
Proof. intros d v [-> | [-> | ->]]; reflexivity. Qed.
Lemma wrap_inside : forall t n, integral t -> cell t n -> wrap t n = n.
Proof.
  intros t n I C. apply (inside_cell t n I) in C. unfold inside in C. rewrite andb_true_iff, Z.leb_le, Z.ltb_lt in C.
  unfold wrap. rewrite Z.mod_small; lia.
Qed.
Lemma span_pos : forall t, 0 < span t. Proof. intros []; reflexivity. Qed.
Lemma wrap_cell : forall t n, integral t -> cell t (wrap t n).
Proof.
  intros t n I. apply (inside_cell _ _ I). unfold inside, wrap. pose proof (Z.mod_pos_bound (n - least t) (span t) (span_pos t)).
  rewrite andb_true_iff, Z.leb_le, Z.ltb_lt. lia.
Qed.
Lemma chop_number : forall d f, integral d ->
  chop d f = match converted d (number_of f) with Some (Num r) => Ok (Ztrunc r) | _ => UB end.
Proof.
  intros d f I. unfold chop. destruct (is_finite 24 128 f) eqn:F.
  - unfold number_of. rewrite (finite_not_nan _ _ _ F), F. rewrite converted_int by exact I. cbv zeta. rewrite trunc_is. unfold inside.
    destruct (_ && _); [|reflexivity]. rewrite Ztrunc_IZR. reflexivity.
  - rewrite converted_int_none; [reflexivity|exact I|]. intros r. unfold number_of. rewrite F. destruct (is_nan 24 128 f), (Bsign 24 128 f); discriminate.
Qed.
(** From a floating-point type to an integer type: exactly what is wanted, and
    undefined otherwise. *)
Lemma cast_chop : forall s d w, cell s w -> floating s -> integral d ->
  match converted d (value s w) with
  | Some x => exists v, cast s d w = Ok v /\ cell d v /\ value d v = x
  | None => cast s d w = UB
  end.
Proof.
  intros s d w C F I. rewrite cast_integral by exact I. rewrite (proj2 (isInt_floating s) F), (chop_number d _ I), (toFloat_number s w C), (value_wide s w C F).
  destruct (value s w) as [| |r|]; try (rewrite (converted_int_none d) by (auto; discriminate); reflexivity).
  rewrite (converted_int d r I). destruct (inside d (Ztrunc r)) eqn:E; [|reflexivity].
  exists (Ztrunc r). rewrite Ztrunc_IZR. split; [reflexivity|]. split; [apply inside_cell; auto|]. apply value_integral. exact I.
Qed.
Lemma cast_wrap : forall s d w, cell s w -> integral s -> integral d ->
  exists v, cast s d w = Ok v /\ cell d v /\ (cell d w -> v = w) /\ (span d | v - w).
Proof.
  intros s d w C S I. exists (wrap d w). rewrite cast_integral by exact I. rewrite (proj2 (isInt_integral s) S).
  split; [reflexivity|]. split; [apply wrap_cell; exact I|]. split; [apply wrap_inside; exact I|].
  unfold wrap. exists (- ((w - least d) / span d)). pose proof (Z.div_mod (w - least d) (span d)). pose proof (span_pos d). nia.
Qed.

(** The nearest number after the nearest float: the same where the first step is
    exact or cannot matter. *)
Lemma cast_float : forall s d w, cell s w -> floating d -> (d = BFloat16 -> integral s -> Z.abs w <= 2 ^ 24) ->
  exists v, cast s d w = Ok v /\ cell d v /\ converted d (value s w) = Some (value d v).
Proof.
  intros s d w C F X.
  assert (K : exists v, cast s d w = Ok v /\ cell d v /\ value d v = nearest (precision d) (exponent d) (value s w)).
  { destruct (integral_case s) as [S|S].
    - rewrite (value_integral s w S). destruct F as [-> | [-> | ->]]; cbn [cast].
      + eexists. split; [reflexivity|]. split; [apply bits_range|]. cbn [value]. rewrite bits_back.
        replace (toFloat s w) with (int_float w) by (destruct S as [-> | [-> | ->]]; reflexivity). apply int_float_number.
      + eexists. split; [reflexivity|]. split; [apply fromfp_range|]. cbn [value].
        replace (toFloat s w) with (int_float w) by (destruct S as [-> | [-> | ->]]; reflexivity). fold (half_of_int w).
        rewrite (same_number _ _ _ _ _ _ (half_int_lemma w)). unfold Arith16Spec.ieee_of_int.
        assert (E : F2R (Float radix2 w 0) = IZR w) by (unfold F2R; simpl; ring).
        pose proof (binary_normalize_correct 11 16 eq_refl eq_refl mode_NE w 0 false) as H. rewrite E in H.
        change (SpecFloat.fexp 11 16) with (FLT_exp (3 - 16 - 11) 11) in H. change (round_mode mode_NE) with ZnearestE in H.
        unfold nearest, precision, exponent. cbv zeta. destruct (Rlt_bool (Rabs _) _).
        * destruct H as (H1 & H2 & _). unfold number_of. rewrite (finite_not_nan _ _ _ H2), H2, H1. reflexivity.
        * revert H. generalize (binary_normalize 11 16 eq_refl eq_refl mode_NE w 0 false). intros x H.
          destruct x as [s'|s'|s' pl Hp|s' m g Hb]; cbn in H; try discriminate; try (destruct (Rlt_bool (IZR w) 0); discriminate).
          injection H as ->. destruct (Rlt_bool (IZR w) 0); reflexivity.
      + destruct (cast_float_two s BFloat16 w C) as (v & A & B & D); [unfold floating; auto|]. exists v. split; [exact A|]. split; [exact B|].
        rewrite D. rewrite (value_integral s w S). f_equal. apply nearest_fix.
        * rewrite <- (int_exact w (X eq_refl S)). apply generic_format_round; [apply FLT_exp_valid; reflexivity|apply valid_rnd_N].
        * rewrite <- abs_IZR. change (bpow radix2 128) with (IZR (2 ^ 128)). apply IZR_lt. specialize (X eq_refl S). lia.
    - destruct (cast_float_two s d w C F) as (v & A & B & D). exists v. rewrite (value_wide s w C S) in D. auto. }
  destruct K as (v & A & B & D). exists v. split; [exact A|]. split; [exact B|]. rewrite D. destruct F as [-> | [-> | ->]]; reflexivity.
Qed.
(** Numbers the target type has are kept. *)
Lemma cast_keeps : forall s d w, cell s w -> (exists u, cell d u /\ value d u = value s w) ->
  exists v, cast s d w = Ok v /\ cell d v /\ value d v = value s w.
Proof.
  intros s d w C (u & U & E). destruct (integral_case d) as [D|D].
  - rewrite (value_integral d u D) in E. destruct (integral_case s) as [S|S].
    + rewrite (value_integral s w S) in E. injection E as E. apply eq_IZR in E. subst u.
      destruct (cast_wrap s d w C S D) as (v & A & B & F & _). exists v. split; [exact A|]. split; [exact B|].
      rewrite (F U), (value_integral d _ D), (value_integral s _ S). reflexivity.
    + pose proof (cast_chop s d w C S D) as H. rewrite <- E, (converted_int d _ D), Ztrunc_IZR, (proj2 (inside_cell d u D) U) in H.
      rewrite <- E. exact H.
  - destruct (cast_float_two s d w C D) as (v & A & B & F). exists v. split; [exact A|]. split; [exact B|].
    rewrite F, <- E. rewrite (value_wide d u U D). apply value_own. exact D.
Qed.
