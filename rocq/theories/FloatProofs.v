From Coq Require Import ZArith Reals Bool Lia Lra Psatz.
From Flocq Require Import Core IEEE754.BinarySingleNaN IEEE754.Binary IEEE754.Bits.
From Verif Require Import FloatModel FloatSpec.
Open Scope Z_scope.

(** * Integer rounding *)
Definition rne (X k : Z) : Z :=
  let q := X / 2 ^ k in let r := X mod 2 ^ k in
  if 2 * r <? 2 ^ k then q else if 2 ^ k <? 2 * r then q + 1 else if Z.even q then q else q + 1.
Lemma rne_shift : forall a X k, 0 <= k -> Z.even a = true -> rne (a * 2 ^ k + X) k = a + rne X k.
Proof.
  intros a X k Hk Ha. unfold rne. assert (H2 : 0 < 2 ^ k) by (apply Z.pow_pos_nonneg; lia).
  replace (a * 2 ^ k + X) with (X + a * 2 ^ k) by ring. rewrite Z.div_add, Z.mod_add by lia. rewrite Z.even_add, Ha.
  destruct (2 * (X mod 2 ^ k) <? 2 ^ k); [lia|]. destruct (2 ^ k <? 2 * (X mod 2 ^ k)); [lia|]. destruct (Z.even (X / 2 ^ k)); cbn; lia.
Qed.
Lemma rne_bounds : forall X k, 0 < k -> X / 2 ^ k <= rne X k <= X / 2 ^ k + 1.
Proof. intros X k Hk. unfold rne. destruct (_ <? _); [lia|]. destruct (_ <? _); [lia|]. destruct (Z.even _); lia. Qed.
Lemma rne_range : forall X k a b, 0 < k -> a * 2 ^ k <= X < b * 2 ^ k -> a <= rne X k <= b.
Proof.
  intros X k a b Hk [H1 H2]. pose proof (rne_bounds X k Hk). assert (HP : 0 < 2 ^ k) by (apply Z.pow_pos_nonneg; lia).
  assert (a <= X / 2 ^ k) by (apply Z.div_le_lower_bound; lia). assert (X / 2 ^ k < b) by (apply Z.div_lt_upper_bound; lia). lia.
Qed.
Lemma ZnearestE_rne : forall X k, 0 <= k -> ZnearestE (IZR X * bpow radix2 (- k)) = rne X k.
Proof.
  intros X k Hk. assert (HP : 0 < 2 ^ k) by (apply Z.pow_pos_nonneg; lia). assert (HR : (0 < IZR (2 ^ k))%R) by (apply IZR_lt; auto).
  rewrite bpow_opp. replace (bpow radix2 k) with (IZR (2 ^ k)) by (rewrite <- IZR_Zpower by auto; reflexivity).
  assert (EX : X = X / 2 ^ k * 2 ^ k + X mod 2 ^ k) by (rewrite Z.mul_comm; apply Z.div_mod; lia).
  pose proof (Z.mod_pos_bound X (2 ^ k) HP) as HB. unfold rne. set (q := X / 2 ^ k) in *. set (r := X mod 2 ^ k) in *.
  assert (EV : (IZR X * / IZR (2 ^ k))%R = (IZR q + IZR r / IZR (2 ^ k))%R).
  { rewrite EX at 1. rewrite plus_IZR, mult_IZR. field. lra. }
  rewrite EV. assert (HF : (0 <= IZR r / IZR (2 ^ k) < 1)%R).
  { split; [apply Rmult_le_pos; [apply IZR_le; lia|left; apply Rinv_0_lt_compat; auto]|]. apply Rmult_lt_reg_r with (IZR (2 ^ k)); auto. unfold Rdiv. rewrite Rmult_assoc, Rinv_l by lra. rewrite Rmult_1_l, Rmult_1_r. apply IZR_lt. lia. }
  assert (FL : Zfloor (IZR q + IZR r / IZR (2 ^ k)) = q) by (apply Zfloor_imp; rewrite plus_IZR; lra).
  unfold Znearest. rewrite FL. replace (IZR q + IZR r / IZR (2 ^ k) - IZR q)%R with (IZR r / IZR (2 ^ k))%R by ring.
  assert (HC : (0 < r -> Zceil (IZR q + IZR r / IZR (2 ^ k)) = q + 1)).
  { intros Hr. apply Zceil_imp. rewrite plus_IZR, minus_IZR, plus_IZR. assert (0 < IZR r / IZR (2 ^ k))%R by (apply Rdiv_lt_0_compat; auto; apply IZR_lt; auto). lra. }
  assert (HH : (IZR r / IZR (2 ^ k) - / 2 = IZR (2 * r - 2 ^ k) * / (2 * IZR (2 ^ k)))%R) by (rewrite minus_IZR, mult_IZR; field; lra).
  assert (HI : (0 < / (2 * IZR (2 ^ k)))%R) by (apply Rinv_0_lt_compat; lra).
  destruct (Z.ltb_spec (2 * r) (2 ^ k)) as [H1|H1].
  - rewrite Rcompare_Lt; auto. assert (IZR (2 * r - 2 ^ k) < 0)%R by (apply IZR_lt; lia). nra.
  - destruct (Z.ltb_spec (2 ^ k) (2 * r)) as [H2|H2].
    + rewrite Rcompare_Gt; [apply HC; lia|]. assert (0 < IZR (2 * r - 2 ^ k))%R by (apply IZR_lt; lia). nra.
    + rewrite Rcompare_Eq; [|replace (2 * r - 2 ^ k) with 0 in HH by lia; lra]. destruct (Z.even q); cbn; auto. apply HC. lia.
Qed.
(** Rounding [X * 2^g] in a format with precision [p] and least exponent [emin]
    when the target exponent is [g + k]. *)
Lemma round_at : forall p emin X g k, 0 < p -> 0 <= k -> 0 <= X < 2 ^ (p + k) ->
  (g + k = emin \/ (emin <= g + k /\ 2 ^ (p - 1 + k) <= X)) ->
  round radix2 (FLT_exp emin p) ZnearestE (IZR X * bpow radix2 g) = (IZR (rne X k) * bpow radix2 (g + k))%R.
Proof.
  intros p emin X g k Hp Hk HX HE. destruct (Z.eq_dec X 0) as [->|HX0].
  - rewrite Rmult_0_l. rewrite round_0 by auto with typeclass_instances. unfold rne. rewrite Z.div_0_l, Z.mod_0_l by (apply Z.pow_nonzero; lia).
    replace (2 * 0 <? 2 ^ k) with true; [ring|]. symmetry. apply Z.ltb_lt. apply Z.pow_pos_nonneg; lia.
  - assert (HC : cexp radix2 (FLT_exp emin p) (IZR X * bpow radix2 g) = g + k).
    { unfold cexp, FLT_exp. assert (HM1 : mag radix2 (IZR X * bpow radix2 g) <= p + k + g).
      { apply mag_le_bpow.
        - apply Rmult_integral_contrapositive. split; [apply IZR_neq; auto|apply Rgt_not_eq, bpow_gt_0].
        - rewrite Rabs_mult, (Rabs_pos_eq (bpow _ _)) by apply bpow_ge_0. rewrite bpow_plus. apply Rmult_lt_compat_r; [apply bpow_gt_0|].
          rewrite <- IZR_Zpower by lia. rewrite <- abs_IZR. apply IZR_lt. change (Zpower radix2 (p + k)) with (2 ^ (p + k)). lia. }
      destruct HE as [HE|[HE HL]]; [lia|].
      assert (HM2 : p - 1 + k + g < mag radix2 (IZR X * bpow radix2 g)).
      { apply mag_gt_bpow. rewrite Rabs_mult, (Rabs_pos_eq (bpow _ _)) by apply bpow_ge_0. rewrite bpow_plus. apply Rmult_le_compat_r; [apply bpow_ge_0|].
        rewrite <- IZR_Zpower by lia. rewrite <- abs_IZR. apply IZR_le. change (Zpower radix2 (p - 1 + k)) with (2 ^ (p - 1 + k)). lia. }
      lia. }
    unfold round, scaled_mantissa. rewrite HC. unfold F2R. cbn [Fnum Fexp]. f_equal. f_equal.
    rewrite Rmult_assoc, <- bpow_plus. replace (g + - (g + k)) with (- k) by ring. apply ZnearestE_rne. auto.
Qed.

(** * Decoding *)
Definition pm (s : bool) (r : R) : R := if s then (- r)%R else r.
Section Decode.
Variables mw ew : Z.
Hypotheses (Hmw : 0 < mw) (Hew : 0 < ew) (Hmax : mw + 1 < 2 ^ (ew - 1)).
Local Notation prec := (mw + 1).
Local Notation emax := (2 ^ (ew - 1)).
Local Notation emin := (3 - 2 ^ (ew - 1) - (mw + 1)).
Definition word (s : bool) (W : Z) : Z := (if s then 2 ^ (mw + ew) else 0) + W.
Local Notation val := (binary_float_of_bits mw ew Hmw Hew Hmax).
Definition finite_as {p e} (x : binary_float p e) (s : bool) (r : R) : Prop :=
  is_finite p e x = true /\ is_nan p e x = false /\ Bsign p e x = s /\ B2R p e x = pm s r.
Definition infinite_as {p e} (x : binary_float p e) (s : bool) : Prop :=
  is_finite p e x = false /\ is_nan p e x = false /\ Bsign p e x = s.
Lemma join_word : forall s m e, join_bits mw ew s m e = word s (e * 2 ^ mw + m).
Proof. intros s m e. unfold join_bits, word. rewrite Z.shiftl_mul_pow2 by lia. destruct s; [rewrite Z.pow_add_r by lia|]; ring. Qed.
Lemma pow_mw : 0 < 2 ^ mw. Proof. apply Z.pow_pos_nonneg; lia. Qed.
Lemma ew_two : 2 ^ ew = 2 * 2 ^ (ew - 1).
Proof. replace ew with (1 + (ew - 1)) at 1 by ring. rewrite Z.pow_add_r by lia. reflexivity. Qed.
Lemma cond_pm : forall s p e, @F2R radix2 {| Fnum := SpecFloat.cond_Zopp s (Zpos p); Fexp := e |} = pm s (IZR (Zpos p) * bpow radix2 e).
Proof. intros s p e. unfold F2R. cbn [Fnum Fexp]. destruct s; cbn [SpecFloat.cond_Zopp pm]; auto. rewrite opp_IZR. ring. Qed.
Lemma decode_finite : forall s m e, 0 <= m < 2 ^ mw -> 0 <= e < 2 ^ ew - 1 ->
  finite_as (val (word s (e * 2 ^ mw + m))) s
    (IZR (if e =? 0 then m else m + 2 ^ mw) * bpow radix2 (Z.max e 1 + emin - 1)).
Proof.
  intros s m e Hm He. rewrite <- join_word. unfold finite_as, binary_float_of_bits. rewrite is_finite_FF2B, is_nan_FF2B, Bsign_FF2B, B2R_FF2B.
  unfold binary_float_of_bits_aux. rewrite split_join_bits by (change Zpower with Z.pow in *; auto; lia). unfold SpecFloat.emin.
  replace (Zeq_bool e 0) with (e =? 0) by (unfold Zeq_bool; destruct e; reflexivity).
  destruct (Z.eqb_spec e 0) as [->|He0].
  - destruct m as [|p|p]; [|change (Z.max 0 1) with 1|lia].
    + repeat split. cbn [FF2R]. rewrite Rmult_0_l. unfold pm. destruct s; ring.
    + repeat split. cbn [FF2R]. rewrite cond_pm. do 3 f_equal. lia.
  - replace (Zeq_bool e (2 ^ ew - 1)) with false by (symmetry; apply not_true_is_false; intros HE; apply Zeq_bool_eq in HE; lia).
    pose proof pow_mw. destruct (m + 2 ^ mw) as [|p|p] eqn:EM; [lia| |lia]. repeat split. cbn [FF2R]. rewrite cond_pm. do 3 f_equal. lia.
Qed.
Lemma decode_inf : forall s, infinite_as (val (word s ((2 ^ ew - 1) * 2 ^ mw))) s.
Proof.
  intros s. pose proof pow_mw. pose proof ew_two. rewrite <- (Z.add_0_r (_ * _)). rewrite <- join_word. unfold infinite_as, binary_float_of_bits. rewrite is_finite_FF2B, is_nan_FF2B, Bsign_FF2B.
  unfold binary_float_of_bits_aux. rewrite split_join_bits by lia. unfold Zeq_bool. rewrite Z.compare_refl.
  destruct (Z.compare_spec (2 ^ ew - 1) 0); [lia| |]; repeat split; auto.
Qed.
Lemma decode_nan : forall s m, 0 < m < 2 ^ mw -> is_nan prec emax (val (word s ((2 ^ ew - 1) * 2 ^ mw + m))) = true.
Proof.
  intros s m Hm. pose proof pow_mw. pose proof ew_two. rewrite <- join_word. unfold binary_float_of_bits. rewrite is_nan_FF2B.
  unfold binary_float_of_bits_aux. rewrite split_join_bits by lia. unfold Zeq_bool. rewrite Z.compare_refl.
  destruct m as [|p|p]; try lia. destruct (Z.compare_spec (2 ^ ew - 1) 0); [lia| |]; reflexivity.
Qed.
Lemma decode_KM : forall s K M, 0 <= K <= 2 ^ ew - 3 -> 0 <= M <= 2 ^ (mw + 1) -> (K <> 0 -> 2 ^ mw <= M) ->
  K * 2 ^ mw + M < (2 ^ ew - 1) * 2 ^ mw ->
  finite_as (val (word s (K * 2 ^ mw + M))) s (IZR M * bpow radix2 (K + emin)).
Proof.
  intros s K M HK HM HL HI. pose proof pow_mw as HP. assert (E2 : 2 ^ (mw + 1) = 2 * 2 ^ mw) by (rewrite Z.pow_add_r by lia; change (2 ^ 1) with 2; ring).
  destruct (Z_lt_le_dec M (2 ^ mw)) as [H1|H1].
  - assert (K = 0) by (destruct (Z.eq_dec K 0); auto; specialize (HL n); lia). subst K.
    pose proof (decode_finite s M 0 ltac:(lia) ltac:(lia)) as HD. cbn [Z.eqb] in HD. replace (Z.max 0 1 + emin - 1) with (0 + emin) in HD by lia. exact HD.
  - destruct (Z_lt_le_dec M (2 ^ (mw + 1))) as [H2|H2].
    + assert (HKK : K + 1 < 2 ^ ew - 1) by nia.
      pose proof (decode_finite s (M - 2 ^ mw) (K + 1) ltac:(lia) ltac:(lia)) as HD.
      replace (K + 1 =? 0) with false in HD by (symmetry; apply Z.eqb_neq; lia).
      replace (M - 2 ^ mw + 2 ^ mw) with M in HD by ring. replace (Z.max (K + 1) 1 + emin - 1) with (K + emin) in HD by lia.
      replace ((K + 1) * 2 ^ mw + (M - 2 ^ mw)) with (K * 2 ^ mw + M) in HD by ring. exact HD.
    + assert (M = 2 * 2 ^ mw) by lia. subst M. assert (HKK : K + 2 < 2 ^ ew - 1) by nia.
      pose proof (decode_finite s 0 (K + 2) ltac:(lia) ltac:(lia)) as HD.
      replace (K + 2 =? 0) with false in HD by (symmetry; apply Z.eqb_neq; lia). rewrite Z.add_0_l in HD.
      replace (Z.max (K + 2) 1 + emin - 1) with (1 + (K + emin)) in HD by lia. rewrite bpow_plus in HD. change (bpow radix2 1) with 2%R in HD.
      replace ((K + 2) * 2 ^ mw + 0) with (K * 2 ^ mw + 2 * 2 ^ mw) in HD by ring.
      rewrite mult_IZR. replace (2 * IZR (2 ^ mw) * bpow radix2 (K + emin))%R with (IZR (2 ^ mw) * (2 * bpow radix2 (K + emin)))%R by ring. exact HD.
Qed.
Lemma KM_limit : forall K M, 0 <= K <= 2 ^ ew - 3 -> 0 <= M <= 2 ^ (mw + 1) ->
  K * 2 ^ mw + M <= (2 ^ ew - 1) * 2 ^ mw /\
  (K * 2 ^ mw + M < (2 ^ ew - 1) * 2 ^ mw <-> (IZR M * bpow radix2 (K + emin) < bpow radix2 emax)%R).
Proof.
  intros K M HK HM. pose proof pow_mw as HP. assert (E2 : 2 ^ (mw + 1) = 2 * 2 ^ mw) by (rewrite Z.pow_add_r by lia; change (2 ^ 1) with 2; ring).
  split; [nia|]. pose proof ew_two as HE.
  assert (EB : bpow radix2 (mw + 1) = IZR (2 ^ (mw + 1))) by (rewrite <- IZR_Zpower by lia; reflexivity).
  split.
  - intros HI. destruct (Z.eq_dec M (2 ^ (mw + 1))) as [->|HM1].
    + rewrite <- EB, <- bpow_plus. apply bpow_lt. assert (K < 2 ^ ew - 3) by nia. lia.
    + apply Rlt_le_trans with (IZR (2 ^ (mw + 1)) * bpow radix2 (K + emin))%R.
      * apply Rmult_lt_compat_r; [apply bpow_gt_0|]. apply IZR_lt. lia.
      * rewrite <- EB, <- bpow_plus. apply bpow_le. lia.
  - intros HI. destruct (Z_lt_le_dec (K * 2 ^ mw + M) ((2 ^ ew - 1) * 2 ^ mw)) as [|HG]; auto. exfalso.
    assert (K = 2 ^ ew - 3 /\ M = 2 ^ (mw + 1)) as [-> ->] by nia. rewrite <- EB, <- bpow_plus in HI. apply lt_bpow in HI. lia.
Qed.
Lemma rounded_KM : forall (f : binary32) s x K M, finite_as f s x -> (0 <= x)%R ->
  0 <= K <= 2 ^ ew - 3 -> 0 <= M <= 2 ^ (mw + 1) -> (K <> 0 -> 2 ^ mw <= M) ->
  round radix2 (FLT_exp emin prec) ZnearestE x = (IZR M * bpow radix2 (K + emin))%R ->
  rounded f (val (word s (K * 2 ^ mw + M))).
Proof.
  intros f s x K M [F1 [F2 [F3 F4]]] Hx HK HM HL HR. unfold rounded. rewrite F2, F1, F4, F3. destruct (KM_limit K M HK HM) as [HLe HLt].
  assert (HPOS : (0 <= IZR M * bpow radix2 (K + emin))%R) by (apply Rmult_le_pos; [apply IZR_le; lia|apply bpow_ge_0]).
  assert (HRR : round radix2 (FLT_exp emin prec) ZnearestE (pm s x) = pm s (IZR M * bpow radix2 (K + emin))).
  { destruct s; cbn [pm]; auto. rewrite round_NE_opp. rewrite HR. reflexivity. }
  rewrite HRR. assert (HA : Rabs (pm s (IZR M * bpow radix2 (K + emin))) = (IZR M * bpow radix2 (K + emin))%R).
  { destruct s; cbn [pm]; [rewrite Rabs_Ropp|]; apply Rabs_pos_eq; auto. }
  rewrite HA. cbn [andb]. destruct (Rlt_bool_spec (IZR M * bpow radix2 (K + emin)) (bpow radix2 emax)) as [HB|HB].
  - apply HLt in HB. destruct (decode_KM s K M HK HM HL HB) as [A1 [A2 [A3 A4]]]. split; [auto|]. split; auto.
  - assert (HQ : K * 2 ^ mw + M = (2 ^ ew - 1) * 2 ^ mw).
    { destruct (Z.eq_dec (K * 2 ^ mw + M) ((2 ^ ew - 1) * 2 ^ mw)) as [|HN]; auto. exfalso. assert (HC : K * 2 ^ mw + M < (2 ^ ew - 1) * 2 ^ mw) by lia. apply HLt in HC. lra. }
    rewrite HQ. destruct (decode_inf s) as [A1 [A2 A3]]. auto.
Qed.
Lemma rounded_inf : forall (f : binary32) s, infinite_as f s -> rounded f (val (word s ((2 ^ ew - 1) * 2 ^ mw))).
Proof.
  intros f s [F1 [F2 F3]]. unfold rounded. rewrite F2, F1, F3. destruct (decode_inf s) as [A1 [A2 A3]]. cbn [andb]. auto.
Qed.
Lemma word_range : forall s W, 0 <= W < 2 ^ (mw + ew) -> 0 <= word s W < 2 ^ (mw + ew + 1).
Proof.
  intros s W HW. unfold word. assert (2 ^ (mw + ew + 1) = 2 * 2 ^ (mw + ew)) by (rewrite (Z.pow_add_r _ (mw + ew)) by lia; change (2 ^ 1) with 2; ring). destruct s; lia.
Qed.
End Decode.
