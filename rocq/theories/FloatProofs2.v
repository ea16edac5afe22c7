From Coq Require Import ZArith Reals Bool Lia Lra Psatz.
From Flocq Require Import Core IEEE754.BinarySingleNaN IEEE754.Binary IEEE754.Bits.
From Verif Require Import FloatModel FloatSpec FloatProofs.
Open Scope Z_scope.

Lemma word_split : forall w, 0 <= w < 2 ^ 32 ->
  exists s e m, w = word 23 8 s (e * 2 ^ 23 + m) /\ 0 <= e < 256 /\ 0 <= m < 2 ^ 23.
Proof.
  intros w Hw. exists (2 ^ 31 <=? w), ((w mod 2 ^ 31) / 2 ^ 23), (w mod 2 ^ 23). unfold word. change (23 + 8) with 31.
  assert (E1 : w mod 2 ^ 31 = w - (if 2 ^ 31 <=? w then 2 ^ 31 else 0)).
  { destruct (Z.leb_spec (2 ^ 31) w); [|rewrite Z.mod_small; lia]. symmetry. apply Z.mod_unique with 1; lia. }
  assert (E2 : w mod 2 ^ 23 = (w mod 2 ^ 31) mod 2 ^ 23).
  { change (2 ^ 31) with (2 ^ 23 * 2 ^ 8). rewrite Z.rem_mul_r by lia. rewrite Z.mul_comm, Z.mod_add by lia. rewrite Z.mod_mod by lia. reflexivity. }
  pose proof (Z.div_mod (w mod 2 ^ 31) (2 ^ 23) ltac:(lia)). pose proof (Z.mod_pos_bound w (2 ^ 31) ltac:(lia)). pose proof (Z.mod_pos_bound w (2 ^ 23) ltac:(lia)).
  split; [|split; auto]. { destruct (2 ^ 31 <=? w); lia. }
  split; [apply Z.div_pos; lia|apply Z.div_lt_upper_bound; lia].
Qed.
Definition sig (e m : Z) : Z := if e =? 0 then m else m + 2 ^ 23.
Lemma sig_range : forall e m, 0 <= m < 2 ^ 23 -> 0 <= sig e m < 2 ^ 24 /\ (e <> 0 -> 2 ^ 23 <= sig e m).
Proof. intros e m Hm. unfold sig. destruct (Z.eqb_spec e 0); lia. Qed.
Lemma f32_finite : forall s e m, 0 <= m < 2 ^ 23 -> 0 <= e < 255 ->
  finite_as (b32_of_bits (word 23 8 s (e * 2 ^ 23 + m))) s (IZR (sig e m) * bpow radix2 (Z.max e 1 - 150)).
Proof.
  intros s e m Hm He. pose proof (decode_finite 23 8 eq_refl eq_refl eq_refl s m e Hm ltac:(change (2 ^ 8) with 256; lia)) as HD.
  replace (Z.max e 1 + (3 - 2 ^ (8 - 1) - (23 + 1)) - 1) with (Z.max e 1 - 150) in HD by (change (2 ^ (8 - 1)) with 128; lia). exact HD.
Qed.
Lemma f32_inf : forall s, infinite_as (b32_of_bits (word 23 8 s (255 * 2 ^ 23))) s.
Proof. intros s. exact (decode_inf 23 8 eq_refl eq_refl eq_refl s). Qed.
Lemma f32_nan : forall s m, 0 < m < 2 ^ 23 -> is_nan 24 128 (b32_of_bits (word 23 8 s (255 * 2 ^ 23 + m))) = true.
Proof. intros s m Hm. exact (decode_nan 23 8 eq_refl eq_refl eq_refl s m Hm). Qed.

(** * bfloat16 *)
Lemma bf16_code : forall s W, 0 <= W <= 255 * 2 ^ 23 -> is_nan 24 128 (b32_of_bits (word 23 8 s W)) = false ->
  round_to_nearest_even (word 23 8 s W) = word 7 8 s (rne W 16).
Proof.
  intros s W HW HN. unfold round_to_nearest_even. rewrite HN. change 1 with (Z.ones 1) at 1. rewrite Z.land_ones by lia. rewrite !Z.shiftr_div_pow2 by lia.
  unfold u16, u32, word, rne. change (23 + 8) with 31. change (7 + 8) with 15. change (2 ^ 1) with 2.
  assert (EB : ((if s then 2 ^ 31 else 0) + W) / 2 ^ 16 = (if s then 2 ^ 15 else 0) + W / 2 ^ 16).
  { destruct s; [|reflexivity]. replace (2 ^ 31 + W) with (W + 2 ^ 15 * 2 ^ 16) by lia. rewrite Z.div_add by lia. lia. }
  rewrite EB. assert (EM : ((if s then 2 ^ 15 else 0) + W / 2 ^ 16) mod 2 = (W / 2 ^ 16) mod 2).
  { destruct s; [|reflexivity]. replace (2 ^ 15 + W / 2 ^ 16) with (W / 2 ^ 16 + 2 ^ 14 * 2) by lia. apply Z.mod_add. lia. }
  rewrite EM. pose proof (Z.div_mod W (2 ^ 16) ltac:(lia)) as HD. pose proof (Z.mod_pos_bound W (2 ^ 16) ltac:(lia)) as HB.
  set (q := W / 2 ^ 16) in *. set (r := W mod 2 ^ 16) in *.
  assert (HQ : 0 <= q <= 0x7F80) by lia.
  assert (EV : Z.even q = (q mod 2 =? 0)) by (rewrite Zmod_even; destruct (Z.even q); reflexivity). rewrite EV.
  pose proof (Z.mod_pos_bound q 2 ltac:(lia)).
  rewrite (Z.mod_small _ (2 ^ 32)) by (destruct s; lia).
  assert (ED : ((if s then 2 ^ 31 else 0) + W + (q mod 2 + 0x7FFF)) / 2 ^ 16 = (if s then 2 ^ 15 else 0) + (W + q mod 2 + 0x7FFF) / 2 ^ 16).
  { destruct s; [|rewrite !Z.add_0_l; f_equal; lia]. replace (2 ^ 31 + W + (q mod 2 + 0x7FFF)) with (W + q mod 2 + 0x7FFF + 2 ^ 15 * 2 ^ 16) by lia. rewrite Z.div_add by lia. lia. }
  rewrite ED. assert (EQ : (W + q mod 2 + 0x7FFF) / 2 ^ 16 = if 2 * r <? 2 ^ 16 then q else if 2 ^ 16 <? 2 * r then q + 1 else if q mod 2 =? 0 then q else q + 1).
  { destruct (Z.ltb_spec (2 * r) (2 ^ 16)); [symmetry; apply Z.div_unique with (r + q mod 2 + 0x7FFF); lia|].
    destruct (Z.ltb_spec (2 ^ 16) (2 * r)); [symmetry; apply Z.div_unique with (r + q mod 2 + 0x7FFF - 2 ^ 16); lia|].
    destruct (Z.eqb_spec (q mod 2) 0); symmetry; [apply Z.div_unique with (r + q mod 2 + 0x7FFF); lia|apply Z.div_unique with (r + q mod 2 + 0x7FFF - 2 ^ 16); lia]. }
  rewrite EQ. apply Z.mod_small. destruct s; destruct (_ <? _); try lia; destruct (_ <? _); try lia; destruct (_ =? _); lia.
Qed.
Lemma bf16_rounded_lemma : forall w, 0 <= w < 2 ^ 32 -> rounded (b32_of_bits w) (bf16 (round_to_nearest_even w)).
Proof.
  intros w Hw. destruct (word_split w Hw) as (s & e & m & -> & He & Hm). destruct (Z.eq_dec e 255) as [->|He1].
  - destruct (Z.eq_dec m 0) as [->|Hm0].
    + rewrite Z.add_0_r. pose proof (f32_inf s) as HI. rewrite bf16_code; [|lia|apply HI]. change (rne (255 * 2 ^ 23) 16) with ((2 ^ 8 - 1) * 2 ^ 7).
      exact (rounded_inf 7 8 eq_refl eq_refl eq_refl _ s HI).
    + pose proof (f32_nan s m ltac:(lia)) as HN. unfold rounded, round_to_nearest_even. rewrite HN. reflexivity.
  - pose proof (f32_finite s e m Hm ltac:(lia)) as HF. rewrite bf16_code; [|lia|apply HF]. destruct (sig_range e m Hm) as [HS HSL].
    assert (EW : rne (e * 2 ^ 23 + m) 16 = (Z.max e 1 - 1) * 2 ^ 7 + rne (sig e m) 16).
    { rewrite <- rne_shift; [|lia|change (2 ^ 7) with (2 * 2 ^ 6); rewrite Z.mul_assoc, (Z.mul_comm _ 2), <- Z.mul_assoc, Z.even_mul; reflexivity].
      f_equal. unfold sig. destruct (Z.eqb_spec e 0); lia. }
    rewrite EW. refine (rounded_KM 7 8 eq_refl eq_refl eq_refl _ s _ _ _ HF _ _ _ _ _).
    + apply Rmult_le_pos; [apply IZR_le; lia|apply bpow_ge_0].
    + change (2 ^ 8) with 256. lia.
    + apply rne_range; lia.
    + intros HK. apply (rne_range (sig e m) 16 (2 ^ 7) (2 ^ 8)); [lia|]. specialize (HSL ltac:(lia)). lia.
    + rewrite (round_at (7 + 1) (3 - 2 ^ (8 - 1) - (7 + 1)) (sig e m) (Z.max e 1 - 150) 16); [f_equal; f_equal; change (2 ^ (8 - 1)) with 128; lia|lia|lia|change (7 + 1 + 16) with 24; lia|].
      change (3 - 2 ^ (8 - 1) - (7 + 1)) with (-133). destruct (Z_lt_le_dec 1 e); [right|left; lia]. specialize (HSL ltac:(lia)). change (7 + 1 - 1 + 16) with 23. lia.
Qed.

(** * half *)
Lemma exact_b32 : forall X g, 0 <= X < 2 ^ 24 -> -149 <= g ->
  round radix2 (SpecFloat.fexp 24 128) (round_mode mode_NE) (IZR X * bpow radix2 g) = (IZR X * bpow radix2 g)%R.
Proof.
  intros X g HX Hg. apply round_generic; [apply valid_rnd_round_mode|]. change (SpecFloat.fexp 24 128) with (FLT_exp (-149) 24). apply generic_format_FLT. exists (Float radix2 X g); auto.
  cbn [Fnum]. change (Zpower radix2 24) with (2 ^ 24). lia.
Qed.
Lemma below_max : forall X g, 0 <= X < 2 ^ 24 -> g <= 104 -> (IZR X * bpow radix2 g < bpow radix2 128)%R.
Proof.
  intros X g HX Hg. apply Rlt_le_trans with (IZR (2 ^ 24) * bpow radix2 g)%R.
  - apply Rmult_lt_compat_r; [apply bpow_gt_0|apply IZR_lt; lia].
  - change (IZR (2 ^ 24)) with (bpow radix2 24). rewrite <- bpow_plus. apply bpow_le. lia.
Qed.
Lemma pos_value : forall X g, 0 <= X -> (0 <= IZR X * bpow radix2 g)%R.
Proof. intros. apply Rmult_le_pos; [apply IZR_le; auto|apply bpow_ge_0]. Qed.
Lemma mult_exact : forall (a b : binary32) X g h, finite_as a false (IZR X * bpow radix2 g) -> finite_as b false (bpow radix2 h) ->
  0 <= X < 2 ^ 24 -> -149 <= g + h <= 104 -> finite_as (b32_mult mode_NE a b) false (IZR X * bpow radix2 (g + h)).
Proof.
  intros a b X g h (A1 & A2 & A3 & A4) (B1 & B2 & B3 & B4) HX Hg. cbn [pm] in *.
  pose proof (Bmult_correct 24 128 eq_refl eq_refl binop_nan_pl32 mode_NE a b) as HC. rewrite A4, B4 in HC.
  replace (IZR X * bpow radix2 g * bpow radix2 h)%R with (IZR X * bpow radix2 (g + h))%R in HC by (rewrite bpow_plus; ring).
  change Rdefinitions.RbaseSymbolsImpl.Rmult with Rmult in HC. rewrite exact_b32 in HC by lia. rewrite Rabs_pos_eq in HC by (apply pos_value; lia).
  rewrite Rlt_bool_true in HC by (apply below_max; lia). destruct HC as (C1 & C2 & C3). rewrite A1, B1 in C2.
  change (Bmult 24 128 eq_refl eq_refl binop_nan_pl32 mode_NE a b) with (b32_mult mode_NE a b) in *.
  assert (HN : is_nan 24 128 (b32_mult mode_NE a b) = false) by (destruct (b32_mult mode_NE a b); auto; discriminate).
  repeat split; auto. rewrite C3; auto. rewrite A3, B3. reflexivity.
Qed.
Lemma abs_finite : forall (f : binary32) s r, finite_as f s r -> (0 <= r)%R -> finite_as (b32_abs f) false r.
Proof.
  intros f s r (F1 & F2 & F3 & F4) Hr. unfold b32_abs. unfold finite_as. rewrite is_finite_Babs, B2R_Babs, F4. rewrite Bsign_Babs by auto.
  split; auto. split; [destruct f; auto|]. split; auto. destruct s; cbn [pm]; [rewrite Rabs_Ropp|]; apply Rabs_pos_eq; auto.
Qed.
Lemma finite_eq : forall (x y : binary32) s r, finite_as x s r -> finite_as y s r -> x = y.
Proof. intros x y s r (A1 & A2 & A3 & A4) (B1 & B2 & B3 & B4). apply B2R_Bsign_inj; congruence. Qed.

Lemma two112 : finite_as (b32_of_bits (Z.shiftl 239 23)) false (bpow radix2 112).
Proof. change (Z.shiftl 239 23) with (word 23 8 false (239 * 2 ^ 23 + 0)). pose proof (f32_finite false 239 0 ltac:(lia) ltac:(lia)) as H. change (IZR (sig 239 0)) with (bpow radix2 23) in H. rewrite <- bpow_plus in H. exact H. Qed.
Lemma twom110 : finite_as (b32_of_bits (Z.shiftl 17 23)) false (bpow radix2 (-110)).
Proof. change (Z.shiftl 17 23) with (word 23 8 false (17 * 2 ^ 23 + 0)). pose proof (f32_finite false 17 0 ltac:(lia) ltac:(lia)) as H. change (IZR (sig 17 0)) with (bpow radix2 23) in H. rewrite <- bpow_plus in H. exact H. Qed.

Lemma base_small : forall s e m, 0 <= m < 2 ^ 23 -> 0 <= e <= 142 ->
  let X := sig e m in let E0 := Z.max e 1 in let E := Z.max e 113 in let M := rne X (13 + (E - E0)) in
  bits_of_b32 (b32_plus mode_NE (b32_of_bits ((E + 15) * 2 ^ 23))
    (b32_mult mode_NE (b32_mult mode_NE (b32_abs (b32_of_bits (word 23 8 s (e * 2 ^ 23 + m)))) (b32_of_bits (Z.shiftl 239 23))) (b32_of_bits (Z.shiftl 17 23))))
  = (E + 15) * 2 ^ 23 + M /\ 0 <= M <= 2 ^ 11 /\ (113 < E -> 2 ^ 10 <= M).
Proof.
  intros s e m Hm He X E0 E M. destruct (sig_range e m Hm) as [HX HXL]. fold X in HX, HXL.
  set (k := 13 + (E - E0)) in *. assert (Hk : 13 <= k) by lia.
  assert (HPk : 2 ^ 24 <= 2 ^ (11 + k)) by (apply Z.pow_le_mono_r; lia).
  assert (HM : 0 <= M <= 2 ^ 11).
  { apply rne_range; [lia|]. rewrite <- Z.pow_add_r by lia. lia. }
  assert (HM2 : 113 < E -> 2 ^ 10 <= M).
  { intros HE. assert (k = 13) as Ek by lia. unfold M. rewrite Ek. apply (rne_range X 13 (2 ^ 10) (2 ^ 11)); [lia|]. specialize (HXL ltac:(lia)). lia. }
  split; [|split; auto].
  pose proof (abs_finite _ _ _ (f32_finite s e m Hm ltac:(lia)) (pos_value _ _ (proj1 HX))) as H1. fold X E0 in H1.
  pose proof (mult_exact _ _ _ _ _ H1 two112 HX ltac:(lia)) as H2. pose proof (mult_exact _ _ _ _ _ H2 twom110 HX ltac:(lia)) as H3.
  set (base := b32_mult mode_NE (b32_mult mode_NE (b32_abs (b32_of_bits (word 23 8 s (e * 2 ^ 23 + m)))) (b32_of_bits (Z.shiftl 239 23))) (b32_of_bits (Z.shiftl 17 23))) in *.
  replace (E0 - 150 + 112 + -110) with (E0 - 148) in H3 by ring.
  assert (HA : finite_as (b32_of_bits ((E + 15) * 2 ^ 23)) false (bpow radix2 (E - 112))).
  { pose proof (f32_finite false (E + 15) 0 ltac:(lia) ltac:(lia)) as H. unfold word in H. rewrite Z.add_0_l, Z.add_0_r in H.
    unfold sig in H. replace (E + 15 =? 0) with false in H by (symmetry; apply Z.eqb_neq; lia). change (IZR (0 + 2 ^ 23)) with (bpow radix2 23) in H. rewrite <- bpow_plus in H.
    replace (23 + (Z.max (E + 15) 1 - 150)) with (E - 112) in H by lia. exact H. }
  set (ad := b32_of_bits ((E + 15) * 2 ^ 23)) in *.
  destruct HA as (A1 & A2 & A3 & A4). destruct H3 as (B1 & B2 & B3 & B4). cbn [pm] in A4, B4.
  pose proof (Bplus_correct 24 128 eq_refl eq_refl binop_nan_pl32 mode_NE ad base A1 B1) as HC. rewrite A4, B4 in HC.
  change Rdefinitions.RbaseSymbolsImpl.Rplus with Rplus in HC.
  assert (HPX : 2 ^ 24 <= 2 ^ (23 + k)) by (apply Z.pow_le_mono_r; lia).
  assert (ES : (bpow radix2 (E - 112) + IZR X * bpow radix2 (E0 - 148))%R = (IZR (2 ^ 23 * 2 ^ k + X) * bpow radix2 (E0 - 148))%R).
  { rewrite plus_IZR, Rmult_plus_distr_r. f_equal. rewrite <- Z.pow_add_r by lia. change (2 ^ (23 + k)) with (Zpower radix2 (23 + k)). rewrite IZR_Zpower by lia. rewrite <- bpow_plus. f_equal. lia. }
  rewrite ES in HC. rewrite Z.pow_add_r in HPX by lia.
  assert (ER : round radix2 (SpecFloat.fexp 24 128) (round_mode mode_NE) (IZR (2 ^ 23 * 2 ^ k + X) * bpow radix2 (E0 - 148)) = (IZR (2 ^ 23 + M) * bpow radix2 (E - 135))%R).
  { change (SpecFloat.fexp 24 128) with (FLT_exp (-149) 24). cbn [round_mode].
    rewrite (round_at 24 (-149) (2 ^ 23 * 2 ^ k + X) (E0 - 148) k); [|lia|lia| |].
    - rewrite rne_shift by (try reflexivity; lia). f_equal. f_equal. lia.
    - replace (24 + k) with (1 + (23 + k)) by ring. rewrite (Z.pow_add_r 2 1) by lia. rewrite (Z.pow_add_r 2 23) by lia. lia.
    - right. split; [lia|]. change (24 - 1) with 23. rewrite Z.pow_add_r by lia. lia. }
  rewrite ER in HC. rewrite Rabs_pos_eq in HC by (apply pos_value; lia). rewrite Rlt_bool_true in HC by (apply below_max; lia).
  destruct HC as (C1 & C2 & C3).
  change (Bplus 24 128 eq_refl eq_refl binop_nan_pl32 mode_NE ad base) with (b32_plus mode_NE ad base) in *.
  assert (HF : finite_as (b32_plus mode_NE ad base) false (IZR (2 ^ 23 + M) * bpow radix2 (E - 135))).
  { repeat split; auto.
    - destruct (b32_plus mode_NE ad base); auto; discriminate.
    - rewrite C3. rewrite Rcompare_Gt; auto. apply Rmult_lt_0_compat; [apply IZR_lt; nia|apply bpow_gt_0]. }
  assert (HG : finite_as (b32_of_bits ((E + 15) * 2 ^ 23 + M)) false (IZR (2 ^ 23 + M) * bpow radix2 (E - 135))).
  { pose proof (decode_KM 23 8 eq_refl eq_refl eq_refl false (E + 14) (2 ^ 23 + M)) as HD. change (2 ^ 8) with 256 in HD. change (2 ^ (23 + 1)) with (2 ^ 24) in HD.
    specialize (HD ltac:(lia) ltac:(lia) ltac:(lia) ltac:(lia)). change (3 - 2 ^ (8 - 1) - (23 + 1)) with (-149) in HD. unfold word in HD.
    replace (0 + ((E + 14) * 2 ^ 23 + (2 ^ 23 + M))) with ((E + 15) * 2 ^ 23 + M) in HD by ring. replace (E + 14 + -149) with (E - 135) in HD by ring. exact HD. }
  rewrite (finite_eq _ _ _ _ HF HG). apply (bits_of_binary_float_of_bits 23 8 eq_refl eq_refl eq_refl). change (2 ^ (23 + 8 + 1)) with (2 ^ 32). lia.
Qed.

(** The parts of the word in the narrowing code. *)
Lemma half_shl : forall s W, 0 <= W < 2 ^ 31 -> u32 (word 23 8 s W + word 23 8 s W) = 2 * W.
Proof.
  intros s W HW. unfold u32, word. change (23 + 8) with 31. destruct s.
  - replace (2 ^ 31 + W + (2 ^ 31 + W)) with (2 * W + 1 * 2 ^ 32) by lia. rewrite Z.mod_add by lia. apply Z.mod_small. lia.
  - replace (0 + W + (0 + W)) with (2 * W) by lia. apply Z.mod_small. lia.
Qed.
Lemma land_shifted : forall x n k, 0 <= n -> 0 <= k -> Z.land x (Z.shiftl (Z.ones n) k) = ((x / 2 ^ k) mod 2 ^ n) * 2 ^ k.
Proof.
  intros x n k Hn Hk. rewrite <- Z.shiftr_div_pow2, <- Z.land_ones, <- Z.shiftl_mul_pow2 by auto.
  apply Z.bits_inj'. intros i Hi. rewrite Z.land_spec. destruct (Z_lt_le_dec i k).
  - rewrite !Z.shiftl_spec_low by auto. apply andb_false_r.
  - rewrite !Z.shiftl_spec_high by auto. rewrite Z.land_spec, Z.shiftr_spec by lia. f_equal. f_equal. lia.
Qed.
Lemma half_sign : forall s W, 0 <= W < 2 ^ 31 -> Z.shiftr (Z.land (word 23 8 s W) 0x80000000) 16 = if s then 2 ^ 15 else 0.
Proof.
  intros s W HW. change 0x80000000 with (Z.shiftl (Z.ones 1) 31). rewrite land_shifted by lia. unfold word. change (23 + 8) with 31.
  assert (E : ((if s then 2 ^ 31 else 0) + W) / 2 ^ 31 = if s then 1 else 0) by (symmetry; apply Z.div_unique with W; [lia|destruct s; lia]).
  rewrite E. destruct s; reflexivity.
Qed.
Lemma half_bias : forall e m, 0 <= e < 256 -> 0 <= m < 2 ^ 23 -> Z.land (2 * (e * 2 ^ 23 + m)) 0xFF000000 = e * 2 ^ 24.
Proof.
  intros e m He Hm. change 0xFF000000 with (Z.shiftl (Z.ones 8) 24). rewrite land_shifted by lia.
  replace ((2 * (e * 2 ^ 23 + m)) / 2 ^ 24) with e by (apply Z.div_unique with (2 * m); lia). rewrite Z.mod_small by lia. reflexivity.
Qed.
Lemma half_addend : forall e, 0 <= e < 256 ->
  u32 (Z.shiftr (if e * 2 ^ 24 <? 0x71000000 then 0x71000000 else e * 2 ^ 24) 1 + 0x07800000) = (Z.max e 113 + 15) * 2 ^ 23.
Proof.
  intros e He. unfold u32. rewrite Z.shiftr_div_pow2 by lia. change (2 ^ 1) with 2.
  assert (E : (if e * 2 ^ 24 <? 0x71000000 then 0x71000000 else e * 2 ^ 24) = Z.max e 113 * 2 ^ 23 * 2) by (destruct (Z.ltb_spec (e * 2 ^ 24) 0x71000000); lia).
  rewrite E, Z.div_mul by lia. rewrite Z.mod_small; lia.
Qed.
Lemma lor_sign : forall (s : bool) N, 0 <= N < 2 ^ 15 -> u16 (Z.lor (if s then 2 ^ 15 else 0) N) = word 10 5 s N.
Proof.
  intros s N HN. unfold u16, word. change (10 + 5) with 15. destruct s; [|rewrite Z.lor_0_l; apply Z.mod_small; lia].
  assert (HL : Z.lor (2 ^ 15) N = 2 ^ 15 + N).
  { rewrite <- Z.lxor_lor; [rewrite <- Z.add_nocarry_lxor; auto|];
    (apply Z.bits_inj'; intros i Hi; rewrite Z.land_spec, Z.bits_0; rewrite Z.pow2_bits_eqb by lia; destruct (Z.eqb_spec 15 i) as [<-|]; auto;
     cbn [andb]; rewrite <- (Z.mod_small N (2 ^ 15)) by lia; apply Z.mod_pow2_bits_high; lia). }
  rewrite HL. apply Z.mod_small. lia.
Qed.
Lemma half_fields : forall E M, 113 <= E <= 142 -> 0 <= M <= 2 ^ 11 -> let bits := (E + 15) * 2 ^ 23 + M in
  u32 (Z.land (Z.shiftr bits 13) 0x00007C00 + Z.land bits 0x00000FFF) = (E - 113) * 2 ^ 10 + M.
Proof.
  intros E M HE HM bits. change 0x00007C00 with (Z.shiftl (Z.ones 5) 10). change 0x00000FFF with (Z.ones 12). rewrite land_shifted, Z.land_ones, Z.shiftr_div_pow2 by lia.
  assert (E1 : bits / 2 ^ 13 = (E + 15) * 2 ^ 10) by (symmetry; apply Z.div_unique with M; unfold bits; lia). rewrite E1, Z.div_mul by lia.
  assert (E2 : (E + 15) mod 2 ^ 5 = E - 113) by (symmetry; apply Z.mod_unique with 4; lia). rewrite E2.
  assert (E3 : bits mod 2 ^ 12 = M) by (symmetry; apply Z.mod_unique with ((E + 15) * 2 ^ 11); unfold bits; lia). rewrite E3.
  unfold u32. apply Z.mod_small. lia.
Qed.

Lemma mult_overflow : forall (a b : binary32) r h, finite_as a false r -> finite_as b false (bpow radix2 h) ->
  (bpow radix2 128 <= r * bpow radix2 h)%R -> b32_mult mode_NE a b = B754_infinity 24 128 false.
Proof.
  intros a b r h (A1 & A2 & A3 & A4) (B1 & B2 & B3 & B4) HR. cbn [pm] in *.
  pose proof (Bmult_correct 24 128 eq_refl eq_refl binop_nan_pl32 mode_NE a b) as HC. rewrite A4, B4 in HC. change Rdefinitions.RbaseSymbolsImpl.Rmult with Rmult in HC.
  assert (HG : (bpow radix2 128 <= round radix2 (SpecFloat.fexp 24 128) (round_mode mode_NE) (r * bpow radix2 h))%R).
  { apply round_ge_generic; auto.
    - change (SpecFloat.fexp 24 128) with (FLT_exp (-149) 24). apply FLT_exp_valid. reflexivity.
    - apply valid_rnd_round_mode.
    - change (SpecFloat.fexp 24 128) with (FLT_exp (-149) 24). apply generic_format_bpow. cbv. discriminate. }
  rewrite Rlt_bool_false in HC by (rewrite Rabs_pos_eq; auto; apply Rle_trans with (bpow radix2 128); auto; apply bpow_ge_0).
  change (Bmult 24 128 eq_refl eq_refl binop_nan_pl32 mode_NE a b) with (b32_mult mode_NE a b) in HC. rewrite A3, B3 in HC. cbn in HC.
  destruct (b32_mult mode_NE a b) as [ | |? ? ?|]; cbn in HC; try discriminate. congruence.
Qed.
Fixpoint all_from (n : nat) (k : Z) (p : Z -> bool) : bool := match n with O => true | S n => p k && all_from n (k + 1) p end.
Lemma all_from_spec : forall p n k, all_from n k p = true -> forall z, k <= z < k + Z.of_nat n -> p z = true.
Proof.
  intros p n. induction n; intros k H z Hz; [lia|]. cbn [all_from] in H. apply andb_true_iff in H. destruct H as [H1 H2].
  destruct (Z.eq_dec z k) as [->|]; auto. apply (IHn (k + 1)); auto. lia.
Qed.
Lemma big_sum : forall e, 143 <= e < 256 ->
  bits_of_b32 (b32_plus mode_NE (b32_of_bits ((Z.max e 113 + 15) * 2 ^ 23)) (b32_mult mode_NE (B754_infinity 24 128 false) (b32_of_bits (Z.shiftl 17 23)))) = 0x7F800000.
Proof.
  intros e He. pose proof (all_from_spec (fun e => bits_of_b32 (b32_plus mode_NE (b32_of_bits ((Z.max e 113 + 15) * 2 ^ 23)) (b32_mult mode_NE (B754_infinity 24 128 false) (b32_of_bits (Z.shiftl 17 23)))) =? 0x7F800000) 113 143 ltac:(vm_compute; reflexivity) e ltac:(lia)) as H.
  apply Z.eqb_eq in H. exact H.
Qed.
Lemma half_code_big : forall s e m, 143 <= e < 256 -> 0 <= m < 2 ^ 23 -> (e = 255 -> m = 0) ->
  fp16_ieee_from_fp32_value (word 23 8 s (e * 2 ^ 23 + m)) = word 10 5 s 0x7C00.
Proof.
  intros s e m He Hm H255. unfold fp16_ieee_from_fp32_value. cbv zeta. rewrite half_shl, half_sign, half_bias, half_addend by lia.
  assert (HB : b32_mult mode_NE (b32_abs (b32_of_bits (word 23 8 s (e * 2 ^ 23 + m)))) (b32_of_bits (Z.shiftl 239 23)) = B754_infinity 24 128 false).
  { destruct (Z.eq_dec e 255) as [->|He1].
    - rewrite H255, Z.add_0_r by auto. destruct s; vm_compute; reflexivity.
    - pose proof (sig_range e m Hm) as [HX HXL]. specialize (HXL ltac:(lia)).
      apply mult_overflow with (IZR (sig e m) * bpow radix2 (Z.max e 1 - 150))%R 112.
      + apply abs_finite with s; [apply f32_finite; lia|apply pos_value; lia].
      + apply two112.
      + rewrite Rmult_assoc, <- bpow_plus. apply Rle_trans with (IZR (2 ^ 23) * bpow radix2 (Z.max e 1 - 150 + 112))%R.
        * change (IZR (2 ^ 23)) with (bpow radix2 23). rewrite <- bpow_plus. apply bpow_le. lia.
        * apply Rmult_le_compat_r; [apply bpow_ge_0|apply IZR_le; auto]. }
  rewrite HB, big_sum by auto. replace (0xFF000000 <? 2 * (e * 2 ^ 23 + m)) with false by (symmetry; apply Z.ltb_ge; destruct (Z.eq_dec e 255); [rewrite H255 by auto|]; lia).
  change (u32 (Z.land (Z.shiftr 0x7F800000 13) 0x7C00 + Z.land 0x7F800000 0xFFF)) with 0x7C00. apply lor_sign. lia.
Qed.
Lemma half_code_small : forall s e m, 0 <= e <= 142 -> 0 <= m < 2 ^ 23 ->
  fp16_ieee_from_fp32_value (word 23 8 s (e * 2 ^ 23 + m)) = word 10 5 s ((Z.max e 113 - 113) * 2 ^ 10 + rne (sig e m) (13 + (Z.max e 113 - Z.max e 1))).
Proof.
  intros s e m He Hm. unfold fp16_ieee_from_fp32_value. cbv zeta. rewrite half_shl, half_sign, half_bias, half_addend by lia.
  destruct (base_small s e m Hm He) as (HB & HM & HM2). cbv zeta in HB, HM, HM2. rewrite HB.
  replace (0xFF000000 <? 2 * (e * 2 ^ 23 + m)) with false by (symmetry; apply Z.ltb_ge; lia).
  rewrite half_fields by lia. apply lor_sign. lia.
Qed.
Lemma half_code_nan : forall s m, 0 < m < 2 ^ 23 -> fp16_ieee_from_fp32_value (word 23 8 s (255 * 2 ^ 23 + m)) = word 10 5 s 0x7E00.
Proof.
  intros s m Hm. unfold fp16_ieee_from_fp32_value. cbv zeta. rewrite half_shl, half_sign by lia.
  replace (0xFF000000 <? 2 * (255 * 2 ^ 23 + m)) with true by (symmetry; apply Z.ltb_lt; lia). apply lor_sign. lia.
Qed.
Lemma fp16_rounded_lemma : forall w, 0 <= w < 2 ^ 32 -> rounded (b32_of_bits w) (fp16 (fp16_ieee_from_fp32_value w)).
Proof.
  intros w Hw. destruct (word_split w Hw) as (s & e & m & -> & He & Hm).
  destruct (Z_le_gt_dec e 142) as [H142|H142].
  - rewrite half_code_small by lia. pose proof (f32_finite s e m Hm ltac:(lia)) as HF. destruct (sig_range e m Hm) as [HX HXL].
    destruct (base_small s e m Hm ltac:(lia)) as (HB & HM & HM2). cbv zeta in HM, HM2. clear HB.
    refine (rounded_KM 10 5 eq_refl eq_refl eq_refl _ s _ _ _ HF _ _ _ _ _).
    + apply pos_value; lia.
    + change (2 ^ 5) with 32. lia.
    + exact HM.
    + intros HK. apply HM2. lia.
    + set (k := 13 + (Z.max e 113 - Z.max e 1)) in *. assert (HPk : 2 ^ 24 <= 2 ^ (10 + 1 + k)) by (apply Z.pow_le_mono_r; lia).
      rewrite (round_at (10 + 1) (3 - 2 ^ (5 - 1) - (10 + 1)) (sig e m) (Z.max e 1 - 150) k); [f_equal; f_equal; change (2 ^ (5 - 1)) with 16; lia|lia|lia|lia|].
      change (3 - 2 ^ (5 - 1) - (10 + 1)) with (-24). destruct (Z_lt_le_dec 113 e); [right|left; lia]. specialize (HXL ltac:(lia)). replace (10 + 1 - 1 + k) with 23 by lia. lia.
  - destruct (Z.eq_dec e 255) as [->|He1].
    + destruct (Z.eq_dec m 0) as [->|Hm0].
      * rewrite half_code_big by lia. rewrite Z.add_0_r. exact (rounded_inf 10 5 eq_refl eq_refl eq_refl _ s (f32_inf s)).
      * rewrite half_code_nan by lia. unfold rounded. rewrite f32_nan by lia. destruct s; reflexivity.
    + rewrite half_code_big by lia. destruct (f32_finite s e m Hm ltac:(lia)) as (F1 & F2 & F3 & F4). destruct (sig_range e m Hm) as [HX HXL]. specialize (HXL ltac:(lia)).
      destruct (decode_inf 10 5 eq_refl eq_refl eq_refl s) as (I1 & I2 & I3). unfold rounded. rewrite F2, F1, F3, F4.
      change (fp16 (word 10 5 s 0x7C00)) with (binary_float_of_bits 10 5 eq_refl eq_refl eq_refl (word 10 5 s ((2 ^ 5 - 1) * 2 ^ 10))).
      split; [exact I2|]. split; [exact I3|]. cbn [andb].
      rewrite Rlt_bool_false; [exact I1|].
      assert (HV : Valid_exp (FLT_exp (3 - 16 - 11) 11)) by (apply FLT_exp_valid; reflexivity).
      assert (HG : (bpow radix2 16 <= round radix2 (FLT_exp (3 - 16 - 11) 11) ZnearestE (IZR (sig e m) * bpow radix2 (Z.max e 1 - 150)))%R).
      { apply round_ge_generic; auto with typeclass_instances.
        - apply generic_format_bpow. cbv. discriminate.
        - apply Rle_trans with (IZR (2 ^ 23) * bpow radix2 (Z.max e 1 - 150))%R.
          + change (IZR (2 ^ 23)) with (bpow radix2 23). rewrite <- bpow_plus. apply bpow_le. lia.
          + apply Rmult_le_compat_r; [apply bpow_ge_0|apply IZR_le; auto]. }
      destruct s; cbn [pm]; [rewrite round_NE_opp, Rabs_Ropp|]; (apply Rle_trans with (1 := HG); apply Rle_abs).
Qed.
