From Coq Require Import ZArith Reals Bool Lia Lra Psatz.
From Flocq Require Import Core IEEE754.BinarySingleNaN IEEE754.Binary IEEE754.Bits.
From Verif Require Import FloatModel FloatSpec FloatProofs FloatProofs2.
Open Scope Z_scope.

(** * Widening *)
Lemma half_split : forall h, 0 <= h < 2 ^ 16 -> forall mw ew, 0 < mw -> 0 < ew -> mw + ew = 15 ->
  exists s e m, h = word mw ew s (e * 2 ^ mw + m) /\ 0 <= e < 2 ^ ew /\ 0 <= m < 2 ^ mw.
Proof.
  intros h Hh mw ew Hm He HE. exists (2 ^ 15 <=? h), ((h mod 2 ^ 15) / 2 ^ mw), ((h mod 2 ^ 15) mod 2 ^ mw). unfold word. rewrite HE.
  assert (HP : 0 < 2 ^ mw) by (apply Z.pow_pos_nonneg; lia). assert (HP2 : 2 ^ 15 = 2 ^ mw * 2 ^ ew) by (rewrite <- Z.pow_add_r by lia; f_equal; lia).
  assert (E1 : h mod 2 ^ 15 = h - (if 2 ^ 15 <=? h then 2 ^ 15 else 0)).
  { destruct (Z.leb_spec (2 ^ 15) h); [|rewrite Z.mod_small; lia]. symmetry. apply Z.mod_unique with 1; lia. }
  pose proof (Z.div_mod (h mod 2 ^ 15) (2 ^ mw) ltac:(lia)). pose proof (Z.mod_pos_bound h (2 ^ 15) ltac:(lia)). pose proof (Z.mod_pos_bound (h mod 2 ^ 15) (2 ^ mw) ltac:(lia)).
  split; [|split; auto]. { destruct (2 ^ 15 <=? h); lia. }
  split; [apply Z.div_pos; lia|apply Z.div_lt_upper_bound; lia].
Qed.
Lemma finite_same : forall p e p' e' (x : binary_float p e) (y : binary_float p' e') s r r', finite_as x s r -> finite_as y s r' -> r = r' -> same_value x y.
Proof. intros p e p' e' x y s r r' (A1 & A2 & A3 & A4) (B1 & B2 & B3 & B4) <-. unfold same_value. rewrite A1, A2, A3, A4, B1, B2, B3, B4. auto. Qed.
Lemma infinite_B2R : forall p e (x : binary_float p e) s, infinite_as x s -> B2R p e x = 0%R.
Proof. intros p e x s (A1 & A2 & A3). destruct x; cbn in *; auto; discriminate. Qed.
Lemma infinite_same : forall p e p' e' (x : binary_float p e) (y : binary_float p' e') s, infinite_as x s -> infinite_as y s -> same_value x y.
Proof. intros p e p' e' x y s HX HY. pose proof (infinite_B2R _ _ _ _ HX). pose proof (infinite_B2R _ _ _ _ HY). destruct HX as (A1 & A2 & A3). destruct HY as (B1 & B2 & B3). unfold same_value. rewrite A1, A2, A3, B1, B2, B3. repeat split; congruence. Qed.
Lemma nan_same : forall p e p' e' (x : binary_float p e) (y : binary_float p' e'), is_nan p e x = true -> is_nan p' e' y = true -> same_value x y.
Proof. intros p e p' e' x y HX HY. unfold same_value. rewrite HX, HY. split; auto. discriminate. Qed.

Lemma sig_scale : forall a b X k, a = k + b -> 0 <= k -> (IZR X * bpow radix2 a)%R = (IZR (X * 2 ^ k) * bpow radix2 b)%R.
Proof. intros a b X k -> Hk. rewrite mult_IZR, bpow_plus. change (2 ^ k) with (Zpower radix2 k). rewrite IZR_Zpower by auto. ring. Qed.
Lemma bf16_widen_lemma : forall h, 0 <= h < 2 ^ 16 -> same_value (bf16 h) (b32_of_bits (f32_from_bits h)).
Proof.
  intros h Hh. destruct (half_split h Hh 7 8 ltac:(lia) ltac:(lia) ltac:(lia)) as (s & e & m & -> & He & Hm).
  assert (EB : f32_from_bits (word 7 8 s (e * 2 ^ 7 + m)) = word 23 8 s (e * 2 ^ 23 + m * 2 ^ 16)).
  { unfold f32_from_bits, u32, word. rewrite Z.shiftl_mul_pow2 by lia. rewrite Z.mod_small; [|destruct s; lia].
    change (2 ^ (23 + 8)) with (2 ^ (7 + 8) * 2 ^ 16). change (2 ^ 23) with (2 ^ 7 * 2 ^ 16). destruct s; ring. }
  rewrite EB. destruct (Z.eq_dec e 255) as [->|He1].
  - destruct (Z.eq_dec m 0) as [->|Hm0].
    + apply infinite_same with s; [exact (decode_inf 7 8 eq_refl eq_refl eq_refl s)|]. rewrite Z.mul_0_l, Z.add_0_r. apply f32_inf.
    + apply nan_same; [exact (decode_nan 7 8 eq_refl eq_refl eq_refl s m ltac:(lia))|]. apply f32_nan. lia.
  - refine (finite_same _ _ _ _ _ _ _ _ _ (decode_finite 7 8 eq_refl eq_refl eq_refl s m e Hm _) (f32_finite s e (m * 2 ^ 16) _ _) _); try lia.
    rewrite (sig_scale _ (Z.max e 1 - 150) _ 16); [|change (2 ^ (8 - 1)) with 128; lia|lia]. f_equal. f_equal. unfold sig. destruct (Z.eqb_spec e 0); lia.
Qed.

(** The sign put back with a bitwise or. *)
Lemma lor_sign32 : forall (s : bool) N, 0 <= N < 2 ^ 31 -> Z.lor (if s then 2 ^ 31 else 0) N = word 23 8 s N.
Proof.
  intros s N HN. unfold word. change (23 + 8) with 31. destruct s; [|apply Z.lor_0_l].
  rewrite <- Z.lxor_lor; [rewrite <- Z.add_nocarry_lxor; auto|];
    (apply Z.bits_inj'; intros i Hi; rewrite Z.land_spec, Z.bits_0; rewrite Z.pow2_bits_eqb by lia; destruct (Z.eqb_spec 31 i) as [<-|]; auto;
     cbn [andb]; rewrite <- (Z.mod_small N (2 ^ 31)) by lia; apply Z.mod_pow2_bits_high; lia).
Qed.
Lemma bits_split : forall x : binary32, exists s e m, bits_of_b32 x = word 23 8 s (e * 2 ^ 23 + m) /\ 0 <= e < 256 /\ 0 <= m < 2 ^ 23 /\ x = b32_of_bits (word 23 8 s (e * 2 ^ 23 + m)).
Proof.
  intros x. assert (HR : 0 <= bits_of_b32 x < 2 ^ 32) by (apply (bits_of_binary_float_range 23 8); reflexivity).
  destruct (word_split _ HR) as (s & e & m & HW & He & Hm). exists s, e, m. repeat split; auto; try lia. rewrite <- HW. symmetry.
  apply (binary_float_of_bits_of_binary_float 23 8 eq_refl eq_refl eq_refl).
Qed.
Lemma put_sign : forall (s : bool) (x : binary32), Bsign 24 128 x = false \/ is_nan 24 128 x = true ->
  let y := b32_of_bits (Z.lor (if s then 2 ^ 31 else 0) (bits_of_b32 x)) in
  (is_nan 24 128 x = true -> is_nan 24 128 y = true) /\ (forall r, finite_as x false r -> finite_as y s r) /\ (infinite_as x false -> infinite_as y s).
Proof.
  intros s x HS. destruct (bits_split x) as (t & e & m & EB & He & Hm & EX). cbv zeta. rewrite EB.
  assert (HY : exists t', Z.lor (if s then 2 ^ 31 else 0) (word 23 8 t (e * 2 ^ 23 + m)) = word 23 8 t' (e * 2 ^ 23 + m) /\ (t = false -> t' = s)).
  { exists (s || t)%bool. split; [|intros ->; apply orb_false_r]. destruct t.
    - assert (HH : word 23 8 true (e * 2 ^ 23 + m) = Z.lor (2 ^ 31) (e * 2 ^ 23 + m)) by (symmetry; apply (lor_sign32 true); lia). rewrite HH. rewrite Z.lor_assoc.
      destruct s; cbn [orb]; [rewrite Z.lor_diag|rewrite Z.lor_0_l]; symmetry; exact HH.
    - rewrite orb_false_r. apply lor_sign32. lia. }
  destruct HY as (t' & -> & HT). destruct (Z.eq_dec e 255) as [->|He1].
  - destruct (Z.eq_dec m 0) as [->|Hm0].
    + rewrite Z.add_0_r in *. pose proof (f32_inf t) as (A1 & A2 & A3). rewrite <- EX in A1, A2, A3. destruct HS as [HS|HS]; [|congruence].
      rewrite HT by congruence. split; [congruence|]. split; [intros r (B1 & _); congruence|]. intros _. apply f32_inf.
    + pose proof (f32_nan t m ltac:(lia)) as A. rewrite <- EX in A. split; [intros _; apply f32_nan; lia|]. split; [intros r (_ & B & _); congruence|intros (_ & B & _); congruence].
  - pose proof (f32_finite t e m Hm ltac:(lia)) as HF. rewrite <- EX in HF. pose proof HF as (A1 & A2 & A3 & A4). destruct HS as [HS|HS]; [|congruence].
    assert (t = false) as -> by congruence. rewrite HT by auto. split; [congruence|]. split; [|intros (B & _); congruence].
    intros r (B1 & B2 & B3 & B4). cbn [pm] in *. assert (r = (IZR (sig e m) * bpow radix2 (Z.max e 1 - 150))%R) as -> by congruence. apply f32_finite; auto. lia.
Qed.

Lemma fp16_finite : forall s e m, 0 <= m < 2 ^ 10 -> 0 <= e < 31 ->
  finite_as (fp16 (word 10 5 s (e * 2 ^ 10 + m))) s (IZR (if e =? 0 then m else m + 2 ^ 10) * bpow radix2 (Z.max e 1 - 25)).
Proof.
  intros s e m Hm He. pose proof (decode_finite 10 5 eq_refl eq_refl eq_refl s m e Hm ltac:(change (2 ^ 5) with 32; lia)) as HD.
  replace (Z.max e 1 + (3 - 2 ^ (5 - 1) - (10 + 1)) - 1) with (Z.max e 1 - 25) in HD by (change (2 ^ (5 - 1)) with 16; lia). exact HD.
Qed.
Lemma half_w : forall s e m, 0 <= e < 32 -> 0 <= m < 2 ^ 10 ->
  u32 (Z.shiftl (word 10 5 s (e * 2 ^ 10 + m)) 16) = word 23 8 s (e * 2 ^ 26 + m * 2 ^ 16).
Proof.
  intros s e m He Hm. unfold u32, word. rewrite Z.shiftl_mul_pow2 by lia. change (10 + 5) with 15. change (23 + 8) with 31. rewrite Z.mod_small; destruct s; lia.
Qed.
Lemma half_w_sign : forall (s : bool) W, 0 <= W < 2 ^ 31 -> Z.land (word 23 8 s W) 0x80000000 = if s then 2 ^ 31 else 0.
Proof.
  intros s W HW. change 0x80000000 with (Z.shiftl (Z.ones 1) 31). rewrite land_shifted by lia. unfold word. change (23 + 8) with 31.
  assert (E : ((if s then 2 ^ 31 else 0) + W) / 2 ^ 31 = if s then 1 else 0) by (symmetry; apply Z.div_unique with W; [lia|destruct s; lia]).
  rewrite E. destruct s; reflexivity.
Qed.
Lemma scale_m112 : finite_as (b32_of_bits (Z.shiftl 15 23)) false (bpow radix2 (-112)).
Proof. change (Z.shiftl 15 23) with (word 23 8 false (15 * 2 ^ 23 + 0)). pose proof (f32_finite false 15 0 ltac:(lia) ltac:(lia)) as H. change (IZR (sig 15 0)) with (bpow radix2 23) in H. rewrite <- bpow_plus in H. exact H. Qed.
Lemma mult_nan_nan : forall a b : binary32, is_nan 24 128 a = true -> is_nan 24 128 (b32_mult mode_NE a b) = true.
Proof.
  intros a b Ha. destruct a; try discriminate. unfold b32_mult, Bmult. destruct b; unfold binop_nan_pl32, BSN2B; cbn; reflexivity.
Qed.
Lemma magic : forall m, 0 <= m < 2 ^ 10 -> finite_as (b32_minus mode_NE (b32_of_bits (126 * 2 ^ 23 + m)) (b32_of_bits 0x3F000000)) false (IZR m * bpow radix2 (-24)).
Proof.
  intros m Hm. pose proof (f32_finite false 126 m ltac:(lia) ltac:(lia)) as (A1 & A2 & A3 & A4). pose proof (f32_finite false 126 0 ltac:(lia) ltac:(lia)) as (B1 & B2 & B3 & B4).
  change (word 23 8 false (126 * 2 ^ 23 + 0)) with 0x3F000000 in *. unfold word in A1, A2, A3, A4. rewrite Z.add_0_l in A1, A2, A3, A4.
  change (sig 126 m) with (m + 2 ^ 23) in A4. change (sig 126 0) with (2 ^ 23) in B4. change (Z.max 126 1 - 150) with (-24) in *. cbn [pm] in A4, B4.
  pose proof (Bminus_correct 24 128 eq_refl eq_refl binop_nan_pl32 mode_NE _ _ A1 B1) as HC. rewrite A4, B4 in HC.
  change Rdefinitions.RbaseSymbolsImpl.Rmult with Rmult in HC.
  replace (IZR (m + 2 ^ 23) * bpow radix2 (-24) - IZR (2 ^ 23) * bpow radix2 (-24))%R with (IZR m * bpow radix2 (-24))%R in HC by (rewrite plus_IZR; ring).
  rewrite exact_b32 in HC by lia. rewrite Rabs_pos_eq in HC by (apply pos_value; lia). rewrite Rlt_bool_true in HC by (apply below_max; lia). destruct HC as (C1 & C2 & C3).
  change (Bminus 24 128 eq_refl eq_refl binop_nan_pl32 mode_NE (b32_of_bits (126 * 2 ^ 23 + m)) (b32_of_bits 0x3F000000)) with (b32_minus mode_NE (b32_of_bits (126 * 2 ^ 23 + m)) (b32_of_bits 0x3F000000)) in *.
  repeat split; auto.
  - destruct (b32_minus mode_NE (b32_of_bits (126 * 2 ^ 23 + m)) (b32_of_bits 0x3F000000)); auto; discriminate.
  - rewrite C3. pose proof (pos_value m (-24) (proj1 Hm)). destruct (Rcompare_spec (IZR m * bpow radix2 (-24)) 0); auto; [lra|]. rewrite A3. reflexivity.
Qed.
Lemma lor_add : forall a N k, 0 <= k -> 0 <= N < 2 ^ k -> Z.lor N (a * 2 ^ k) = a * 2 ^ k + N.
Proof.
  intros a N k Hk HN. rewrite Z.lor_comm.
  assert (HL : Z.land (a * 2 ^ k) N = 0).
  { apply Z.bits_inj'. intros i Hi. rewrite Z.land_spec, Z.bits_0. destruct (Z_lt_le_dec i k).
    - rewrite Z.mul_pow2_bits_low by auto. reflexivity.
    - rewrite <- (Z.mod_small N (2 ^ k)) by lia. rewrite Z.mod_pow2_bits_high by lia. apply andb_false_r. }
  rewrite <- Z.lxor_lor by auto. rewrite <- Z.add_nocarry_lxor; auto.
Qed.
Lemma half_widen_lemma : forall h, 0 <= h < 2 ^ 16 -> same_value (fp16 h) (b32_of_bits (fp16_ieee_to_fp32_value h)).
Proof.
  intros h Hh. destruct (half_split h Hh 10 5 ltac:(lia) ltac:(lia) ltac:(lia)) as (s & e & m & -> & He & Hm). change (2 ^ 5) with 32 in He.
  unfold fp16_ieee_to_fp32_value. cbv zeta. rewrite half_w by lia. rewrite half_w_sign, half_shl by lia.
  replace (2 * (e * 2 ^ 26 + m * 2 ^ 16)) with (e * 2 ^ 27 + m * 2 ^ 17) by lia.
  assert (E4 : Z.shiftr (e * 2 ^ 27 + m * 2 ^ 17) 4 = e * 2 ^ 23 + m * 2 ^ 13) by (rewrite Z.shiftr_div_pow2 by lia; symmetry; apply Z.div_unique with 0; lia).
  assert (E17 : e = 0 -> Z.shiftr (e * 2 ^ 27 + m * 2 ^ 17) 17 = m) by (intros ->; rewrite Z.shiftr_div_pow2 by lia; symmetry; apply Z.div_unique with 0; lia).
  change (u32 (Z.shiftl 0xE0 23)) with (224 * 2 ^ 23). change (Z.shiftl 1 27) with (2 ^ 27).
  destruct (Z.ltb_spec (e * 2 ^ 27 + m * 2 ^ 17) (2 ^ 27)) as [HC|HC].
  - assert (e = 0) as -> by lia. rewrite E17 by auto. change (Z.shiftl 126 23) with (126 * 2 ^ 23). rewrite lor_add by lia.
    pose proof (magic m Hm) as HM. destruct (put_sign s _ (or_introl (proj1 (proj2 (proj2 HM))))) as (_ & HP & _). specialize (HP _ HM).
    refine (finite_same _ _ _ _ _ _ _ _ _ (fp16_finite s 0 m Hm _) HP _); [lia|reflexivity].
  - rewrite E4. assert (EU : u32 (e * 2 ^ 23 + m * 2 ^ 13 + 224 * 2 ^ 23) = word 23 8 false ((e + 224) * 2 ^ 23 + m * 2 ^ 13)) by (unfold u32, word; rewrite Z.mod_small; lia). rewrite EU.
    destruct (Z.eq_dec e 31) as [->|He1].
    + change (31 + 224) with 255. destruct (Z.eq_dec m 0) as [->|Hm0].
      * change (0 * 2 ^ 13) with 0. apply infinite_same with s; [exact (decode_inf 10 5 eq_refl eq_refl eq_refl s)|].
        apply put_sign; [left; vm_compute; reflexivity|]. split; [|split]; vm_compute; reflexivity.
      * apply nan_same; [exact (decode_nan 10 5 eq_refl eq_refl eq_refl s m ltac:(lia))|].
        assert (HN : is_nan 24 128 (b32_mult mode_NE (b32_of_bits (word 23 8 false (255 * 2 ^ 23 + m * 2 ^ 13))) (b32_of_bits (Z.shiftl 15 23))) = true) by (apply mult_nan_nan; apply f32_nan; lia).
        apply put_sign; [right|]; exact HN.
    + pose proof (f32_finite false (e + 224) (m * 2 ^ 13) ltac:(lia) ltac:(lia)) as HF. destruct (sig_range (e + 224) (m * 2 ^ 13) ltac:(lia)) as [HX _].
      pose proof (mult_exact _ _ _ _ _ HF scale_m112 HX ltac:(lia)) as HM. destruct (put_sign s _ (or_introl (proj1 (proj2 (proj2 HM))))) as (_ & HP & _). specialize (HP _ HM).
      refine (finite_same _ _ _ _ _ _ _ _ _ (fp16_finite s e m Hm _) HP _); [lia|].
      rewrite (sig_scale _ (Z.max (e + 224) 1 - 150 + -112) _ 13) by lia. f_equal. f_equal. unfold sig. destruct (Z.eqb_spec e 0); [lia|]. destruct (Z.eqb_spec (e + 224) 0); lia.
Qed.

(** The integer-only widening. *)
Lemma half_w_low : forall s W, 0 <= W < 2 ^ 31 -> Z.land (word 23 8 s W) 0x7FFFFFFF = W.
Proof.
  intros s W HW. change 0x7FFFFFFF with (Z.ones 31). rewrite Z.land_ones by lia. unfold word. change (23 + 8) with 31. destruct s.
  - rewrite Z.add_comm. replace (W + 2 ^ 31) with (W + 1 * 2 ^ 31) by ring. rewrite Z.mod_add by lia. apply Z.mod_small. lia.
  - apply Z.mod_small. lia.
Qed.
Definition sub_ok (m : Z) : bool :=
  let r := 31 - Z.log2 (m * 2 ^ 16) - 5 in
  let N := Z.lor (u32 (Z.shiftr (u32 (Z.shiftl (m * 2 ^ 16) r)) 3 + u32 (Z.shiftl (0x70 - r) 23))) 0 in
  (5 <? 31 - Z.log2 (m * 2 ^ 16)) && (0 <=? N) && (N <? 2 ^ 31) && (0 <? N / 2 ^ 23) && (N / 2 ^ 23 <? 255)
  && (m * 2 ^ 126 =? (N mod 2 ^ 23 + 2 ^ 23) * 2 ^ (N / 2 ^ 23)).
Lemma sub_all : all_from 1023 1 sub_ok = true.
Proof. vm_compute. reflexivity. Qed.
Lemma land_ones32 : forall N, 0 <= N < 2 ^ 32 -> Z.land N (u32 (Z.lnot 0)) = N.
Proof. intros N HN. change (u32 (Z.lnot 0)) with (Z.ones 32). rewrite Z.land_ones by lia. apply Z.mod_small. auto. Qed.
Lemma half_bits_lemma : forall clz0 h, 0 <= h < 2 ^ 16 -> same_value (fp16 h) (b32_of_bits (fp16_ieee_to_fp32_bits clz0 h)).
Proof.
  intros c h Hh. destruct (half_split h Hh 10 5 ltac:(lia) ltac:(lia) ltac:(lia)) as (s & e & m & -> & He & Hm). change (2 ^ 5) with 32 in He.
  unfold fp16_ieee_to_fp32_bits. cbv zeta. rewrite half_w by lia. rewrite half_w_sign, half_w_low by lia. set (ns := e * 2 ^ 26 + m * 2 ^ 16).
  assert (HZ : 0 < ns -> Z.shiftr (s32 (ns - 1)) 31 = 0).
  { intros H0. unfold s32, u32. rewrite Z.mod_small by lia. replace (ns - 1 <? 2 ^ 31) with true by (symmetry; apply Z.ltb_lt; lia). rewrite Z.shiftr_div_pow2 by lia. apply Z.div_small. lia. }
  assert (HI : e <= 30 -> Z.land (Z.shiftr (s32 (ns + 0x04000000)) 8) 0x7F800000 = 0).
  { intros H0. unfold s32, u32. rewrite Z.mod_small by lia. replace (ns + 0x04000000 <? 2 ^ 31) with true by (symmetry; apply Z.ltb_lt; lia). rewrite Z.shiftr_div_pow2 by lia.
    change 0x7F800000 with (Z.shiftl (Z.ones 8) 23). rewrite land_shifted by lia. rewrite Z.div_div by lia. change (2 ^ 8 * 2 ^ 23) with (2 ^ 31). rewrite Z.div_small by lia. reflexivity. }
  destruct (Z.eq_dec ns 0) as [H0|H0].
  - assert (e = 0) as -> by lia. assert (m = 0) as -> by lia. rewrite H0. change (u32 (Z.lnot (Z.shiftr (s32 (0 - 1)) 31))) with 0. rewrite Z.land_0_r. rewrite lor_sign32 by lia. change 0 with (0 * 2 ^ 23 + 0) at 2.
    refine (finite_same _ _ _ _ _ _ s _ _ (fp16_finite s 0 0 _ _) (f32_finite s 0 0 _ _) _); try lia. cbn [Z.eqb]. unfold sig. cbn [Z.eqb]. ring.
  - rewrite HZ by lia. unfold clz32. replace (ns =? 0) with false by (symmetry; apply Z.eqb_neq; auto).
    destruct (Z_le_gt_dec e 0) as [He0|He0].
    + assert (e = 0) as -> by lia. rewrite HI by lia. change (u32 0) with 0. assert (EM : ns = m * 2 ^ 16) by (unfold ns; ring). rewrite EM.
      pose proof (all_from_spec sub_ok 1023 1 sub_all m ltac:(lia)) as HS. unfold sub_ok in HS. rewrite !andb_true_iff in HS. destruct HS as (((((S1 & S2) & S3) & S4) & S5) & S6).
      rewrite S1. set (N := Z.lor _ 0) in *. apply Z.leb_le in S2. apply Z.ltb_lt in S3, S4, S5. apply Z.eqb_eq in S6. rewrite land_ones32 by lia.
      rewrite lor_sign32 by lia. rewrite (Z.div_mod N (2 ^ 23)) by lia. pose proof (Z.mod_pos_bound N (2 ^ 23) ltac:(lia)). rewrite (Z.mul_comm (2 ^ 23)).
      refine (finite_same _ _ _ _ _ _ s _ _ (fp16_finite s 0 m Hm _) (f32_finite s (N / 2 ^ 23) (N mod 2 ^ 23) _ _) _); try lia.
      cbn [Z.eqb]. unfold sig. replace (N / 2 ^ 23 =? 0) with false by (symmetry; apply Z.eqb_neq; lia). change (Z.max 0 1 - 25) with (-24).
      rewrite (sig_scale (-24) (-150) m 126) by lia. rewrite S6. rewrite (sig_scale (Z.max (N / 2 ^ 23) 1 - 150) (-150) _ (N / 2 ^ 23)) by lia. reflexivity.
    + assert (HL : 26 <= Z.log2 ns) by (apply Z.log2_le_pow2; lia). replace (5 <? 31 - Z.log2 ns) with false by (symmetry; apply Z.ltb_ge; lia).
      rewrite Z.shiftl_0_r, Z.sub_0_r. change (u32 (Z.shiftl 0x70 23)) with (112 * 2 ^ 23).
      assert (E3 : Z.shiftr (u32 ns) 3 = e * 2 ^ 23 + m * 2 ^ 13) by (unfold u32; rewrite Z.mod_small by lia; rewrite Z.shiftr_div_pow2 by lia; symmetry; apply Z.div_unique with 0; lia). rewrite E3.
      assert (EN : u32 (e * 2 ^ 23 + m * 2 ^ 13 + 112 * 2 ^ 23) = (e + 112) * 2 ^ 23 + m * 2 ^ 13) by (unfold u32; rewrite Z.mod_small; lia). rewrite EN.
      destruct (Z.eq_dec e 31) as [->|He1].
      * assert (EI : u32 (Z.land (Z.shiftr (s32 (ns + 0x04000000)) 8) 0x7F800000) = 255 * 2 ^ 23).
        { unfold s32. assert (EU : u32 (ns + 0x04000000) = 2 ^ 31 + m * 2 ^ 16) by (unfold u32; rewrite Z.mod_small; lia). rewrite EU.
          replace (2 ^ 31 + m * 2 ^ 16 <? 2 ^ 31) with false by (symmetry; apply Z.ltb_ge; lia). rewrite Z.shiftr_div_pow2 by lia.
          change 0x7F800000 with (Z.shiftl (Z.ones 8) 23). rewrite land_shifted by lia. rewrite Z.div_div by lia. change (2 ^ 8 * 2 ^ 23) with (2 ^ 31).
          replace ((2 ^ 31 + m * 2 ^ 16 - 2 ^ 32) / 2 ^ 31) with (-1) by (apply Z.div_unique with (m * 2 ^ 16); lia). reflexivity. }
        rewrite EI. assert (EO : Z.lor ((31 + 112) * 2 ^ 23 + m * 2 ^ 13) (255 * 2 ^ 23) = 255 * 2 ^ 23 + m * 2 ^ 13).
        { rewrite <- (lor_add (31 + 112)) by lia. rewrite <- Z.lor_assoc. change (Z.lor ((31 + 112) * 2 ^ 23) (255 * 2 ^ 23)) with (255 * 2 ^ 23). apply lor_add; lia. }
        rewrite EO, land_ones32, lor_sign32 by lia. destruct (Z.eq_dec m 0) as [->|Hm0].
        -- apply infinite_same with s; [exact (decode_inf 10 5 eq_refl eq_refl eq_refl s)|apply f32_inf].
        -- apply nan_same; [exact (decode_nan 10 5 eq_refl eq_refl eq_refl s m ltac:(lia))|apply f32_nan; lia].
      * rewrite HI by lia. change (u32 0) with 0. rewrite Z.lor_0_r, land_ones32, lor_sign32 by lia.
        refine (finite_same _ _ _ _ _ _ s _ _ (fp16_finite s e m Hm _) (f32_finite s (e + 112) (m * 2 ^ 13) _ _) _); try lia.
        rewrite (sig_scale _ (Z.max (e + 112) 1 - 150) _ 13) by lia. f_equal. f_equal. unfold sig. destruct (Z.eqb_spec e 0); [lia|]. destruct (Z.eqb_spec (e + 112) 0); lia.
Qed.
