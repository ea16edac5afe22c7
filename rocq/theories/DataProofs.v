From Coq Require Import ZArith Reals List Arith Bool Lia Lra Permutation.
From Flocq Require Import Core Relative IEEE754.BinarySingleNaN IEEE754.Binary IEEE754.Bits.
From Verif Require Import DataModel.
Import ListNotations.
Open Scope Z_scope.

(** * The float quotient *)
Local Notation rnd := (round radix2 (FLT_exp (-149) 24) ZnearestE).
Local Instance vexp : Valid_exp (FLT_exp (-149) 24). Proof. apply FLT_exp_valid. reflexivity. Qed.
Lemma rnd_int : forall z, Z.abs z <= 2 ^ 24 -> rnd (IZR z) = IZR z.
Proof.
  intros z Hz. apply round_generic; [apply valid_rnd_N|]. destruct (Z.eq_dec (Z.abs z) (2 ^ 24)) as [E|E].
  - assert (HZ : IZR z = bpow radix2 24 \/ IZR z = (- bpow radix2 24)%R).
    { assert (z = 2 ^ 24 \/ z = - 2 ^ 24) by lia. change (bpow radix2 24) with (IZR (2 ^ 24)). rewrite <- opp_IZR. destruct H as [->| ->]; auto. }
    destruct HZ as [-> | ->]; [|apply generic_format_opp]; apply generic_format_bpow; cbv; discriminate.
  - apply generic_format_FLT. exists (Float radix2 z 0); cbn; [unfold F2R; cbn; ring| |lia]. change (Z.pow_pos 2 24) with (2 ^ 24). lia.
Qed.
Lemma f32_of_Z_ok : forall z, Z.abs z < 2 ^ 64 -> B2R 24 128 (f32_of_Z z) = rnd (IZR z) /\ is_finite 24 128 (f32_of_Z z) = true.
Proof.
  intros z Hz. pose proof (binary_normalize_correct 24 128 eq_refl eq_refl mode_NE z 0 false) as H. cbn [round_mode] in H. change (SpecFloat.fexp 24 128) with (FLT_exp (-149) 24) in H.
  unfold F2R in H. cbn [Fnum Fexp] in H. change (bpow radix2 0) with 1%R in H. rewrite Rmult_1_r in H.
  assert (HB : (Rabs (rnd (IZR z)) < bpow radix2 128)%R).
  { apply Rle_lt_trans with (bpow radix2 64); [|apply bpow_lt; lia]. apply abs_round_le_generic; try typeclasses eauto.
    - apply generic_format_bpow. cbv. discriminate.
    - rewrite <- abs_IZR. change (bpow radix2 64) with (IZR (2 ^ 64)). apply IZR_le. lia. }
  rewrite Rlt_bool_true in H by exact HB. destruct H as (A & B & _). auto.
Qed.
Lemma ceil_u64_ok : forall f, is_finite 24 128 f = true -> let k := Zceil (B2R 24 128 f) in 0 <= k < 2 ^ 64 -> ceil_u64 f = Some k.
Proof.
  intros f HF k Hk. unfold ceil_u64. destruct f as [s|s| |s m e H]; try discriminate.
  - unfold k. cbn. rewrite Zceil_IZR. reflexivity.
  - assert (EK : k = if 0 <=? e then (if s then Z.neg m else Z.pos m) * 2 ^ e else - (- (if s then Z.neg m else Z.pos m) / 2 ^ (- e))).
    { unfold k. cbn [B2R]. unfold F2R. cbn [Fnum Fexp]. replace (SpecFloat.cond_Zopp s (Z.pos m)) with (if s then Z.neg m else Z.pos m) by (destruct s; reflexivity).
      set (n := if s then Z.neg m else Z.pos m). destruct (Z.leb_spec 0 e) as [He|He].
      - rewrite <- (IZR_Zpower radix2) by auto. rewrite <- mult_IZR. rewrite Zceil_IZR. reflexivity.
      - unfold Zceil. f_equal. replace (- (IZR n * bpow radix2 e))%R with (IZR (- n) / IZR (2 ^ (- e)))%R.
        + apply Zfloor_div. apply Z.pow_nonzero; lia.
        + change (IZR (2 ^ - e)) with (IZR (Zpower radix2 (- e))). rewrite IZR_Zpower by lia. rewrite bpow_opp. rewrite opp_IZR. unfold Rdiv. rewrite Rinv_inv. ring. }
    cbv zeta. rewrite <- EK. replace ((0 <=? k) && (k <? 2 ^ 64)) with true by lia. reflexivity.
Qed.
Lemma b32_mult_1 : forall n, 0 <= n < 2 ^ 64 -> B2R 24 128 (b32_mult mode_NE (f32_of_Z n) (f32_of_Z 1)) = rnd (IZR n) /\ is_finite 24 128 (b32_mult mode_NE (f32_of_Z n) (f32_of_Z 1)) = true.
Proof.
  intros n Hn. destruct (f32_of_Z_ok n ltac:(lia)) as [E F]. destruct (f32_of_Z_ok 1 ltac:(lia)) as [E1 F1]. rewrite rnd_int in E1 by lia.
  pose proof (Bmult_correct 24 128 eq_refl eq_refl binop_nan_pl32 mode_NE (f32_of_Z n) (f32_of_Z 1)) as H. rewrite E, E1, Rmult_1_r in H. cbn [round_mode] in H. change (SpecFloat.fexp 24 128) with (FLT_exp (-149) 24) in H.
  rewrite round_generic in H by (try typeclasses eauto; apply generic_format_round; typeclasses eauto).
  assert (HB : (Rabs (rnd (IZR n)) < bpow radix2 128)%R).
  { apply Rle_lt_trans with (bpow radix2 64); [|apply bpow_lt; lia]. apply abs_round_le_generic; try typeclasses eauto.
    - apply generic_format_bpow. cbv. discriminate.
    - rewrite <- abs_IZR. change (bpow radix2 64) with (IZR (2 ^ 64)). apply IZR_le. lia. }
  rewrite Rlt_bool_true in H by exact HB. destruct H as (A & B & _). split; [exact A|]. unfold b32_mult. rewrite B, F, F1. reflexivity.
Qed.
Lemma rnd_ceil : forall n b, 0 < n <= 2 ^ 24 -> 0 < b <= 2 ^ 24 -> Zceil (rnd (IZR n / IZR b)) = (n + b - 1) / b.
Proof.
  intros n b Hn Hb. set (x := (IZR n / IZR b)%R). set (q := (n - 1) / b).
  assert (HQ : q * b <= n - 1 < (q + 1) * b).
  { unfold q. pose proof (Z.div_mod (n - 1) b ltac:(lia)). pose proof (Z.mod_pos_bound (n - 1) b ltac:(lia)). nia. }
  assert (HQ0 : 0 <= q) by (apply Z.div_pos; lia).
  replace ((n + b - 1) / b) with (q + 1) by (unfold q; replace (n + b - 1) with (n - 1 + 1 * b) by lia; rewrite Z.div_add by lia; reflexivity).
  assert (Hb0 : (0 < IZR b)%R) by (apply IZR_lt; lia). assert (Hn0 : (0 < IZR n)%R) by (apply IZR_lt; lia).
  assert (HX0 : (0 < x)%R) by (unfold x; apply Rmult_lt_0_compat; auto; apply Rinv_0_lt_compat; auto).
  apply Zceil_imp. replace (q + 1 - 1) with q by lia. split.
  - (* x / (1 + u) > q *)
    assert (HXl : (bpow radix2 (-24) <= x)%R).
    { unfold x. apply Rmult_le_reg_r with (IZR b); auto. unfold Rdiv. rewrite Rmult_assoc, Rinv_l, Rmult_1_r by lra.
      apply Rle_trans with (bpow radix2 (-24) * bpow radix2 24)%R; [apply Rmult_le_compat_l; [apply bpow_ge_0|]; change (bpow radix2 24) with (IZR (2 ^ 24)); apply IZR_le; lia|].
      rewrite <- bpow_plus. cbn. apply IZR_le. lia. }
    assert (EX : rnd x = round radix2 (FLX_exp 24) ZnearestE x).
    { apply round_FLT_FLX. apply Rle_trans with (bpow radix2 (-24)); [apply bpow_le; lia|]. rewrite Rabs_pos_eq by lra. exact HXl. }
    pose proof (relative_error_N_FLX' radix2 24 eq_refl (fun t => negb (Z.even t)) x) as HR. rewrite <- EX in HR. rewrite (Rabs_pos_eq x) in HR by lra.
    replace (u_ro radix2 24) with (/ IZR (2 ^ 24))%R in HR.
    2: { unfold u_ro. change (bpow radix2 (-24 + 1)) with (/ IZR (2 ^ 23))%R. change (2 ^ 24) with (2 * 2 ^ 23). rewrite mult_IZR. rewrite Rinv_mult. reflexivity. }
    apply Rabs_le_inv in HR. destruct HR as [HR _]. set (u := (/ IZR (2 ^ 24))%R) in *.
    assert (Hu : (0 < u)%R) by (apply Rinv_0_lt_compat; apply IZR_lt; lia).
    assert (Hun : (u * IZR (n - 1) < 1)%R).
    { unfold u. apply Rmult_lt_reg_l with (IZR (2 ^ 24)); [apply IZR_lt; lia|]. rewrite <- Rmult_assoc, Rinv_r, Rmult_1_l, Rmult_1_r by (apply IZR_neq; lia). apply IZR_lt. lia. }
    assert (HXu : (x / (1 + u) <= rnd x)%R).
    { replace (x / (1 + u))%R with (x - u / (1 + u) * x)%R by (field; lra). lra. }
    apply Rlt_le_trans with (x / (1 + u))%R; auto. apply Rmult_lt_reg_r with (1 + u)%R; [lra|]. unfold Rdiv at 1. rewrite Rmult_assoc, Rinv_l, Rmult_1_r by lra.
    unfold x. apply Rmult_lt_reg_r with (IZR b); auto. unfold Rdiv. rewrite (Rmult_assoc (IZR n)), Rinv_l, Rmult_1_r by lra.
    assert (HQb : (IZR q * IZR b <= IZR (n - 1))%R) by (rewrite <- mult_IZR; apply IZR_le; lia).
    rewrite minus_IZR in *. assert (IZR q * (1 + u) * IZR b = IZR q * IZR b * (1 + u))%R by ring. rewrite H.
    apply Rle_lt_trans with ((IZR n - 1) * (1 + u))%R; [apply Rmult_le_compat_r; lra|]. lra.
  - rewrite <- (rnd_int (q + 1)).
    + apply round_le; try typeclasses eauto. unfold x. apply Rmult_le_reg_r with (IZR b); auto. unfold Rdiv. rewrite Rmult_assoc, Rinv_l, Rmult_1_r by lra. rewrite <- mult_IZR. apply IZR_le. lia.
    + nia.
Qed.
Lemma rnd_big : forall b, 2 ^ 24 < b < 2 ^ 64 -> (IZR (2 ^ 24) <= rnd (IZR b) <= IZR (2 ^ 64))%R.
Proof.
  intros b Hb. split.
  - rewrite <- (rnd_int (2 ^ 24)) by lia. apply round_le; try typeclasses eauto. apply IZR_le. lia.
  - change (IZR (2 ^ 64)) with (bpow radix2 64). apply round_le_generic; try typeclasses eauto; [apply generic_format_bpow; cbv; discriminate|]. change (bpow radix2 64) with (IZR (2 ^ 64)). apply IZR_le. lia.
Qed.
Lemma ceilDivF_ok : forall n b, 0 <= n <= 2 ^ 24 -> 0 < b < 2 ^ 64 -> ceilDivF n b = Some ((n + b - 1) / b).
Proof.
  intros n b Hn Hb. unfold ceilDivF. destruct (b32_mult_1 n ltac:(lia)) as [E F]. set (f := b32_mult mode_NE (f32_of_Z n) (f32_of_Z 1)) in *.
  destruct (f32_of_Z_ok b ltac:(lia)) as [Eb Fb]. rewrite rnd_int in E by lia.
  assert (HBp : (1 <= B2R 24 128 (f32_of_Z b))%R).
  { rewrite Eb. rewrite <- (rnd_int 1) by lia. apply round_le; try typeclasses eauto. apply IZR_le. lia. }
  pose proof (Bdiv_correct 24 128 eq_refl eq_refl binop_nan_pl32 mode_NE f (f32_of_Z b) ltac:(lra)) as H. rewrite E in H. cbn [round_mode] in H. change (SpecFloat.fexp 24 128) with (FLT_exp (-149) 24) in H.
  set (y := (IZR n / B2R 24 128 (f32_of_Z b))%R) in *. assert (Hn0 : (0 <= IZR n)%R) by (apply IZR_le; lia).
  assert (HY : (0 <= y <= IZR (2 ^ 24))%R).
  { unfold y. split; [apply Rmult_le_pos; auto; left; apply Rinv_0_lt_compat; lra|]. apply Rle_trans with (IZR n); [|apply IZR_le; lia].
    apply Rmult_le_reg_r with (B2R 24 128 (f32_of_Z b)); [lra|]. unfold Rdiv. rewrite Rmult_assoc, Rinv_l, Rmult_1_r by lra.
    rewrite <- (Rmult_1_r (IZR n)) at 1. apply Rmult_le_compat_l; auto. }
  assert (HR : (0 <= rnd y <= IZR (2 ^ 24))%R).
  { split; [rewrite <- (rnd_int 0) by lia|rewrite <- (rnd_int (2 ^ 24)) by lia]; apply round_le; try typeclasses eauto; apply HY. }
  rewrite Rlt_bool_true in H. 2: { rewrite Rabs_pos_eq by apply HR. apply Rle_lt_trans with (bpow radix2 24); [apply HR|apply bpow_lt; lia]. }
  destruct H as (A & B & _). rewrite F in B.
  assert (HC : Zceil (rnd y) = (n + b - 1) / b).
  { destruct (Z.eq_dec n 0) as [->|Hnz].
    - replace y with (IZR 0) by (unfold y, Rdiv; ring). rewrite rnd_int by lia. rewrite Zceil_IZR. symmetry. apply Z.div_small. lia.
    - destruct (Z.le_gt_cases b (2 ^ 24)) as [Hbl|Hbl].
      + unfold y. rewrite Eb, rnd_int by lia. apply rnd_ceil; lia.
      + replace ((n + b - 1) / b) with 1 by (apply Z.div_unique with (n - 1); lia). pose proof (rnd_big b ltac:(lia)) as HG. rewrite <- Eb in HG.
        apply Zceil_imp. change (1 - 1) with 0. assert (HN1 : (1 <= IZR n)%R) by (apply IZR_le; lia). split.
        * apply Rlt_le_trans with (bpow radix2 (-64)); [apply bpow_gt_0|]. apply round_ge_generic; try typeclasses eauto; [apply generic_format_bpow; cbv; discriminate|].
          change (bpow radix2 (-64)) with (/ IZR (2 ^ 64))%R. unfold y. rewrite <- (Rmult_1_l (/ IZR (2 ^ 64))). apply Rmult_le_compat; [lra|left; apply Rinv_0_lt_compat; apply IZR_lt; lia|lra|apply Rinv_le_contravar; lra].
        * rewrite <- (rnd_int 1) by lia. apply round_le; try typeclasses eauto. unfold y. apply Rmult_le_reg_r with (B2R 24 128 (f32_of_Z b)); [lra|]. unfold Rdiv. rewrite Rmult_assoc, Rinv_l, Rmult_1_r, Rmult_1_l by lra.
          apply Rle_trans with (IZR (2 ^ 24)); [apply IZR_le; lia|lra]. }
  fold (b32_div mode_NE f (f32_of_Z b)) in A, B. rewrite <- HC, <- A. apply ceil_u64_ok; auto. rewrite A, HC. split; [apply Z.div_pos; lia|].
  apply Z.div_lt_upper_bound; nia.
Qed.

(** * Shuffles *)
Lemma swapAt_length : forall l i j, length (swapAt l i j) = length l.
Proof. intros. unfold swapAt. rewrite map_length, seq_length. reflexivity. Qed.
Lemma map_nth_seq : forall (l : list nat), map (fun k => nth k l 0%nat) (seq 0 (length l)) = l.
Proof.
  intros l. apply nth_ext with 0%nat 0%nat; rewrite map_length, seq_length; auto. intros n Hn. rewrite (nth_indep _ 0%nat (nth 0 l 0%nat)) by (rewrite map_length, seq_length; auto).
  rewrite map_nth with (f := fun k => nth k l 0%nat) (d := 0%nat). rewrite seq_nth by auto. reflexivity.
Qed.
Lemma swapAt_perm : forall l i j, (i < length l)%nat -> (j < length l)%nat -> Permutation l (swapAt l i j).
Proof.
  intros l i j Hi Hj. unfold swapAt. rewrite <- (map_map (fun k => if k =? i then j else if k =? j then i else k)%nat (fun k => nth k l 0%nat)).
  rewrite <- (map_nth_seq l) at 1. apply Permutation_map. apply NoDup_Permutation_bis.
  - apply seq_NoDup.
  - rewrite map_length. auto.
  - intros k Hk. apply in_seq in Hk. apply in_map_iff. exists (if k =? i then j else if k =? j then i else k)%nat. split.
    + destruct (Nat.eqb_spec k i); [subst; rewrite Nat.eqb_refl; destruct (Nat.eqb_spec j i); auto|]. destruct (Nat.eqb_spec k j); [subst; rewrite Nat.eqb_refl; auto|].
      destruct (Nat.eqb_spec k i); [contradiction|]. destruct (Nat.eqb_spec k j); [contradiction|]. reflexivity.
    + apply in_seq. destruct (k =? i)%nat, (k =? j)%nat; lia.
Qed.
Lemma shuffle_perm : forall d l, Permutation l (shuffle d l).
Proof.
  intros d l. unfold shuffle. assert (H : forall ks m, length m = length l -> (forall k, In k ks -> (k < length l)%nat) -> Permutation m (fold_left (fun l i => swapAt l i (d i mod S i)%nat) ks m)).
  { induction ks as [|k ks IH]; intros m HM HK; cbn; auto. assert (HKl : (k < length m)%nat) by (rewrite HM; apply HK; left; auto).
    pose proof (Nat.mod_upper_bound (d k) (S k) ltac:(lia)). apply perm_trans with (swapAt m k (d k mod S k)); [apply swapAt_perm; lia|].
    apply IH; [rewrite swapAt_length; auto|]. intros x Hx. apply HK. right; auto. }
  apply H; auto. intros k Hk. apply in_seq in Hk. lia.
Qed.
Lemma shuffle_length : forall d l, length (shuffle d l) = length l.
Proof. intros. symmetry. apply Permutation_length, shuffle_perm. Qed.

(** * Batches *)
Lemma batchIndices_ok : forall l hi fuel i, 0 <= i -> Z.of_nat (length (indices l)) < 2 ^ 64 -> (length (indices l) <= Z.to_nat i + fuel)%nat ->
  batchIndices l hi fuel i = firstn (Z.to_nat (hi - i)) (skipn (Z.to_nat i) (indices l)).
Proof.
  intros l hi fuel. induction fuel as [|fuel IH]; intros i Hi HL HF; cbn [batchIndices].
  - rewrite skipn_all2 by lia. rewrite firstn_nil. reflexivity.
  - destruct (Z.ltb_spec i hi) as [H1|H1]; cbn [andb].
    + destruct (Z.ltb_spec i (Z.of_nat (length (indices l)))) as [H2|H2].
      * unfold u64. rewrite Z.mod_small by lia. rewrite IH by lia. replace (Z.to_nat (i + 1)) with (S (Z.to_nat i)) by lia. replace (Z.to_nat (hi - i)) with (S (Z.to_nat (hi - (i + 1)))) by lia.
        assert (HI : (Z.to_nat i < length (indices l))%nat) by lia. clear - HI. revert HI. generalize (Z.to_nat i) (Z.to_nat (hi - (i + 1))) (indices l). clear.
        intros k c l. revert k. induction l as [|x l IH]; intros k HK; cbn in HK; [lia|]. destruct k; [reflexivity|]. cbn [nth]. rewrite IH by lia. reflexivity.
      * rewrite skipn_all2 by lia. rewrite firstn_nil. reflexivity.
    + replace (Z.to_nat (hi - i)) with 0%nat by lia. reflexivity.
Qed.
Lemma batchRange_ok : forall l k, Z.of_nat (length (indices l)) < 2 ^ 64 -> 0 <= k -> 0 <= batchSize l -> k * batchSize l + batchSize l < 2 ^ 64 ->
  batchRange l k = firstn (Z.to_nat (batchSize l)) (skipn (Z.to_nat (k * batchSize l)) (indices l)).
Proof.
  intros l k HL Hk Hb HO. unfold batchRange, u64. assert (0 <= k * batchSize l) by nia. rewrite (Z.mod_small (k * batchSize l)) by lia. rewrite Z.mod_small by lia.
  rewrite batchIndices_ok by lia. do 2 f_equal. lia.
Qed.
Lemma firstn_split : forall A (l : list A) a c, firstn a l ++ firstn c (skipn a l) = firstn (a + c) l.
Proof. intros A l a. revert l. induction a as [|a IH]; intros l c; cbn; auto. destruct l; cbn; [rewrite firstn_nil; reflexivity|]. f_equal. apply IH. Qed.
Lemma skipn_add : forall A (l : list A) a c, skipn c (skipn a l) = skipn (a + c) l.
Proof. intros A l a. revert l. induction a as [|a IH]; intros l c; cbn; auto. destruct l; cbn; [apply skipn_nil|apply IH]. Qed.
Lemma chunks_concat : forall A (l : list A) b c, concat (map (fun k => firstn b (skipn (k * b) l)) (seq 0 c)) = firstn (c * b) l.
Proof.
  intros A l b c. assert (H : forall c s, concat (map (fun k => firstn b (skipn (k * b) l)) (seq s c)) = firstn (c * b) (skipn (s * b) l)).
  { induction c0 as [|c0 IH]; intros s; cbn [seq map concat Nat.mul]; [reflexivity|]. rewrite IH. replace (S s * b)%nat with (s * b + b)%nat by lia. rewrite <- skipn_add.
    apply firstn_split. }
  rewrite H. cbn. reflexivity.
Qed.
