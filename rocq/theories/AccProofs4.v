(** The mean; where sums of ones stop. *)
From Coq Require Import ZArith Reals List Bool Arith Lia Lra Psatz.
From Flocq Require Import Core Plus_error Relative IEEE754.BinarySingleNaN IEEE754.Binary IEEE754.Bits.
From Verif Require Import FloatModel FloatSpec Arith16Model Arith16Spec Arith16Proofs Arith16Proofs3 AccModel AccSpec AccProofs2 AccProofs3.
Import ListNotations.
Open Scope R_scope.

(** * The factor of the mean *)
Lemma int_float_ok n : (Z.abs n <= 2 ^ 24)%Z -> B2R 24 128 (int_float n) = IZR n /\ is_finite 24 128 (int_float n) = true.
Proof.
  intros H. unfold int_float. pose proof (binary_normalize_correct 24 128 eq_refl eq_refl mode_NE n 0 false) as Q.
  change (SpecFloat.fexp 24 128) with (FLT_exp (-149) 24) in Q. change (round_mode mode_NE) with ZnearestE in Q.
  assert (E : F2R (Float radix2 n 0) = IZR n) by (unfold F2R; cbn; ring). rewrite E in Q. rewrite (int_exact n H) in Q. rewrite Rlt_bool_true in Q.
  - destruct Q as (Q1 & Q2 & _). split; assumption.
  - rewrite <- abs_IZR. change (bpow radix2 128) with (IZR (2 ^ 128)). apply IZR_lt. eapply Z.le_lt_trans; [exact H|]. reflexivity.
Qed.
Definition inv32 (n : nat) : R := rnd F32 (/ INR n).
Lemma inv_range n : (1 <= n)%nat -> (Z.of_nat n <= 2 ^ 14)%Z -> bpow radix2 (-14) <= / INR n <= 1.
Proof.
  intros H1 H2. assert (1 <= INR n) by (change 1 with (INR 1); apply le_INR; lia). split.
  - replace (bpow radix2 (-14)) with (/ bpow radix2 14) by (rewrite <- bpow_opp; reflexivity). apply Rinv_le; [lra|]. rewrite INR_IZR_INZ. change (bpow radix2 14) with (IZR (2 ^ 14)). apply IZR_le. exact H2.
  - replace 1 with (/ 1) by lra. apply Rinv_le; lra.
Qed.
Lemma format_bpow k e : (3 - emaxOf k - precision k <= e)%Z -> generic_format radix2 (FLT_exp (3 - emaxOf k - precision k) (precision k)) (bpow radix2 e).
Proof. intros H. apply generic_format_bpow. unfold FLT_exp. pose proof (prec_pos k). lia. Qed.
Lemma rnd_range k v : bpow radix2 (-14) <= v <= 1 -> bpow radix2 (-14) <= rnd k v <= 1.
Proof.
  intros [A B]. split.
  - apply round_ge_generic; [apply FLT_exp_valid; exact (prec_pos k)|apply valid_rnd_N|apply format_bpow; destruct k; cbn; lia|exact A].
  - apply round_le_generic; [apply FLT_exp_valid; exact (prec_pos k)|apply valid_rnd_N|change 1 with (bpow radix2 0); apply format_bpow; destruct k; cbn; lia|exact B].
Qed.
Lemma one_lt_max k : 1 < bpow radix2 (emaxOf k).
Proof. change 1 with (bpow radix2 0). apply bpow_lt. destruct k; reflexivity. Qed.
Lemma ratio_ok a n N : (a * n = N)%nat -> (1 <= a)%nat -> (1 <= n)%nat -> (Z.of_nat n <= 2 ^ 14)%Z -> (Z.of_nat N <= 2 ^ 24)%Z -> is_finite 24 128 (ratio a N) = true /\ B2R 24 128 (ratio a N) = inv32 n.
Proof.
  intros HN Ha H1 H2 H3. destruct (int_float_ok (Z.of_nat a)) as [A1 A2]; [nia|]. destruct (int_float_ok (Z.of_nat N)) as [B1 B2]; [lia|]. rewrite <- INR_IZR_INZ in A1, B1.
  assert (N1 : INR N <> 0) by (apply not_0_INR; nia). assert (N2 : INR n <> 0) by (apply not_0_INR; lia). assert (N3 : INR a <> 0) by (apply not_0_INR; lia).
  assert (N0 : B2R 24 128 (int_float (Z.of_nat N)) <> 0) by (rewrite B1; exact N1).
  pose proof (div_computes 24 128 eq_refl eq_refl binop_nan_pl32 (int_float (Z.of_nat a)) (int_float (Z.of_nat N)) A2 N0) as C. unfold computes in C. cbv zeta in C.
  rewrite A1, B1 in C. assert (Q : INR a / INR N = / INR n) by (rewrite <- HN, mult_INR; field; auto). rewrite Q in C. change (round radix2 (FLT_exp (3 - 128 - 24) 24) ZnearestE (/ INR n)) with (inv32 n) in C.
  destruct (rnd_range F32 _ (inv_range n H1 H2)) as [R1 R2]. fold (inv32 n) in R1, R2. pose proof (bpow_gt_0 radix2 (-14)). rewrite Rlt_bool_true in C.
  - destruct C as (C1 & C2 & _). split; [exact C2|exact C1].
  - rewrite Rabs_pos_eq by lra. eapply Rle_lt_trans; [exact R2|]. exact (one_lt_max F32).
Qed.
Lemma ffloat_ok k f : is_finite 24 128 f = true -> Rabs (rnd k (B2R 24 128 f)) < bpow radix2 (emaxOf k) ->
  word k (ffloat k f) /\ finite k (ffloat k f) = true /\ value k (ffloat k f) = rnd k (B2R 24 128 f).
Proof.
  intros F L. destruct k.
  - unfold word, finite, value. cbn [ffloat]. rewrite bits_back. split; [apply bits_range|]. split; [exact F|]. symmetry. apply round_generic; [apply valid_rnd_N|]. cbn [precision emaxOf]. apply generic_format_B2R.
  - cbn [ffloat]. split; [apply half_word|]. pose proof (half_narrow f) as N. unfold rounded in N. rewrite (finite_not_nan _ _ _ F) in N. destruct N as (_ & _ & N). cbv zeta in N.
    rewrite F in N. cbn [andb] in N. unfold rnd in L. cbn [emaxOf precision] in L. rewrite (Rlt_bool_true _ _ L) in N. exact N.
  - cbn [ffloat]. split; [apply bf16_word|]. pose proof (bf16_narrow f) as N. unfold rounded in N. rewrite (finite_not_nan _ _ _ F) in N. destruct N as (_ & _ & N). cbv zeta in N.
    rewrite F in N. cbn [andb] in N. unfold rnd in L. cbn [emaxOf precision] in L. rewrite (Rlt_bool_true _ _ L) in N. exact N.
Qed.
Lemma normal_error k v : bpow radix2 (-14) <= v -> exists d, Rabs d <= unit k /\ rnd k v = v * (1 + d).
Proof.
  intros H. destruct (relative_error_N_FLT_ex radix2 (3 - emaxOf k - precision k) (precision k) (prec_pos k) (fun z => negb (Z.even z)) v) as (d & D & E).
  - rewrite Rabs_pos_eq by (pose proof (bpow_gt_0 radix2 (-14)); lra). eapply Rle_trans; [|exact H]. apply bpow_le. destruct k; cbn; lia.
  - exists d. rewrite unit_ulp. split; [exact D|exact E].
Qed.
Lemma unit32 k : unit F32 <= unit k.
Proof. apply bpow_le. destruct k; cbn; lia. Qed.
Lemma factor_ok k a n N : (a * n = N)%nat -> (1 <= a)%nat -> (1 <= n)%nat -> (Z.of_nat n <= 2 ^ 14)%Z -> (Z.of_nat N <= 2 ^ 24)%Z -> let w := ffloat k (ratio a N) in
  word k w /\ finite k w = true /\ exists d, Rabs d <= (1 + unit k) ^ 2 - 1 /\ value k w = / INR n * (1 + d).
Proof.
  intros HN Ha H1 H2 H3. cbv zeta. destruct (ratio_ok a n N HN Ha H1 H2 H3) as [F V]. pose proof (inv_range n H1 H2) as R0. pose proof (rnd_range F32 _ R0) as R1. fold (inv32 n) in R1. pose proof (rnd_range k _ R1) as R2.
  pose proof (bpow_gt_0 radix2 (-14)) as P14. destruct (ffloat_ok k (ratio a N) F) as (W & Fw & Vw).
  { rewrite V, Rabs_pos_eq by lra. eapply Rle_lt_trans; [apply R2|apply one_lt_max]. }
  split; [exact W|]. split; [exact Fw|]. rewrite Vw, V. destruct (normal_error k (inv32 n) (proj1 R1)) as (d2 & D2 & E2). destruct (normal_error F32 (/ INR n) (proj1 R0)) as (d1 & D1 & E1).
  pose proof (unit32 k) as U. exists (d1 + d2 + d1 * d2). split.
  - replace ((1 + unit k) ^ 2 - 1) with (unit k + unit k + unit k * unit k) by ring. eapply Rle_trans; [apply Rabs_triang|]. pose proof (Rabs_triang d1 d2). rewrite Rabs_mult.
    pose proof (Rabs_pos d1). pose proof (Rabs_pos d2). pose proof (unit_pos k). nra.
  - rewrite E2. unfold inv32 at 1. rewrite E1. ring.
Qed.
Lemma mean_lemma k s l a N : accurateSum k s l -> (a * length l = N)%nat -> (1 <= a)%nat -> (1 <= length l)%nat -> (Z.of_nat (length l) <= 2 ^ 14)%Z -> (Z.of_nat N <= 2 ^ 24)%Z ->
  accurateMean k (fmul k s (ffloat k (ratio a N))) l.
Proof.
  intros [Ws As] HN Ha H1 H2 H3. unfold accurateMean. set (n := length l) in *. destruct (factor_ok k a n N HN Ha H1 H2 H3) as (Wf & Ff & d & D & Vf). destruct (mul_step k s _ Ws Wf) as (W & S2 & _). split; [exact W|]. intros F.
  destruct (S2 F) as (Fs & _ & V). destruct (As Fs) as [Fl B]. split; [exact Fl|]. rewrite V, Vf. set (S := value k s) in *. set (T := total _) in *. set (M := magnitude _) in *.
  assert (NP : 0 < INR n) by (apply lt_0_INR; lia). set (i := / INR n) in *. assert (IP : 0 < i) by (apply Rinv_0_lt_compat; exact NP). unfold Rdiv. fold i.
  destruct (round_error k (S * (i * (1 + d)))) as (e & t & E & Tt & R). rewrite R. pose proof (unit_pos k) as U. set (u := unit k) in *.
  assert (MN : 0 <= M) by apply magnitude_nonneg.
  assert (TM : Rabs T <= M). { unfold T, M. clear. induction (map (value k) l) as [|x r IH]; [cbn; rewrite Rabs_R0; lra|]. rewrite total_cons, magnitude_cons. eapply Rle_trans; [apply Rabs_triang|]. lra. }
  assert (SB : Rabs S <= (1 + growth k (n - 1)) * M). { replace S with ((S - T) + T) by ring. eapply Rle_trans; [apply Rabs_triang|]. lra. }
  (* all factors *)
  assert (Q : Rabs ((1 + d) * (1 + e) - 1) <= (1 + u) ^ 3 - 1).
  { replace ((1 + d) * (1 + e) - 1) with (d + e + d * e) by ring. eapply Rle_trans; [apply Rabs_triang|]. pose proof (Rabs_triang d e). rewrite Rabs_mult. pose proof (Rabs_pos d). pose proof (Rabs_pos e).
    replace ((1 + u) ^ 3 - 1) with (((1 + u) ^ 2 - 1) + u + ((1 + u) ^ 2 - 1) * u) by ring. nra. }
  set (q := (1 + d) * (1 + e) - 1) in *.
  replace (S * (i * (1 + d)) * (1 + e) + t - T * i) with (i * ((S - T) + S * q) + t) by (unfold q; ring).
  eapply Rle_trans; [apply Rabs_triang|]. apply Rplus_le_compat; [|exact Tt]. rewrite Rabs_mult, (Rabs_pos_eq i) by lra. replace (growth k (n + 2) * (M * i)) with (i * (growth k (n + 2) * M)) by ring. apply Rmult_le_compat_l; [lra|].
  eapply Rle_trans; [apply Rabs_triang|]. rewrite Rabs_mult.
  assert (GE : growth k (n + 2) = growth k (n - 1) + (1 + growth k (n - 1)) * ((1 + u) ^ 3 - 1)).
  { unfold growth. fold u. replace (n + 2)%nat with ((n - 1) + 3)%nat by lia. rewrite pow_add. ring. }
  rewrite GE. pose proof (growth_nonneg k (n - 1)). assert (Rabs S * Rabs q <= (1 + growth k (n - 1)) * M * ((1 + u) ^ 3 - 1)) by (apply Rmult_le_compat; try apply Rabs_pos; assumption). lra.
Qed.

(** * Sums of ones *)
Definition topWord (k : fkind) : Z := match k with F32 => 1266679808 | F16 => 26624 | BF16 => 17280 end.
Lemma one_word k : word k (oneWord k) /\ finite k (oneWord k) = true.
Proof. destruct k; (split; [unfold word, oneWord; lia|vm_compute; reflexivity]). Qed.
Lemma from_FF p e (x : binary_float p e) m ex : B2FF p e x = F754_finite false m ex -> B2R p e x = IZR (Zpos m) * bpow radix2 ex.
Proof. intros H. rewrite <- FF2R_B2FF, H. reflexivity. Qed.
Lemma one_value k : value k (oneWord k) = 1.
Proof.
  destruct k; unfold value, oneWord.
  - rewrite (from_FF 24 128 _ 8388608 (-23)) by (vm_compute; reflexivity). cbn. lra.
  - rewrite (from_FF 11 16 _ 1024 (-10)) by (vm_compute; reflexivity). cbn. lra.
  - rewrite (from_FF 8 128 _ 128 (-7)) by (vm_compute; reflexivity). cbn. lra.
Qed.
Lemma top_word k : word k (topWord k) /\ finite k (topWord k) = true.
Proof. destruct k; (split; [unfold word, topWord; lia|vm_compute; reflexivity]). Qed.
Lemma top_value k : value k (topWord k) = bpow radix2 (precision k).
Proof.
  destruct k; unfold value, topWord.
  - rewrite (from_FF 24 128 _ 8388608 1) by (vm_compute; reflexivity). cbn. lra.
  - rewrite (from_FF 11 16 _ 1024 1) by (vm_compute; reflexivity). cbn. lra.
  - rewrite (from_FF 8 128 _ 128 1) by (vm_compute; reflexivity). cbn. lra.
Qed.
Lemma top_stays k : fadd k (topWord k) (oneWord k) = topWord k.
Proof. destruct k; vm_compute; reflexivity. Qed.
Lemma top_rnd k : rnd k (bpow radix2 (precision k) + 1) = bpow radix2 (precision k).
Proof.
  destruct (one_step k true _ _ (proj1 (top_word k)) (proj1 (one_word k))) as (_ & Q & _). cbn [fop rop] in Q. rewrite top_stays in Q. destruct (Q (proj2 (top_word k))) as (_ & _ & V).
  rewrite top_value, one_value in V. symmetry. exact V.
Qed.
Lemma int_format k n : (0 <= n <= 2 ^ precision k)%Z -> rnd k (IZR n) = IZR n.
Proof.
  intros H. apply round_generic; [apply valid_rnd_N|]. destruct (Z.eq_dec n (2 ^ precision k)) as [->|NE].
  - change (2 ^ precision k)%Z with (radix_val radix2 ^ precision k)%Z. rewrite IZR_Zpower by (pose proof (prec_pos k); lia). apply generic_format_bpow. unfold FLT_exp. destruct k; cbn; lia.
  - apply generic_format_FLT. exists (Float radix2 n 0); cbn [Fnum Fexp]; [unfold F2R; cbn; ring|change (radix_val radix2) with 2%Z; lia|apply emin_nonpos].
Qed.
Lemma ones_lemma k g : adds k g -> forall n, let w := fold_left g (repeat (oneWord k) n) fzero in
  word k w /\ finite k w = true /\ value k w = IZR (Z.min (Z.of_nat n) (2 ^ precision k)).
Proof.
  intros G. induction n as [|n IH]; cbv zeta in *.
  - split; [apply zero_word|]. split; [apply zero_finite|]. cbn [repeat fold_left]. rewrite zero_value, Z.min_l by (destruct k; cbn; lia). reflexivity.
  - replace (repeat (oneWord k) (S n)) with (repeat (oneWord k) n ++ [oneWord k]) by (rewrite <- repeat_cons; reflexivity). rewrite fold_left_app. cbn [fold_left].
    destruct IH as (W & F & V). set (a := fold_left g (repeat (oneWord k) n) fzero) in *. destruct (one_word k) as [W1 F1]. destruct (adds_step k g a (oneWord k) G W W1) as (S1 & S2 & S3).
    split; [exact S1|]. rewrite V, one_value in S2, S3. set (N := (2 ^ precision k)%Z) in *.
    assert (R : rnd k (IZR (Z.min (Z.of_nat n) N) + 1) = IZR (Z.min (Z.of_nat (S n)) N)).
    { destruct (Z_lt_le_dec (Z.of_nat n) N) as [L|L].
      - rewrite !Z.min_l by lia. rewrite <- plus_IZR. rewrite int_format by (fold N; lia). f_equal. lia.
      - rewrite !Z.min_r by lia. unfold N. change (2 ^ precision k)%Z with (radix_val radix2 ^ precision k)%Z. rewrite IZR_Zpower by (pose proof (prec_pos k); lia). apply top_rnd. }
    rewrite R in S2, S3. assert (FF : finite k (g a (oneWord k)) = true).
    { apply S3; auto. rewrite <- abs_IZR, Z.abs_eq by (unfold N; pose proof (Z.pow_nonneg 2 (precision k)); lia). rewrite <- (IZR_Zpower radix2 (emaxOf k)) by (destruct k; cbn; lia). apply IZR_lt. change (radix_val radix2) with 2%Z.
      eapply Z.le_lt_trans; [apply Z.le_min_r|]. unfold N. apply Z.pow_lt_mono_r; destruct k; cbn; lia. }
    split; [exact FF|]. apply S2 in FF. apply FF.
Qed.
