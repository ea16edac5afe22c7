(** Equal elements; functions that behave like the exponential and the logarithm. *)
From Coq Require Import ZArith Reals List Bool Arith Lia Lra Psatz.
From Flocq Require Import Core Plus_error Relative IEEE754.BinarySingleNaN IEEE754.Binary IEEE754.Bits.
From Verif Require Import FloatModel FloatSpec FloatProps Arith16Model Arith16Spec Arith16Proofs Arith16Proofs2 Arith16Proofs3 Arith16Proofs4 AccModel AccSpec AccProofs2 AccProofs3 AccProofs4 FsoftModel FsoftSpec FsoftProofs FsoftProofs2 FsoftProofs3 FsoftProofs4.
Import ListNotations.
Open Scope R_scope.

Lemma top_IZR k : top k = IZR (2 ^ precision k).
Proof. unfold top. rewrite <- (IZR_Zpower radix2) by (pose proof (prec_pos k); lia). reflexivity. Qed.
Lemma fold_ones k : forall l s j, (0 <= j <= 2 ^ precision k)%Z -> Forall (fun w => word k w /\ meaning k w = Num 1) l -> word k s -> meaning k s = Num (IZR j) ->
  meaning k (fold_left (fadd k) l s) = Num (IZR (Z.min (j + Z.of_nat (length l)) (2 ^ precision k))).
Proof.
  induction l as [|w l IH]; intros s j J H W M; cbn [fold_left length].
  - rewrite M. do 2 f_equal. lia.
  - inversion H as [|? ? [Ww Mw] Hl]; subst. set (N := (2 ^ precision k)%Z) in *. assert (A : meaning k (fadd k s w) = Num (IZR (Z.min (j + 1) N))).
    { assert (R : rnd k (IZR j + 1) = IZR (Z.min (j + 1) N)).
      { destruct (Z_lt_le_dec j N) as [L|L].
        - rewrite Z.min_l by lia. rewrite <- plus_IZR. apply int_format. fold N. lia.
        - assert (j = N) by lia. subst j. rewrite Z.min_r by lia. unfold N. rewrite <- (top_IZR k). apply top_rnd. }
      rewrite <- R. apply add_num; auto. rewrite R. apply small_max. rewrite top_IZR. fold N. split; apply IZR_le; lia. }
    rewrite (IH (fadd k s w) (Z.min (j + 1) N)) by (auto; try lia; apply fadd_word; auto). do 2 f_equal. rewrite Nat2Z.inj_succ. lia.
Qed.
Lemma equal_line k ex l c w : exp_ok ex -> Forall (word k) l -> Forall (fun w => meaning k w = Num c) l -> In w l -> (2 ^ precision k <= Z.of_nat (length l))%Z -> meaning k (softAt k ex l w) = Num (bpow radix2 (- precision k)).
Proof.
  intros X W C I N. assert (P : proper k l).
  { split; [eapply Forall_impl; [|exact C]; intros a Ha; right; exists c; exact Ha|]. apply Exists_exists. exists w. split; [exact I|]. rewrite Forall_forall in C. exists c. apply C. exact I. }
  assert (E : forall v, In v l -> meaning k (fmath k ex (fsub k v (fscanMax k l))) = Num 1).
  { intros v Iv. rewrite Forall_forall in C. destruct (mx_num k l W P) as (m & Mm & _ & w0 & I0 & M0). assert (m = c) by (rewrite (C w0 I0) in M0; congruence). subst m.
    apply exp_one; [exact X|apply t_word; assumption|]. rewrite (sub_num k v (fscanMax k l) c c (in_word k l W v Iv) (mx_word k l W) (C v Iv) Mm ltac:(lra)). rewrite Rminus_diag_eq by reflexivity. rewrite rnd_0, Rabs_R0, Rlt_bool_true by apply bpow_gt_0. reflexivity. }
  assert (S : meaning k (fexpSum k ex l) = Num (top k)).
  { unfold fexpSum. rewrite (fold_ones k (fexps k ex l) fzero 0); [|pose proof (Z.pow_nonneg 2 (precision k)); lia| |apply zero_word|apply zero_num].
    - rewrite top_IZR. do 2 f_equal. unfold fexps. cbv zeta. rewrite map_length. lia.
    - apply Forall_forall. intros x Ix. apply in_map_iff in Ix. destruct Ix as (v & <- & Iv). split; [apply ffloat_word|apply E; exact Iv]. }
  destruct (y_num k ex X l W P w 1 (top k) I (E w I) S) as [Q _]. rewrite Q. f_equal. rewrite Rmult_1_l. assert (R : 1 / top k = bpow radix2 (- precision k)) by (rewrite bpow_opp; unfold top, Rdiv; ring).
  unfold recipR. rewrite R. rewrite (rndf_bpow 53 1024), (rndf_bpow 24 128) by (destruct k; cbn; lia). rewrite !rnd_bpow by (destruct k; cbn; lia). reflexivity.
Qed.

(** * The correctly rounded exponential and logarithm *)
Definition nearest (v : R) : binary32 := let fe := FLT_exp (3 - 128 - 24) 24 in binary_normalize 24 128 eq_refl eq_refl mode_NE (ZnearestE (scaled_mantissa radix2 fe v)) (cexp radix2 fe v) false.
Lemma nearest_num v : Rabs (rndf 24 128 v) < bpow radix2 128 -> read (nearest v) = Num (rndf 24 128 v).
Proof.
  intros B. unfold nearest. cbv zeta. set (fe := FLT_exp (3 - 128 - 24) 24). pose proof (binary_normalize_correct 24 128 eq_refl eq_refl mode_NE (ZnearestE (scaled_mantissa radix2 fe v)) (cexp radix2 fe v) false) as C.
  cbn [round_mode] in C. change (SpecFloat.fexp 24 128) with fe in C. change (F2R {| Fnum := ZnearestE (scaled_mantissa radix2 fe v); Fexp := cexp radix2 fe v |}) with (rndf 24 128 v) in C.
  assert (G : round radix2 fe ZnearestE (rndf 24 128 v) = rndf 24 128 v).
  { apply round_generic; [apply valid_rnd_N|]. apply generic_format_round; [apply FLT_exp_valid; reflexivity|apply valid_rnd_N]. }
  rewrite G, (Rlt_bool_true _ _ B) in C. apply read_num. tauto.
Qed.
Definition roundedExp (x : binary32) : binary32 :=
  match x with B754_nan _ _ _ _ _ => x | B754_infinity _ _ true => B754_zero 24 128 false | B754_infinity _ _ false => x | _ => nearest (exp (B2R 24 128 x)) end.
Definition roundedLog (x : binary32) : binary32 :=
  match x with B754_nan _ _ _ _ _ => x | B754_infinity _ _ _ => x | B754_zero _ _ _ => B754_infinity 24 128 true | _ => nearest (ln (B2R 24 128 x)) end.
Lemma rndf_01 y : 0 <= y <= 1 -> 0 <= rndf 24 128 y <= 1.
Proof. intros H. rewrite <- (rnd_0 F32), <- (rnd_1 F32) at 1. split; apply (rnd_le F32); apply H. Qed.
Lemma small128 y b : 0 <= y <= b -> b < bpow radix2 128 -> Rabs y < bpow radix2 128.
Proof. intros H B. rewrite Rabs_pos_eq by lra. lra. Qed.
Lemma one128 : 1 < bpow radix2 128.
Proof. exact (one_lt_max F32). Qed.
Lemma exp_01 v : v <= 0 -> 0 < exp v <= 1.
Proof. intros H. split; [apply exp_pos|]. rewrite <- exp_0. destruct (Rle_lt_or_eq_dec v 0 H) as [L| ->]; [left; apply exp_increasing; exact L|right; reflexivity]. Qed.
Lemma roundedExp_num x v : read x = Num v -> v <= 0 -> read (roundedExp x) = Num (rndf 24 128 (exp v)).
Proof.
  intros H L. assert (E : roundedExp x = nearest (exp v)) by (destruct x as [s|s|s pl h|s m e h]; cbn [read] in H; try discriminate; injection H as <-; reflexivity). rewrite E. apply nearest_num.
  destruct (exp_01 v L). apply (small128 _ 1); [apply rndf_01; lra|apply one128].
Qed.
Lemma roundedExp_ok : exp_ok roundedExp.
Proof.
  split.
  - intros x H. destruct x; try discriminate. exact H.
  - intros x H. apply read_inf in H. subst x. reflexivity.
  - intros x H. rewrite (roundedExp_num x 0 H) by lra. rewrite exp_0. f_equal. exact (rnd_1 F32).
  - intros x v H L. exists (rndf 24 128 (exp v)). split; [apply roundedExp_num; auto|]. apply rndf_01. destruct (exp_01 v L). lra.
  - intros x x' v v' y y' H H' [L L'] Y Y'. rewrite (roundedExp_num x v) in Y by (auto; lra). rewrite (roundedExp_num x' v') in Y' by (auto; lra). injection Y as <-. injection Y' as <-. apply rndf_le; [lia|].
    destruct (Rle_lt_or_eq_dec v v' L) as [Q| ->]; [left; apply exp_increasing; exact Q|lra].
Qed.
Lemma roundedLog_ok : log_ok roundedLog.
Proof.
  split.
  - intros x H. destruct x; try discriminate. exact H.
  - intros x H. apply read_num in H. destruct H as [F V]. destruct x as [s|s|s pl h|s m e h]; try discriminate; [reflexivity|]. exfalso. exact (nonzero _ _ _ _ _ _ V).
  - intros x v H L. assert (E : roundedLog x = nearest (ln v)) by (destruct x as [s|s|s pl h|s m e h]; cbn [read] in H; try discriminate; injection H as <-; [lra|reflexivity]). rewrite E.
    assert (B : 0 <= ln v <= v).
    { split; [rewrite <- ln_1; destruct (Rle_lt_or_eq_dec 1 v L) as [Q| <-]; [left; apply ln_increasing; lra|lra]|]. rewrite <- (ln_exp v) at 2. left. apply ln_increasing; [lra|]. pose proof (exp_ineq1 v ltac:(lra)). lra. }
    assert (G : rndf 24 128 v = v) by (apply (rnd_num F32 (bits_of_b32 x)); cbn [meaning]; rewrite bits_back; exact H). assert (R : 0 <= rndf 24 128 (ln v) <= v).
    { split; [rewrite <- (rnd_0 F32); apply (rnd_le F32); lra|]. rewrite <- G at 2. apply rndf_le; [lia|lra]. }
    exists (rndf 24 128 (ln v)). split; [|exact R]. apply nearest_num. apply (small128 _ v); [exact R|]. apply read_num in H. destruct H as [_ <-]. pose proof (abs_B2R_lt_emax 24 128 x) as K. eapply Rle_lt_trans; [apply Rle_abs|exact K].
Qed.

(** * Overflow of a difference *)
Lemma log_overflow ex lg : exp_ok ex -> log_ok lg -> let l := [2139095039; 4286578687]%Z in meaning F32 (logAt F32 ex lg l 4286578687) = Inf true.
Proof.
  intros X L. cbv zeta. set (l := [2139095039; 4286578687]%Z). assert (W : Forall (word F32) l) by (repeat constructor; discriminate).
  assert (N : forall w, In w l -> exists v, meaning F32 w = Num v).
  { intros w [<-|[<-|[]]]; eexists; apply meaning_num; (split; [vm_compute; reflexivity|reflexivity]). }
  assert (P : proper F32 l) by (split; [apply Forall_forall; intros w I; right; apply N; exact I|apply Exists_exists; exists 2139095039%Z; split; [left; reflexivity|apply N; left; reflexivity]]).
  destruct (ls_num F32 ex X l W lg L P) as (g & G & _). unfold logAt. apply (sub_ninf F32 _ _ g); [apply fsub_word; [inversion W as [|? ? ? W']; inversion W'; assumption|apply mx_word; exact W]|apply ffloat_word| |exact G].
  cbn [meaning]. apply read_inf. vm_compute. reflexivity.
Qed.
