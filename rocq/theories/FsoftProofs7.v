(** Log-softmax against its exact value. *)
From Coq Require Import ZArith Reals List Bool Arith Lia Lra Psatz.
From Flocq Require Import Core Plus_error Relative IEEE754.BinarySingleNaN IEEE754.Binary IEEE754.Bits.
From Verif Require Import FloatModel FloatSpec FloatProps Arith16Model Arith16Spec Arith16Proofs Arith16Proofs2 Arith16Proofs3 Arith16Proofs4 AccModel AccSpec AccProofs2 AccProofs3 AccProofs4 FsoftModel FsoftSpec FsoftSpec2 FsoftProofs FsoftProofs2 FsoftProofs3 FsoftProofs4 FsoftProofs5 FsoftProofs6.
Import ListNotations.
Open Scope R_scope.

(** One subtraction of numbers in order. *)
Lemma sub_rel k x y a b : meaning k x = Num a -> meaning k y = Num b -> a <= b -> - rnd k (a - b) <= (1 + unit k) * (b - a) /\ b - a <= (1 + unit k) * (- rnd k (a - b)).
Proof.
  intros Hx Hy L. apply meaning_num in Hx, Hy. destruct Hx as [_ Vx], Hy as [_ Vy]. pose proof (unit_pos k) as U.
  destruct (FLT_plus_error_N_ex radix2 (3 - emaxOf k - precision k) (precision k) (fun z => negb (Z.even z)) (value k x) (- value k y) (value_format k x) (generic_format_opp _ _ _ (value_format k y))) as (q & Dq & Eq).
  rewrite Vx, Vy in Eq. change (a + - b) with (a - b) in Eq. change (round radix2 (FLT_exp (3 - emaxOf k - precision k) (precision k)) (Znearest (fun z0 => negb (Z.even z0))) (a - b)) with (rnd k (a - b)) in Eq. rewrite Eq. rewrite <- unit_ulp in Dq.
  set (u := unit k) in *. assert (Hu : u / (1 + u) * (1 + u) = u) by (field; lra). assert (0 < u / (1 + u)) by (apply Rdiv_lt_0_compat; lra). set (h := u / (1 + u)) in *. apply Rabs_le_inv in Dq. clearbody h. clear - L Dq Hu H U. set (d := b - a). replace (a - b) with (- d) by (unfold d; ring). assert (0 <= d) by (unfold d; lra). clearbody d. assert (h <= u) by nra. split.
  - replace (- (- d * (1 + q))) with (d * (1 + q)) by ring. nra.
  - replace (- (- d * (1 + q))) with (d * (1 + q)) by ring. assert (1 <= (1 + u) * (1 + q)) by nra. nra.
Qed.
Lemma roundedLog_num x v : read x = Num v -> 1 <= v -> read (roundedLog x) = Num (rndf 24 128 (ln v)) /\ 0 <= ln v.
Proof.
  intros H L. assert (E : roundedLog x = nearest (ln v)) by (destruct x as [s|s|s pl h|s m e h]; cbn [read] in H; try discriminate; injection H as <-; [lra|reflexivity]).
  assert (B : 0 <= ln v <= v).
  { split; [rewrite <- ln_1; destruct (Rle_lt_or_eq_dec 1 v L) as [Q| <-]; [left; apply ln_increasing; lra|lra]|]. rewrite <- (ln_exp v) at 2. left. apply ln_increasing; [lra|]. pose proof (exp_ineq1 v ltac:(lra)). lra. }
  split; [|apply B]. rewrite E. apply nearest_num.
  assert (G : rndf 24 128 v = v) by (apply (rnd_num F32 (bits_of_b32 x)); cbn [meaning]; rewrite bits_back; exact H). assert (R : 0 <= rndf 24 128 (ln v) <= v).
  { split; [rewrite <- (rnd_0 F32); apply (rnd_le F32); lra|]. rewrite <- G at 2. apply rndf_le; [lia|lra]. }
  apply (small128 _ v); [exact R|]. apply read_num in H. destruct H as [_ <-]. pose proof (abs_B2R_lt_emax 24 128 x) as K. eapply Rle_lt_trans; [apply Rle_abs|exact K].
Qed.
Lemma roundedLog_within : log_within roundedLog (unit F32).
Proof.
  intros x v H L. destruct (roundedLog_num x v H L) as [E B]. exists (rndf 24 128 (ln v)). split; [exact E|]. destruct (round_both 24 128 (ln v) ltac:(lia) B) as (t & Rt & _ & A1 & A2).
  change (bpow radix2 (2 - 128 - 24)) with (tiny F32) in Rt. change (bpow radix2 (- (24))) with (unit F32) in A1, A2. split; lra.
Qed.

Section Accuracy.
Context (k : fkind) (ex : binary32 -> binary32) (X : exp_ok ex) (eps : R) (E0 : 0 <= eps) (Y : exp_within ex eps) (l : list Z) (W : Forall (word k) l) (P : proper k l) (D : R) (SD : spread k l D) (DB : D <= bpow radix2 (emaxOf k - 1)).
Context (lg : binary32 -> binary32) (L : log_ok lg) (epl : R) (EL : 0 <= epl) (LW : log_within lg epl).
Let mx := fscanMax k l.
Let e (v : Z) := fmath k ex (fsub k v mx).
Let s := fexpSum k ex l.
Let ls := fmath k lg s.
Let u := unit k.
Let A := (1 + u) * (1 + eps) * exp (u * D).
Let K := sumFactor k eps D (length l).
Lemma sum_close m c : meaning k mx = Num m -> meaning k s = Num c -> c <= K * total (map (rel k m) l) /\ total (map (rel k m) l) <= K * c /\ 1 <= total (map (rel k m) l) /\ 1 <= K.
Proof.
  intros Mm Ec. destruct (mx_num k l W P) as (m' & Mm' & Um & w0 & I0 & M0). fold mx in Mm'. assert (m' = m) by congruence. subst m'. clear Mm'.
  pose proof (fold_both k (fexps k ex l) fzero 0 (es_unit k ex X l W P) (zero_word k) (zero_num k) ltac:(pose proof (one_top k); lra) c Ec) as [A1 A2].
  assert (LE : length (fexps k ex l) = length l) by apply map_length. rewrite LE in A1, A2. rewrite Rplus_0_l in A1, A2. pose proof (A_ge1 k eps E0 l W P D SD) as AG. fold u in AG. fold A in AG. pose proof (tiny_pos k) as TP. pose proof (unit_pos k) as U. fold u in U, A1, A2.
  set (n := length l) in *. set (E := nums k (fexps k ex l)) in *. set (Xs := total (map (rel k m) l)). set (eta := 3 * tiny k).
  assert (SE : E <= A * Xs + INR n * eta /\ Xs <= A * (E + INR n * eta) /\ 1 <= Xs /\ 1 <= E).
  { assert (G : forall l', (forall w', In w' l' -> In w' l) -> total (map (value k) (map e l')) <= A * total (map (rel k m) l') + INR (length l') * eta /\ total (map (rel k m) l') <= A * (total (map (value k) (map e l')) + INR (length l') * eta)
        /\ (forall w', In w' l' -> rel k m w' <= total (map (rel k m) l')) /\ (forall w', In w' l' -> value k (e w') <= total (map (value k) (map e l'))) /\ 0 <= total (map (rel k m) l') /\ 0 <= total (map (value k) (map e l'))).
    { induction l' as [|w' l' IH]; intros Sub; [cbn; split; [lra|]; split; [lra|]; split; [intros ? []|]; split; [intros ? []|]; lra|].
      cbn [map length]. rewrite !total_cons, S_INR. destruct (IH (fun z Iz => Sub z (or_intror Iz))) as (I1 & I2 & I3 & I4 & I5 & I6). assert (Iw : In w' l) by (apply Sub; left; reflexivity). destruct (e_num k ex X l W P w' Iw) as (v' & Ev' & Rv'). fold mx in Ev'.
      destruct (e_close k ex X eps E0 Y l W P D SD DB m w' v' Mm Iw Ev') as (K1 & K2 & K3). fold u in K1, K2. fold A in K1, K2. fold eta in K1, K2.
      apply meaning_num in Ev'. destruct Ev' as [_ Ev']. fold (e w') in Ev'. rewrite Ev'. split; [lra|]. split; [lra|]. split; [intros z [<-|Iz]; [lra|specialize (I3 z Iz); lra]|]. split; [intros z [<-|Iz]; [lra|specialize (I4 z Iz); lra]|]. split; lra. }
    destruct (G l (fun _ H => H)) as (G1 & G2 & G3 & G4 & _). split; [exact G1|]. split; [exact G2|]. split.
    - apply Rle_trans with (rel k m w0); [|apply G3; exact I0]. unfold rel. rewrite M0. rewrite Rminus_diag_eq by reflexivity. rewrite exp_0. lra.
    - destruct (e_max k ex X l W P) as (w1 & Iw1 & _ & E1). fold mx in E1. apply meaning_num in E1. destruct E1 as [_ E1]. fold (e w1) in E1. rewrite <- E1. apply G4. exact Iw1. }
  destruct SE as (S1 & S2 & S3 & S4). assert (NE : 0 <= INR n * eta) by (apply Rmult_le_pos; [apply pos_INR|unfold eta; lra]). set (C := A * (1 + INR n * eta)).
  set (N := INR n * eta) in *. assert (AX : 1 <= A * Xs) by nra. assert (X1 : E <= C * Xs).
  { unfold C. replace (A * (1 + N) * Xs) with (A * Xs + (A * Xs) * N) by ring. assert (N <= A * Xs * N) by nra. lra. }
  assert (X2 : Xs <= C * E) by (apply Rle_trans with (A * (E + N)); [exact S2|]; unfold C; rewrite Rmult_assoc; apply Rmult_le_compat_l; [lra|]; nra). assert (CG : 1 <= C) by (unfold C; nra).
  pose proof (pow_ge1 k n) as G1. fold u in G1. set (g := (1 + u) ^ n) in *. assert (KE : K = C * g) by (unfold K, sumFactor; fold n; fold u; fold A; fold g; unfold C, N, eta; ring). rewrite KE. split; [|split; [|split; [exact S3|nra]]].
  - apply Rle_trans with (g * E); [exact A2|]. replace (C * g * Xs) with (g * (C * Xs)) by ring. apply Rmult_le_compat_l; lra.
  - apply Rle_trans with (C * E); [exact X2|]. rewrite Rmult_assoc. apply Rmult_le_compat_l; lra.
Qed.
Lemma ln_le a b : 0 < a -> a <= b -> ln a <= ln b.
Proof. intros H [Q| ->]; [left; apply ln_increasing; assumption|lra]. Qed.
Lemma z_close w v : In w l -> meaning k w = Num v -> (forall w' v', In w' l -> meaning k w' = Num v' -> Rabs v' <= bpow radix2 (emaxOf k - 2)) ->
  exists y, meaning k (logAt k ex lg l w) = Num y /\ near ((1 + u) ^ 2 * (1 + epl)) (ln K + 2 * tiny k) (- y) (ln (total (map (weight k) l)) - v).
Proof.
  intros I M B. destruct (z_num k ex X l W lg L w v P I M B) as (y & Z & _). exists y. split; [exact Z|].
  destruct (mx_num k l W P) as (m & Mm & Um & w0 & I0 & M0). fold mx in Mm. pose proof (Um w v I M) as Lm. destruct (s_num k ex X l W P) as (c & Ec & Rc). fold s in Ec.
  destruct (sum_close m c Mm Ec) as (K1 & K2 & K3 & K4). set (Xs := total (map (rel k m) l)) in *.
  pose proof (tofloat_same k s (s_word k ex l)) as TF. rewrite Ec in TF. destruct (LW _ c TF (proj1 Rc)) as (q & Hq & Q1 & Q2). destruct (lg_range lg L _ c TF (proj1 Rc)) as (q' & Hq' & Rq). assert (q' = q) by congruence. subst q'.
  assert (R0 : 0 <= rnd k q <= top k) by (split; [rewrite <- (rnd_0 k); apply rnd_le; lra|eapply Rle_trans; [|apply Rc]; rewrite <- (rnd_num k s c Ec); apply rnd_le; lra]).
  assert (G : meaning k ls = Num (rnd k q)) by (apply ffloat_num; [exact Hq|]; apply small_max; exact R0).
  destruct (round_both (precision k) (emaxOf k) q (prec_pos k) (proj1 Rq)) as (t0 & Rt & _ & L1 & L2). rewrite <- rnd_rndf in L1, L2. change (bpow radix2 (- precision k)) with u in L1, L2. change (bpow radix2 (2 - emaxOf k - precision k)) with (tiny k) in Rt.
  (* the two subtractions *)
  unfold logAt in Z. fold mx in Z. fold s in Z. fold ls in Z. pose proof (sub_num k w mx v m (in_word k l W w I) (mx_word k l W) M Mm Lm) as T.
  destruct (Rlt_bool (Rabs (rnd k (v - m))) (bpow radix2 (emaxOf k))) eqn:TB.
  2:{ assert (Z' : meaning k (fsub k (fsub k w mx) ls) = Inf true) by exact (sub_ninf k _ ls (rnd k q) (t_word k l W w I) (ls_word k ex l lg) T G). rewrite Z' in Z. discriminate. }
  set (t := rnd k (v - m)) in *. assert (T0 : t <= 0) by (unfold t; rewrite <- (rnd_0 k); apply rnd_le; lra). pose proof (sub_num k _ ls t (rnd k q) (t_word k l W w I) (ls_word k ex l lg) T G ltac:(lra)) as Zs. fold mx in Zs. rewrite Z in Zs. destruct (Rlt_bool _ _) in Zs; [|discriminate]. injection Zs as ->.
  destruct (sub_rel k w mx v m M Mm Lm) as [U1 U2]. fold t in U1, U2. destruct (sub_rel k _ ls t (rnd k q) T G ltac:(lra)) as [V1 V2]. fold u in U1, U2, V1, V2. set (y := rnd k (t - rnd k q)) in *.
  assert (ZX : ln (total (map (weight k) l)) - v = (m - v) + ln Xs).
  { rewrite (total_rel k m). fold Xs. rewrite ln_mult by (try apply exp_pos; lra). rewrite ln_exp. lra. }
  rewrite ZX. assert (C0 : 0 < c) by lra. assert (X0 : 0 < Xs) by lra. assert (K0 : 0 < K) by lra.
  assert (N1 : ln c <= ln K + ln Xs) by (rewrite <- ln_mult by assumption; apply ln_le; assumption). assert (N2 : ln Xs <= ln K + ln c) by (rewrite <- ln_mult by assumption; apply ln_le; assumption).
  assert (LX : 0 <= ln Xs) by (rewrite <- ln_1; apply ln_le; lra). assert (LK : 0 <= ln K) by (rewrite <- ln_1; apply ln_le; lra). assert (LC : 0 <= ln c) by (rewrite <- ln_1; apply ln_le; lra).
  pose proof (tiny32 k) as T32. pose proof (tiny_pos F32) as TP32. pose proof (unit_pos k) as UP. fold u in UP. set (lx := ln Xs) in *. set (lk := ln K) in *. set (lc := ln c) in *. set (g := rnd k q) in *. set (TT := tiny k) in *. set (T3 := tiny F32) in *. set (d := m - v) in *. assert (d0 : 0 <= d) by (unfold d; lra).
  clearbody lx lk lc g TT T3 t y d u. clear - U1 U2 V1 V2 L1 L2 Rt Q1 Q2 N1 N2 LX LK LC T32 TP32 UP EL T0 d0 Rq R0. set (ev := - y) in *. assert (VV1 : ev <= (1 + u) * (g - t)) by exact V1. assert (VV2 : g - t <= (1 + u) * ev) by exact V2. clearbody ev. clear V1 V2. unfold near. set (o := 1 + u) in *. set (f := 1 + epl) in *. assert (O1 : 1 <= o) by (unfold o; lra). assert (F1 : 1 <= f) by (unfold f; lra). clearbody o f. assert (TT0 : 0 <= TT) by lra.
  split.
  - assert (B1 : g <= o * (f * (lx + lk) + TT) + TT).
    { apply Rle_trans with (o * q + t0); [exact L2|]. apply Rplus_le_compat; [|lra]. apply Rmult_le_compat_l; [lra|]. apply Rle_trans with (f * lc + T3); [exact Q1|]. apply Rplus_le_compat; [|lra]. apply Rmult_le_compat_l; lra. }
    assert (B2 : o * (f * (lx + lk) + TT) + TT <= o * (f * (lx + lk + 2 * TT))).
    { assert (TT <= f * TT) by nra. assert (TT <= o * (f * TT)) by nra. replace (o * (f * (lx + lk + 2 * TT))) with (o * (f * (lx + lk) + f * TT) + o * (f * TT)) by ring. apply Rplus_le_compat; [|lra]. apply Rmult_le_compat_l; lra. }
    assert (B3 : - t <= o * (f * d)) by (apply Rle_trans with (o * d); [exact U1|]; apply Rmult_le_compat_l; [lra|]; nra).
    apply Rle_trans with (o * (o * (f * d) + o * (f * (lx + lk + 2 * TT)))); [apply Rle_trans with (o * (g - t)); [exact VV1|]; apply Rmult_le_compat_l; lra|]. right. ring.
  - assert (B1 : lx <= f * (o * g + TT) + TT + lk).
    { assert (f * q <= f * (o * g + TT)) by (apply Rmult_le_compat_l; lra). lra. }
    assert (B3 : d <= f * (o * (- t))) by (apply Rle_trans with (o * (- t)); [exact U2|]; assert (0 <= o * - t) by nra; nra).
    assert (B4 : f * o * (g - t) <= f * o * (o * ev)) by (apply Rmult_le_compat_l; [nra|exact VV2]). assert (FO : 1 <= f * o) by nra. assert (FOO : f <= o ^ 2 * f) by (assert (1 <= o ^ 2) by (cbn; nra); nra). assert (FO1 : 1 <= o ^ 2 * f) by lra.
    assert (B5 : f * TT + TT + lk <= o ^ 2 * f * (lk + 2 * TT)) by (assert (f * TT <= o ^ 2 * f * TT) by (apply Rmult_le_compat_r; lra); assert (TT <= o ^ 2 * f * TT) by (rewrite <- (Rmult_1_l TT) at 1; apply Rmult_le_compat_r; lra); assert (lk <= o ^ 2 * f * lk) by (rewrite <- (Rmult_1_l lk) at 1; apply Rmult_le_compat_r; lra); lra).
    replace (o ^ 2 * f * (ev + (lk + 2 * TT))) with (f * o * (o * ev) + o ^ 2 * f * (lk + 2 * TT)) by ring. replace (f * o * (g - t)) with (f * (o * g) + f * (o * - t)) in B4 by ring. lra.
Qed.
End Accuracy.
