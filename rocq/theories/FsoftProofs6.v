(** The result against the exact softmax. *)
From Coq Require Import ZArith Reals List Bool Arith Lia Lra Psatz.
From Flocq Require Import Core Plus_error Relative IEEE754.BinarySingleNaN IEEE754.Binary IEEE754.Bits.
From Verif Require Import FloatModel FloatSpec FloatProps Arith16Model Arith16Spec Arith16Proofs Arith16Proofs2 Arith16Proofs3 Arith16Proofs4 AccModel AccSpec AccProofs2 AccProofs3 AccProofs4 FsoftModel FsoftSpec FsoftProofs FsoftProofs2 FsoftProofs3 FsoftProofs4 FsoftProofs5.
Import ListNotations.
Open Scope R_scope.

Lemma exp_le a b : a <= b -> exp a <= exp b.
Proof. intros H. destruct (Rle_lt_or_eq_dec a b H) as [L| ->]; [left; apply exp_increasing; exact L|lra]. Qed.
Lemma tiny32 k : tiny F32 <= tiny k.
Proof. unfold tiny. apply bpow_le. destruct k; cbn; lia. Qed.
Lemma unit_small k : unit k <= 1 / 2.
Proof. replace (1 / 2) with (bpow radix2 (-1)) by (cbn; lra). apply bpow_le. destruct k; cbn; lia. Qed.
Lemma roundedExp_within : exp_within roundedExp (unit F32).
Proof.
  intros x v H L. exists (rndf 24 128 (exp v)). split; [apply roundedExp_num; auto|]. destruct (exp_01 v L) as [P _]. destruct (round_both 24 128 (exp v) ltac:(lia) ltac:(lra)) as (t & Rt & _ & A & B).
  change (bpow radix2 (2 - 128 - 24)) with (tiny F32) in Rt. change (bpow radix2 (- (24))) with (unit F32) in A, B. split; lra.
Qed.

Section Accuracy.
Context (k : fkind) (ex : binary32 -> binary32) (X : exp_ok ex) (eps : R) (E0 : 0 <= eps) (Y : exp_within ex eps) (l : list Z) (W : Forall (word k) l) (P : proper k l) (D : R) (SD : spread k l D) (DB : D <= bpow radix2 (emaxOf k - 1)).
Let mx := fscanMax k l.
Let e (v : Z) := fmath k ex (fsub k v mx).
Let u := unit k.
Let A := (1 + u) * (1 + eps) * exp (u * D).
Let eta := 3 * tiny k.
Definition rel (m : R) (w : Z) : R := match meaning k w with Num v => exp (v - m) | _ => 0 end.
Lemma weight_rel m w : weight k w = exp m * rel m w.
Proof. unfold weight, rel. destruct (meaning k w); try lra. rewrite <- exp_plus. f_equal. lra. Qed.
Lemma total_rel m l' : total (map (weight k) l') = exp m * total (map (rel m) l').
Proof. induction l' as [|w l' IH]; cbn [map]; [cbn; lra|]. rewrite !total_cons, IH, (weight_rel m). ring. Qed.
Lemma D_pos : 0 <= D.
Proof. destruct (mx_num k l W P) as (m & _ & _ & w & I & M). pose proof (SD w w m m I I M M). lra. Qed.
Lemma A_ge1 : 1 <= A.
Proof.
  unfold A. pose proof (unit_pos k) as U. fold u in U. pose proof D_pos. assert (G : 1 <= exp (u * D)) by (rewrite <- exp_0; apply exp_le; nra). rewrite <- (Rmult_1_l 1). apply Rmult_le_compat; try lra. nra.
Qed.
Lemma e_close m w v : meaning k mx = Num m -> In w l -> meaning k (e w) = Num v -> v <= A * rel m w + eta /\ rel m w <= A * (v + eta) /\ 0 <= rel m w.
Proof.
  intros Mm I Ev. pose proof A_ge1 as A1. pose proof (tiny_pos k) as TP. pose proof (tiny32 k) as T32. pose proof (tiny_pos F32) as TP32. pose proof (unit_pos k) as U. pose proof (unit_small k) as US. fold u in U, US. unfold eta.
  destruct (e_num k ex X l W P w I) as (v' & Ev' & Rv). fold mx in Ev'. unfold e in Ev. assert (v' = v) by congruence. subst v'. clear Ev'. unfold rel. destruct P as [PA _]. rewrite Forall_forall in PA. destruct (PA w I) as [Q|[z Q]]; rewrite Q.
  - assert (Z0 : meaning k (fmath k ex (fsub k w mx)) = Num 0) by (apply exp_none; [exact X|apply t_word; assumption|]; apply (sub_ninf k w mx m); auto; [apply (in_word k l W w I)|apply (mx_word k l W)]). assert (v = 0) by congruence. subst v. split; [nra|]. split; nra.
  - destruct (mx_num k l W P) as (m' & Mm' & Um & w0 & I0 & M0). fold mx in Mm'. assert (m' = m) by congruence. subst m'. pose proof (Um w z I Q) as L. pose proof (SD w0 w m z I0 I M0 Q) as LD.
    set (d := z - m). assert (Dd : - D <= d <= 0) by (unfold d; lra).
    assert (R : rnd k (- bpow radix2 (emaxOf k - 1)) = - bpow radix2 (emaxOf k - 1)).
    { apply round_generic; [apply valid_rnd_N|]. apply generic_format_opp. apply format_bpow. destruct k; cbn; lia. }
    assert (Rt : - bpow radix2 (emaxOf k - 1) <= rnd k d <= 0) by (split; [rewrite <- R; apply rnd_le; lra|rewrite <- (rnd_0 k); apply rnd_le; lra]).
    assert (T : meaning k (fsub k w mx) = Num (rnd k d)).
    { rewrite (sub_num k w mx z m (in_word k l W w I) (mx_word k l W) Q Mm L). fold d. rewrite Rlt_bool_true; [reflexivity|]. rewrite Rabs_left1 by lra. apply Rle_lt_trans with (bpow radix2 (emaxOf k - 1)); [lra|apply bpow_lt; lia]. }
    assert (TD : Rabs (rnd k d - d) <= u * D).
    { pose proof Q as Qz. apply meaning_num in Qz. destruct Qz as [_ Vz]. pose proof Mm as Mm2. apply meaning_num in Mm2. destruct Mm2 as [_ Vm].
      destruct (FLT_plus_error_N_ex radix2 (3 - emaxOf k - precision k) (precision k) (fun z => negb (Z.even z)) (value k w) (- value k mx) (value_format k w) (generic_format_opp _ _ _ (value_format k mx))) as (q & Dq & Eq).
      rewrite Vz, Vm in Eq. change (z + - m) with d in Eq. change (round radix2 (FLT_exp (3 - emaxOf k - precision k) (precision k)) (Znearest (fun z0 => negb (Z.even z0))) d) with (rnd k d) in Eq. rewrite Eq. rewrite <- unit_ulp in Dq. fold u in Dq.
      replace (d * (1 + q) - d) with (d * q) by ring. rewrite Rabs_mult. assert (Rabs q <= u) by (eapply Rle_trans; [exact Dq|]; assert (u / (1 + u) * (1 + u) = u) by (field; lra); assert (0 < u / (1 + u)) by (apply Rdiv_lt_0_compat; lra); nra).
      rewrite (Rabs_left1 d) by lra. pose proof (Rabs_pos q). nra. }
    apply Rabs_le_inv in TD. set (t := rnd k d) in *. assert (X1 : exp t <= exp (u * D) * exp d) by (rewrite <- exp_plus; apply exp_le; lra). assert (X2 : exp d <= exp (u * D) * exp t) by (rewrite <- exp_plus; apply exp_le; lra).
    assert (G : 1 <= exp (u * D)) by (rewrite <- exp_0; apply exp_le; pose proof D_pos; nra). set (G' := exp (u * D)) in *. pose proof (exp_pos d) as PD. pose proof (exp_pos t) as PT.
    pose proof (tofloat_same k (fsub k w mx) (t_word k l W w I)) as TF. rewrite T in TF. destruct (Y _ t TF (proj2 Rt)) as (y & Hy & Y1 & Y2).
    destruct (ex_range ex X _ t TF (proj2 Rt)) as (y' & Hy' & Ry). assert (y' = y) by congruence. subst y'.
    assert (V : v = rnd k y).
    { unfold fmath in Ev. rewrite (ffloat_num k _ y Hy) in Ev; [injection Ev as <-; reflexivity|]. apply small_max. pose proof (one_top k). split; [rewrite <- (rnd_0 k); apply rnd_le; lra|]. apply Rle_trans with (rnd k 1); [apply rnd_le; lra|rewrite rnd_1; lra]. }
    assert (Y0 : 0 <= y) by (destruct (ex_range ex X _ t TF (proj2 Rt)) as (y' & Hy'' & Ry'); assert (y' = y) by congruence; subst; lra).
    destruct (round_both (precision k) (emaxOf k) y (prec_pos k) Y0) as (s & Rs & _ & L1 & L2). rewrite <- rnd_rndf, <- V in L1, L2. change (bpow radix2 (- precision k)) with u in L1, L2. change (bpow radix2 (2 - emaxOf k - precision k)) with (tiny k) in Rs.
    assert (V0 : 0 <= v) by lra. fold d. clearbody t d. clear - L1 L2 Rs Y1 Y2 X1 X2 G PD PT U US E0 TP T32 TP32 V0 Y0. unfold A. fold G'. set (T := tiny k) in *. set (T' := tiny F32) in *. set (a := exp d) in *. set (b := exp t) in *. split; [|split; [|lra]].
    + apply Rle_trans with ((1 + u) * ((1 + eps) * (G' * a) + T') + T).
      * apply Rle_trans with ((1 + u) * y + s); [lra|]. apply Rplus_le_compat; [|lra]. apply Rmult_le_compat_l; [lra|]. apply Rle_trans with ((1 + eps) * b + T'); [lra|]. apply Rplus_le_compat_r. apply Rmult_le_compat_l; lra.
      * replace ((1 + u) * (1 + eps) * G' * a) with ((1 + u) * ((1 + eps) * (G' * a))) by ring. nra.
    + apply Rle_trans with (G' * ((1 + eps) * ((1 + u) * v + T) + T)).
      * apply Rle_trans with (G' * b); [lra|]. apply Rmult_le_compat_l; [lra|]. apply Rle_trans with ((1 + eps) * y + T'); [lra|]. apply Rplus_le_compat; [|lra]. apply Rmult_le_compat_l; lra.
      * replace ((1 + u) * (1 + eps) * G' * (v + 3 * T)) with (G' * ((1 + eps) * ((1 + u) * v) + (1 + u) * (1 + eps) * (3 * T))) by ring. apply Rmult_le_compat_l; [lra|]. assert ((1 + eps) * T <= (1 + u) * (1 + eps) * T) by (assert (0 <= (1 + eps) * T) by nra; nra). assert (T <= (1 + eps) * T) by nra. nra.
Qed.
Lemma y_close w : In w l -> exists y, meaning k (softAt k ex l w) = Num y /\ close k (factor k eps D (length l)) y (share k l w).
Proof.
  intros I. destruct (mx_num k l W P) as (m & Mm & Um & w0 & I0 & M0). fold mx in Mm. destruct (s_num k ex X l W P) as (c & Ec & Rc). destruct (e_num k ex X l W P w I) as (v & Ev & Rv). fold mx in Ev.
  destruct (y_num k ex X l W P w v c I Ev Ec) as [Q RQ]. exists (rnd k (v * recipR k c)). split; [exact Q|]. clear Q.
  pose proof (fold_both k (fexps k ex l) fzero 0 (es_unit k ex X l W P) (zero_word k) (zero_num k) ltac:(pose proof (one_top k); lra) c Ec) as [A1 A2].
  assert (LE : length (fexps k ex l) = length l) by apply map_length. rewrite LE in A1, A2. rewrite Rplus_0_l in A1, A2. destruct (recip_both k c Rc) as [B1 B2]. destruct (recip_low k c Rc) as [R1 R2]. pose proof (bpow_gt_0 radix2 (- precision k)) as P0.
  destruct (e_close m w v Mm I Ev) as (C1 & C2 & C3). pose proof A_ge1 as AG. pose proof (tiny_pos k) as TP. pose proof (unit_pos k) as U. fold u in U, A1, A2, B1, B2.
  set (n := length l) in *. set (E := nums k (fexps k ex l)) in *. set (Xs := total (map (rel m) l)). set (x := rel m w) in *. set (r := recipR k c) in *.
  assert (SE : E <= A * Xs + INR n * eta /\ Xs <= A * (E + INR n * eta) /\ 1 <= Xs /\ 1 <= E).
  { assert (G : forall l', (forall w', In w' l' -> In w' l) -> total (map (value k) (map e l')) <= A * total (map (rel m) l') + INR (length l') * eta /\ total (map (rel m) l') <= A * (total (map (value k) (map e l')) + INR (length l') * eta)
        /\ (forall w', In w' l' -> rel m w' <= total (map (rel m) l')) /\ (forall w', In w' l' -> value k (e w') <= total (map (value k) (map e l'))) /\ 0 <= total (map (rel m) l') /\ 0 <= total (map (value k) (map e l'))).
    { induction l' as [|w' l' IH]; intros Sub; [cbn; split; [lra|]; split; [lra|]; split; [intros ? []|]; split; [intros ? []|]; lra|].
      cbn [map length]. rewrite !total_cons, S_INR. destruct (IH (fun z Iz => Sub z (or_intror Iz))) as (I1 & I2 & I3 & I4 & I5 & I6). assert (Iw : In w' l) by (apply Sub; left; reflexivity). destruct (e_num k ex X l W P w' Iw) as (v' & Ev' & Rv'). fold mx in Ev'. destruct (e_close m w' v' Mm Iw Ev') as (K1 & K2 & K3).
      apply meaning_num in Ev'. destruct Ev' as [_ Ev']. fold (e w') in Ev'. rewrite Ev'. split; [lra|]. split; [lra|]. split; [intros z [<-|Iz]; [lra|specialize (I3 z Iz); lra]|]. split; [intros z [<-|Iz]; [lra|specialize (I4 z Iz); lra]|]. split; lra. }
    destruct (G l (fun _ H => H)) as (G1 & G2 & G3 & G4 & _). split; [exact G1|]. split; [exact G2|]. split.
    - apply Rle_trans with (rel m w0); [|apply G3; exact I0]. unfold rel. rewrite M0. rewrite Rminus_diag_eq by reflexivity. rewrite exp_0. lra.
    - destruct (e_max k ex X l W P) as (w1 & Iw1 & _ & E1). fold mx in E1. apply meaning_num in E1. destruct E1 as [_ E1]. fold (e w1) in E1. rewrite <- E1. apply G4. exact Iw1. }
  destruct SE as (S1 & S2 & S3 & S4). assert (SH : share k l w = x / Xs).
  { unfold share. rewrite (total_rel m), (weight_rel m). fold x Xs. pose proof (exp_pos m). field. split; lra. }
  rewrite SH. set (p := x / Xs). assert (PX : x = p * Xs) by (unfold p; field; lra). assert (PP : 0 <= p) by (unfold p; apply Rmult_le_pos; [lra|]; left; apply Rinv_0_lt_compat; lra).
  assert (NE : 0 <= INR n * eta) by (apply Rmult_le_pos; [apply pos_INR|unfold eta; lra]). set (C := A * (1 + INR n * eta)).
  set (N := INR n * eta) in *. assert (AX : 1 <= A * Xs) by nra. assert (X1 : E <= C * Xs).
  { unfold C. replace (A * (1 + N) * Xs) with (A * Xs + (A * Xs) * N) by ring. assert (N <= A * Xs * N) by nra. lra. }
  assert (X2 : Xs <= C * E) by (apply Rle_trans with (A * (E + N)); [exact S2|]; unfold C; rewrite Rmult_assoc; apply Rmult_le_compat_l; [lra|]; nra). assert (CG : 1 <= C) by (unfold C; nra).
  pose proof (pow_ge1 k n) as G1. fold u in G1. set (g := (1 + u) ^ n) in *. set (h := (1 + u) ^ 3) in *. assert (H1 : 1 <= h) by (apply pow_R1_Rle; lra).
  assert (Fm : factor k eps D n = A * C * (g * h * (1 + u))) by (unfold factor; fold u; fold A; rewrite pow_add; fold g; unfold C, N, h, eta; ring). rewrite Fm.
  assert (V0 : 0 <= v * r) by nra. destruct (round_both (precision k) (emaxOf k) (v * r) (prec_pos k) V0) as (t & Rt & _ & L1 & L2). rewrite <- rnd_rndf in L1, L2. change (bpow radix2 (- precision k)) with u in L1, L2. change (bpow radix2 (2 - emaxOf k - precision k)) with (tiny k) in Rt.
  set (y := rnd k (v * r)) in *. set (T := tiny k) in *. assert (r0 : 0 < r) by lra. clearbody y p. unfold close. fold T. assert (ET : eta = 3 * T) by reflexivity.
  (* r Xs <= h g C and 1 <= h g C r Xs *)
  assert (RX : 1 <= C * (g * h) * (r * Xs)).
  { apply Rle_trans with (h * (r * c)); [exact B1|]. replace (C * (g * h) * (r * Xs)) with (h * (r * (g * (C * Xs)))) by ring. apply Rmult_le_compat_l; [lra|]. apply Rmult_le_compat_l; [lra|]. apply Rle_trans with (g * E); [exact A2|]. apply Rmult_le_compat_l; lra. }
  assert (XR : r * Xs <= C * (g * h)).
  { apply Rle_trans with (r * (C * (g * c))); [apply Rmult_le_compat_l; [lra|]; apply Rle_trans with (C * E); [exact X2|]; apply Rmult_le_compat_l; lra|]. replace (r * (C * (g * c))) with (C * g * (r * c)) by ring. rewrite <- (Rmult_assoc C g h). apply Rmult_le_compat_l; [nra|exact B2]. }
  assert (GH : 1 <= g * h) by nra. set (Kf := C * (g * h)) in *. assert (K1 : 1 <= Kf) by (unfold Kf; nra). replace (A * C * (g * h * (1 + u))) with (A * Kf * (1 + u)) by (unfold Kf; ring).
  assert (AK : 1 <= A * Kf) by nra. assert (AKu : 1 <= A * Kf * (1 + u)) by nra. split.
  - (* y <= M (p + 4T) *)
    assert (VR : v * r <= A * (p * Kf) + eta * r).
    { apply Rle_trans with ((A * x + eta) * r); [apply Rmult_le_compat_r; lra|]. rewrite PX. replace ((A * (p * Xs) + eta) * r) with (A * (p * (r * Xs)) + eta * r) by ring. apply Rplus_le_compat_r. apply Rmult_le_compat_l; [lra|]. apply Rmult_le_compat_l; lra. }
    apply Rle_trans with ((1 + u) * (A * (p * Kf) + eta * r) + T); [apply Rle_trans with ((1 + u) * (v * r) + t); [exact L2|]; apply Rplus_le_compat; [apply Rmult_le_compat_l; lra|lra]|].
    assert (ER : eta * r <= A * Kf * (3 * T)) by (rewrite ET; apply Rle_trans with (1 * (3 * T)); [nra|apply Rmult_le_compat_r; lra]). assert (TT : T <= A * Kf * (1 + u) * T) by (rewrite <- (Rmult_1_l T) at 1; apply Rmult_le_compat_r; lra). assert (UE : (1 + u) * (eta * r) <= (1 + u) * (A * Kf * (3 * T))) by (apply Rmult_le_compat_l; lra). replace (A * Kf * (1 + u) * (p + 4 * T)) with ((1 + u) * (A * (p * Kf)) + (1 + u) * (A * Kf * (3 * T)) + A * Kf * (1 + u) * T) by ring. rewrite Rmult_plus_distr_l. apply Rplus_le_compat; [apply Rplus_le_compat_l; exact UE|exact TT].
  - (* p <= M (y + 4T) *)
    assert (PR : p <= Kf * (r * x)) by (rewrite PX; replace (Kf * (r * (p * Xs))) with (p * (Kf * (r * Xs))) by ring; rewrite <- (Rmult_1_r p) at 1; apply Rmult_le_compat_l; lra).
    assert (RX2 : r * x <= A * ((1 + u) * y + T + 3 * T)).
    { apply Rle_trans with (r * (A * (v + eta))); [apply Rmult_le_compat_l; lra|]. replace (r * (A * (v + eta))) with (A * (v * r + eta * r)) by ring. apply Rmult_le_compat_l; [lra|]. rewrite ET. assert (3 * T * r <= 3 * T) by nra. lra. }
    apply Rle_trans with (Kf * (A * ((1 + u) * y + T + 3 * T))); [apply Rle_trans with (Kf * (r * x)); [exact PR|apply Rmult_le_compat_l; lra]|]. replace (A * Kf * (1 + u) * (y + 4 * T)) with (Kf * (A * ((1 + u) * y + (1 + u) * (4 * T)))) by ring. apply Rmult_le_compat_l; [lra|]. apply Rmult_le_compat_l; [lra|]. nra.
Qed.
End Accuracy.
