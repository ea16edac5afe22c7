(** The reciprocal, and the largest element. *)
From Coq Require Import ZArith Reals List Bool Arith Lia Lra Psatz.
From Flocq Require Import Core Plus_error Relative IEEE754.BinarySingleNaN IEEE754.Binary IEEE754.Bits.
From Verif Require Import FloatModel FloatSpec FloatProps Arith16Model Arith16Spec Arith16Proofs Arith16Proofs2 Arith16Proofs3 Arith16Proofs4 AccModel AccSpec AccProofs2 AccProofs3 AccProofs4 FsoftModel FsoftSpec FsoftProofs FsoftProofs2.
Import ListNotations.
Open Scope R_scope.

(** * One rounding, both ways *)
Definition rndf (p e : Z) (v : R) : R := round radix2 (FLT_exp (3 - e - p) p) ZnearestE v.
Lemma round_both p e v : (0 < p)%Z -> 0 <= v -> exists t, 0 <= t <= bpow radix2 (2 - e - p) /\ (bpow radix2 (3 - e) <= v -> t = 0) /\
  v <= (1 + bpow radix2 (- p)) * rndf p e v + t /\ rndf p e v <= (1 + bpow radix2 (- p)) * v + t.
Proof.
  intros Hp V. destruct (relative_error_N_FLT'_ex radix2 (3 - e - p) p Hp (fun z => negb (Z.even z)) v) as (d & t & D & T & DT & E).
  change (round radix2 (FLT_exp (3 - e - p) p) (Znearest (fun z => negb (Z.even z))) v) with (rndf p e v) in E.
  assert (Q : u_ro radix2 p = bpow radix2 (- p)) by (unfold u_ro; replace (- p + 1)%Z with (1 + - p)%Z by lia; rewrite bpow_plus; change (bpow radix2 1) with 2; lra).
  assert (Q' : / 2 * bpow radix2 (3 - e - p) = bpow radix2 (2 - e - p)) by (replace (3 - e - p)%Z with (1 + (2 - e - p))%Z by lia; rewrite bpow_plus; change (bpow radix2 1) with 2; lra).
  rewrite Q in D. rewrite Q' in T. set (u := bpow radix2 (- p)) in *. set (tn := bpow radix2 (2 - e - p)) in *.
  assert (U : 0 < u) by apply bpow_gt_0. assert (U1 : u <= 1 / 2) by (replace (1 / 2) with (bpow radix2 (-1)) by (cbn; lra); apply bpow_le; lia). assert (TP : 0 < tn) by apply bpow_gt_0. assert (W : u / (1 + u) * (1 + u) = u) by (field; lra). set (q := u / (1 + u)) in *.
  assert (0 < q) by (apply Rdiv_lt_0_compat; lra). assert (q <= u) by nra. apply Rabs_le_inv in D, T. assert (D1 : 1 <= (1 + u) * (1 + d)) by nra.
  destruct (Req_dec t 0) as [T0|T0].
  - exists 0. rewrite E, T0. split; [lra|]. split; [auto|]. split; nra.
  - assert (D0 : d = 0) by (apply Rmult_integral in DT; tauto). destruct (Rle_lt_dec (bpow radix2 (3 - e)) v) as [B|B].
    + exists 0. split; [lra|]. split; [auto|]. rewrite E, D0. assert (K : u * v >= 2 * tn).
      { assert (K : u * bpow radix2 (3 - e) = 2 * tn) by (unfold u, tn; rewrite <- bpow_plus; replace (- p + (3 - e))%Z with (1 + (2 - e - p))%Z by lia; rewrite bpow_plus; reflexivity). nra. }
      split; nra.
    + exists tn. split; [lra|]. split; [lra|]. assert (RP : 0 <= rndf p e v) by (apply round_ge_generic; [apply FLT_exp_valid; exact Hp|apply valid_rnd_N|apply generic_format_0|exact V]). rewrite E, D0 in *. split; nra.
Qed.
Lemma rnd_rndf k v : rnd k v = rndf (precision k) (emaxOf k) v.
Proof. reflexivity. Qed.
Lemma rndf_le p e a b : (0 < p)%Z -> a <= b -> rndf p e a <= rndf p e b.
Proof. intros Hp H. apply round_le; auto; [apply FLT_exp_valid; exact Hp|apply valid_rnd_N]. Qed.
Lemma rndf_bpow p e q : (0 < p)%Z -> (3 - e - p <= q)%Z -> rndf p e (bpow radix2 q) = bpow radix2 q.
Proof. intros Hp H. apply round_generic; [apply valid_rnd_N|]. apply generic_format_bpow. unfold FLT_exp. lia. Qed.
Lemma rndf_range p e q v : (1 < p)%Z -> (3 - e - p <= q <= 0)%Z -> bpow radix2 q <= v <= 1 -> bpow radix2 q <= rndf p e v <= 1.
Proof.
  intros Hp Hq H. assert (A : rndf p e (bpow radix2 q) = bpow radix2 q) by (apply rndf_bpow; lia). assert (B : rndf p e 1 = 1) by (change 1 with (bpow radix2 0); apply rndf_bpow; lia).
  pose proof (rndf_le p e _ _ ltac:(lia) (proj1 H)). pose proof (rndf_le p e _ _ ltac:(lia) (proj2 H)). lra.
Qed.

(** * The reciprocal *)
Definition one64 : binary64 := binary_normalize 53 1024 eq_refl eq_refl mode_NE 1 0 false.
Lemma one64_ok : is_finite 53 1024 one64 = true /\ B2R 53 1024 one64 = 1.
Proof.
  pose proof (binary_normalize_correct 53 1024 eq_refl eq_refl mode_NE 1 0 false) as C. fold one64 in C. cbn [round_mode] in C. change (SpecFloat.fexp 53 1024) with (FLT_exp (3 - 1024 - 53) 53) in C.
  assert (E : F2R (Float radix2 1 0) = 1) by (unfold F2R; cbn; lra). rewrite E in C. fold (rndf 53 1024 1) in C.
  assert (B : rndf 53 1024 1 = 1) by (change 1 with (bpow radix2 0); apply rndf_bpow; lia). rewrite B, Rlt_bool_true in C; [tauto|]. rewrite Rabs_R1. change 1 with (bpow radix2 0). apply bpow_lt. reflexivity.
Qed.
Definition recipR (k : fkind) (v : R) : R := rnd k (rndf 24 128 (rndf 53 1024 (1 / v))).
Lemma top24 k : top k <= bpow radix2 24.
Proof. apply bpow_le. destruct k; cbn; lia. Qed.
Lemma recip_num k w v : word k w -> meaning k w = Num v -> 1 <= v <= top k -> meaning k (recip k w) = Num (recipR k v).
Proof.
  intros W M R. unfold recip. fold one64. pose proof (tofloat_same k w W) as T. rewrite M in T. set (f := tofloat k w) in *. destruct one64_ok as [F1 V1].
  assert (V53 : rndf 53 1024 v = v).
  { apply round_generic; [apply valid_rnd_N|]. apply (generic_inclusion_mag radix2 (FLT_exp (3 - 128 - 24) 24)); [intros _; unfold FLT_exp; lia|]. apply read_num in T. destruct T as [_ <-]. exact (generic_format_B2R 24 128 f). }
  pose proof (top24 k) as T24. assert (VM : bpow radix2 (-24) <= 1 / v <= 1).
  { change (-24)%Z with (- (24))%Z. rewrite bpow_opp. unfold Rdiv. rewrite !Rmult_1_l. split; [apply Rinv_le; lra|]. rewrite <- Rinv_1. apply Rinv_le; lra. }
  assert (D : read (toDouble f) = Num v).
  { unfold toDouble. rewrite conv_read by reflexivity. rewrite T. fold (rndf 53 1024 v). rewrite V53, Rlt_bool_true; [reflexivity|]. rewrite Rabs_pos_eq by lra. apply Rle_lt_trans with (bpow radix2 24); [lra|]. apply bpow_lt. reflexivity. }
  apply read_num in D. destruct D as [FD VD].
  assert (V0 : B2R 53 1024 (toDouble f) <> 0) by (rewrite VD; lra).
  pose proof (div_computes 53 1024 eq_refl eq_refl binop_nan_pl64 one64 (toDouble f) F1 V0) as C. unfold computes in C. cbv zeta in C. rewrite V1, VD in C. fold (rndf 53 1024 (1 / v)) in C.
  destruct (rndf_range 53 1024 (-24) (1 / v) ltac:(lia) ltac:(lia) VM) as [R1 R2]. assert (P24 : 0 < bpow radix2 (-24)) by apply bpow_gt_0.
  assert (S : forall q z, (0 < q)%Z -> 0 < z <= 1 -> Rabs z < bpow radix2 q) by (intros q z Hq Hz; rewrite Rabs_pos_eq by lra; apply Rle_lt_trans with (bpow radix2 0); [cbn; lra|apply bpow_lt; exact Hq]).
  rewrite Rlt_bool_true in C by (apply S; [reflexivity|lra]). destruct C as (C1 & C2 & _).
  assert (Q : read (fromDouble (b64_div mode_NE one64 (toDouble f))) = Num (rndf 24 128 (rndf 53 1024 (1 / v)))).
  { destruct (rndf_range 24 128 (-24) _ ltac:(lia) ltac:(lia) (conj R1 R2)) as [R3 R4].
    unfold fromDouble. rewrite conv_read by reflexivity. replace (read (b64_div mode_NE one64 (toDouble f))) with (Num (rndf 53 1024 (1 / v))) by (symmetry; apply read_num; split; [exact C2|exact C1]).
    fold (rndf 24 128 (rndf 53 1024 (1 / v))). rewrite Rlt_bool_true; [reflexivity|]. apply S; [reflexivity|lra]. }
  destruct (rndf_range 24 128 (-24) _ ltac:(lia) ltac:(lia) (conj R1 R2)) as [R3 R4].
  rewrite (ffloat_num k _ _ Q); [reflexivity|]. apply small_max. pose proof (one_top k). pose proof (rnd_le k 0 (rndf 24 128 (rndf 53 1024 (1 / v))) ltac:(lra)) as L1. pose proof (rnd_le k _ 1 R4) as L2. rewrite rnd_0 in L1. rewrite rnd_1 in L2. lra.
Qed.
Lemma recip_word k w : word k (recip k w).
Proof. apply ffloat_word. Qed.
Lemma recip_nan k w : word k w -> meaning k w = NaN -> meaning k (recip k w) = NaN.
Proof.
  intros W M. unfold recip. fold one64. pose proof (tofloat_same k w W) as T. rewrite M in T. set (f := tofloat k w) in *. apply ffloat_nan. unfold fromDouble. rewrite conv_read by reflexivity.
  assert (N : read (toDouble f) = NaN) by (unfold toDouble; rewrite conv_read by reflexivity; rewrite T; reflexivity).
  replace (read (b64_div mode_NE one64 (toDouble f))) with NaN; [reflexivity|]. symmetry. apply read_nan. apply read_nan in N. destruct (toDouble f) as [s|s|s pl h|s m ex h]; try discriminate.
  destruct one64_ok as [F1 _]. destruct one64 as [s1|s1|s1 pl1 h1|s1 m1 ex1 h1]; try discriminate; unfold b64_div, Bdiv; apply build_is_nan.
Qed.
Lemma recip_zero k w : word k w -> meaning k w = Num 0 -> exists s, meaning k (recip k w) = Inf s.
Proof.
  intros W M. unfold recip. fold one64. pose proof (tofloat_same k w W) as T. rewrite M in T. set (f := tofloat k w) in *.
  assert (N : exists s, toDouble f = B754_zero 53 1024 s).
  { apply read_num in T. destruct T as [F V]. destruct f as [s|s|s pl h|s m ex h]; try discriminate; [exists s; reflexivity|]. exfalso. exact (nonzero _ _ _ _ _ _ V). }
  destruct N as [s N]. rewrite N. destruct one64_ok as [F1 V1]. destruct one64 as [s1|s1|s1 pl1 h1|s1 m1 ex1 h1]; try discriminate; [cbn in V1; lra|].
  exists (xorb s1 s). apply ffloat_inf. reflexivity.
Qed.
Lemma recip_low k v : 1 <= v <= top k -> bpow radix2 (- precision k) <= recipR k v <= 1.
Proof.
  intros R. unfold recipR. rewrite rnd_rndf. assert (VM : bpow radix2 (- precision k) <= 1 / v <= 1).
  { rewrite bpow_opp. unfold Rdiv. rewrite !Rmult_1_l. split; [apply Rinv_le; [lra|apply R]|]. rewrite <- Rinv_1. apply Rinv_le; lra. }
  apply rndf_range; [destruct k; reflexivity|destruct k; cbn; lia|]. apply rndf_range; [lia|destruct k; cbn; lia|]. apply rndf_range; [lia|destruct k; cbn; lia|exact VM].
Qed.
Lemma recip_mono k v v' : 1 <= v <= v' -> recipR k v' <= recipR k v.
Proof. intros H. unfold recipR. apply rnd_le. apply rndf_le; [lia|]. apply rndf_le; [lia|]. unfold Rdiv. rewrite !Rmult_1_l. apply Rinv_le; lra. Qed.
Lemma recip_both k v : 1 <= v <= top k -> 1 <= (1 + unit k) ^ 3 * (recipR k v * v) /\ recipR k v * v <= (1 + unit k) ^ 3.
Proof.
  intros R. assert (VM : bpow radix2 (- precision k) <= 1 / v <= 1).
  { rewrite bpow_opp. unfold Rdiv. rewrite !Rmult_1_l. split; [apply Rinv_le; [lra|apply R]|]. rewrite <- Rinv_1. apply Rinv_le; lra. }
  assert (P : (precision k <= 24)%Z) by (destruct k; cbn; lia). assert (P1 : (1 < precision k)%Z) by (destruct k; reflexivity).
  destruct (rndf_range 53 1024 (- precision k) (1 / v) ltac:(lia) ltac:(lia) VM) as [A1 A2]. destruct (rndf_range 24 128 (- precision k) _ ltac:(lia) ltac:(lia) (conj A1 A2)) as [B1 B2].
  assert (PP : 0 < bpow radix2 (- precision k)) by apply bpow_gt_0.
  destruct (round_both 53 1024 (1 / v) ltac:(lia) ltac:(lra)) as (t1 & _ & Z1 & L1 & H1). rewrite Z1 in L1, H1 by (eapply Rle_trans; [|apply VM]; apply bpow_le; lia).
  destruct (round_both 24 128 _ ltac:(lia) (Rle_trans _ _ _ (Rlt_le _ _ PP) A1)) as (t2 & _ & Z2 & L2 & H2). rewrite Z2 in L2, H2 by (eapply Rle_trans; [|apply A1]; apply bpow_le; lia).
  destruct (round_both (precision k) (emaxOf k) _ ltac:(lia) (Rle_trans _ _ _ (Rlt_le _ _ PP) B1)) as (t3 & _ & Z3 & L3 & H3). rewrite Z3 in L3, H3 by (eapply Rle_trans; [|apply B1]; apply bpow_le; destruct k; cbn; lia).
  rewrite <- rnd_rndf in L3, H3. fold (recipR k v) in L3, H3. fold (unit k) in L3, H3.
  assert (U1 : 0 < bpow radix2 (- (53)) <= unit k) by (split; [apply bpow_gt_0|apply bpow_le; lia]). assert (U2 : 0 < bpow radix2 (- (24)) <= unit k) by (split; [apply bpow_gt_0|apply bpow_le; lia]).
  set (u := unit k) in *. set (a := rndf 53 1024 (1 / v)) in *. set (b := rndf 24 128 a) in *. set (c := recipR k v) in *. set (u1 := bpow radix2 (- (53))) in *. set (u2 := bpow radix2 (- (24))) in *.
  assert (I : 1 / v * v = 1) by (field; lra). assert (C0 : 0 <= c) by (assert (0 <= (1 + u) * c) by lra; nra).
  assert (X1 : 1 / v <= (1 + u) * a) by nra. assert (X2 : a <= (1 + u) * b) by nra. assert (X3 : b <= (1 + u) * c) by lra. assert (Y1 : a <= (1 + u) * (1 / v)) by nra. assert (Y2 : b <= (1 + u) * a) by nra. assert (Y3 : c <= (1 + u) * b) by lra. clear L1 L2 L3 H1 H2 H3.
  assert (X : 1 / v <= (1 + u) ^ 3 * c) by (cbn; assert ((1 + u) * a <= (1 + u) * ((1 + u) * b)) by (apply Rmult_le_compat_l; lra); assert ((1 + u) * ((1 + u) * b) <= (1 + u) * ((1 + u) * ((1 + u) * c))) by (apply Rmult_le_compat_l; [lra|]; apply Rmult_le_compat_l; lra); lra).
  assert (Y : c <= (1 + u) ^ 3 * (1 / v)) by (cbn; assert ((1 + u) * b <= (1 + u) * ((1 + u) * a)) by (apply Rmult_le_compat_l; lra); assert ((1 + u) * ((1 + u) * a) <= (1 + u) * ((1 + u) * ((1 + u) * (1 / v)))) by (apply Rmult_le_compat_l; [lra|]; apply Rmult_le_compat_l; lra); lra).
  split.
  - rewrite <- I at 1. rewrite <- Rmult_assoc. apply Rmult_le_compat_r; lra.
  - apply Rle_trans with ((1 + u) ^ 3 * (1 / v) * v); [apply Rmult_le_compat_r; lra|]. rewrite Rmult_assoc, I. lra.
Qed.

(** * The largest element *)
Definition scan (k : fkind) (l : list Z) (m : Z) : Z := fold_left (fun m v => if fgt k v m then v else m) l m.
Definition biggest (x : ext) : Prop := match x with Num _ => True | Inf false => True | _ => False end.
Lemma fgt_meaning k x y : word k x -> word k y -> biggest (meaning k y) ->
  fgt k x y = match meaning k x, meaning k y with Num v, Num m => Rlt_bool m v | Inf false, Num _ => true | _, _ => false end.
Proof.
  intros Wx Wy B. rewrite (fgt_compare k x y Wx Wy). rewrite !meaning_flt in *. set (p := precision k) in *. set (e := emaxOf k) in *. destruct (flt k x) as [sx|sx|sx px hx|sx mx ex hx] eqn:Ex, (flt k y) as [sy|sy|sy py hy|sy my ey hy] eqn:Ey; cbn [read] in *; try contradiction.
  all: try (destruct sx; reflexivity). all: try (destruct sx, sy; cbn in *; try contradiction; reflexivity).
  all: try (destruct sy; cbn in *; try contradiction; reflexivity). all: try reflexivity.
  all: rewrite Bcompare_correct by reflexivity; cbn [B2R]; unfold Rlt_bool; match goal with |- context [holds CGt (Some (Rcompare ?a ?b))] => destruct (Rcompare_spec a b); destruct (Rcompare_spec b a); try reflexivity; exfalso; lra end.
Qed.
Lemma scan_word k : forall l m, Forall (word k) l -> word k m -> word k (scan k l m).
Proof. induction l as [|x l IH]; intros m H W; [exact W|]. inversion H; subst. unfold scan. cbn [fold_left]. apply IH; auto. destruct (fgt k x m); assumption. Qed.
(** From infinity on nothing changes. *)
Lemma scan_inf k : forall l m, Forall (word k) l -> word k m -> meaning k m = Inf false -> scan k l m = m.
Proof.
  induction l as [|x l IH]; intros m H W M; [reflexivity|]. inversion H; subst. unfold scan. cbn [fold_left]. rewrite fgt_meaning by (auto; rewrite M; exact I). rewrite M.
  destruct (meaning k x) as [|[]|v]; apply IH; auto.
Qed.
Lemma scan_pinf k : forall l m, Forall (word k) l -> word k m -> biggest (meaning k m) -> Exists (fun w => meaning k w = Inf false) l -> meaning k (scan k l m) = Inf false.
Proof.
  induction l as [|x l IH]; intros m H W B E; [inversion E|]. inversion H; subst. unfold scan. cbn [fold_left]. pose proof (fgt_meaning k x m ltac:(assumption) W B) as G.
  inversion E as [? ? Hx|? ? Hl]; subst.
  - rewrite Hx in G. destruct (meaning k m) as [|[]|v] eqn:M; cbn in B; try contradiction; rewrite G; [fold (scan k l m)|fold (scan k l x)]; rewrite scan_inf; auto.
  - apply IH; auto; [destruct (fgt k x m); assumption|]. destruct (fgt k x m); [|exact B]. destruct (meaning k x) as [|[]|v]; try discriminate; exact I.
Qed.
Lemma scan_num k : forall l m a, Forall (word k) l -> word k m -> meaning k m = Num a -> Forall (fun w => meaning k w <> Inf false) l ->
  exists b, meaning k (scan k l m) = Num b /\ a <= b /\ (forall w v, In w l -> meaning k w = Num v -> v <= b) /\ (b = a \/ exists w, In w l /\ meaning k w = Num b).
Proof.
  induction l as [|x l IH]; intros m a H W M F.
  - exists a. split; [exact M|]. split; [lra|]. split; [intros w v []|left; reflexivity].
  - inversion H; subst. inversion F as [|? ? NX FX]; subst. unfold scan. cbn [fold_left]. rewrite fgt_meaning by (auto; rewrite M; exact I). rewrite M.
    destruct (meaning k x) as [|[]|v] eqn:Ex; try congruence.
    3: { destruct (Rlt_bool_spec a v) as [L|L].
      - destruct (IH x v ltac:(assumption) ltac:(assumption) Ex FX) as (b & B1 & B2 & B3 & B4). exists b. split; [exact B1|]. split; [lra|]. split.
        + intros w' v' [<-|I'] E'; [rewrite Ex in E'; injection E' as <-; lra|eauto].
        + right. destruct B4 as [->|(w' & I' & E')]; [exists x; split; [left; reflexivity|exact Ex]|exists w'; split; [right; exact I'|exact E']].
      - destruct (IH m a ltac:(assumption) W M FX) as (b & B1 & B2 & B3 & B4). exists b. split; [exact B1|]. split; [lra|]. split.
        + intros w' v' [<-|I'] E'; [rewrite Ex in E'; injection E' as <-; lra|eauto].
        + destruct B4 as [->|(w' & I' & E')]; [left; reflexivity|right; exists w'; split; [right; exact I'|exact E']]. }
    all: destruct (IH m a ltac:(assumption) W M FX) as (b & B1 & B2 & B3 & B4); exists b; split; [exact B1|]; split; [lra|]; split;
      [intros w' v' [<-|I'] E'; [congruence|eauto]|destruct B4 as [->|(w' & I' & E')]; [left; reflexivity|right; exists w'; split; [right; exact I'|exact E']]].
Qed.
Lemma from_FFn p e (x : binary_float p e) m ex : B2FF p e x = F754_finite true m ex -> B2R p e x = - (IZR (Zpos m) * bpow radix2 ex).
Proof. destruct x; cbn; try discriminate. intros [= -> -> ->]. unfold F2R. cbn [Fnum Fexp SpecFloat.cond_Zopp]. rewrite opp_IZR. ring. Qed.
Definition lowest (k : fkind) : Z := fneg k (fmax k).
Lemma lowest_ok k : word k (lowest k) /\ exists a, meaning k (lowest k) = Num a /\ forall w v, meaning k w = Num v -> a <= v.
Proof.
  assert (E : lowest k = match k with F32 => 4286578687%Z | F16 => 64511%Z | BF16 => 65407%Z end) by (destruct k; vm_compute; reflexivity). rewrite E. split; [destruct k; unfold word; lia|].
  exists (- (bpow radix2 (emaxOf k) - bpow radix2 (emaxOf k - precision k))). split.
  - rewrite meaning_flt. apply read_num. destruct k; cbn [flt emaxOf precision]; (split; [vm_compute; reflexivity|]).
    + rewrite (from_FFn 24 128 _ 16777215 104) by (vm_compute; reflexivity). change (128 - 24)%Z with 104%Z. replace (bpow radix2 128) with (16777216 * bpow radix2 104) by (change 128%Z with (24 + 104)%Z; rewrite bpow_plus; reflexivity). lra.
    + rewrite (from_FFn 11 16 _ 2047 5) by (vm_compute; reflexivity). cbn. lra.
    + rewrite (from_FFn 8 128 _ 255 120) by (vm_compute; reflexivity). change (128 - 8)%Z with 120%Z. replace (bpow radix2 128) with (256 * bpow radix2 120) by (change 128%Z with (8 + 120)%Z; rewrite bpow_plus; reflexivity). lra.
  - intros w v M. rewrite meaning_flt in M. apply read_num in M. destruct M as [_ <-]. pose proof (abs_B2R_le_emax_minus_prec _ _ (prec_gt' k) (flt k w)) as B. apply Rabs_le_inv in B. lra.
Qed.
