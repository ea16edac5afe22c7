(** One line. *)
From Coq Require Import ZArith Reals List Bool Arith Lia Lra Psatz.
From Flocq Require Import Core Plus_error Relative IEEE754.BinarySingleNaN IEEE754.Binary IEEE754.Bits.
From Verif Require Import FloatModel FloatSpec FloatProps Arith16Model Arith16Spec Arith16Proofs Arith16Proofs2 Arith16Proofs3 Arith16Proofs4 AccModel AccSpec AccProofs2 AccProofs3 AccProofs4 FsoftModel FsoftSpec FsoftProofs FsoftProofs2 FsoftProofs3.
Import ListNotations.
Open Scope R_scope.

Definition softAt (k : fkind) (ex : binary32 -> binary32) (l : list Z) (v : Z) : Z := fmul k (fmath k ex (fsub k v (fscanMax k l))) (recip k (fexpSum k ex l)).
Definition logAt (k : fkind) (ex lg : binary32 -> binary32) (l : list Z) (v : Z) : Z := fsub k (fsub k v (fscanMax k l)) (fmath k lg (fexpSum k ex l)).
Lemma softLine_map k ex l : fsoftmaxLine k ex l = map (softAt k ex l) l.
Proof. unfold fsoftmaxLine, fexps. cbv zeta. rewrite map_map. reflexivity. Qed.
Lemma logLine_map k ex lg l : flogSoftmaxLine k ex lg l = map (logAt k ex lg l) l.
Proof. reflexivity. Qed.

Lemma sort_out k l : Exists (fun w => meaning k w = NaN) l \/ Exists (fun w => meaning k w = Inf false) l \/ Forall (fun w => meaning k w = Inf true) l \/ proper k l.
Proof.
  induction l as [|w l IH]; [right; right; left; constructor|]. destruct (meaning k w) as [|[]|v] eqn:E.
  - left. constructor. exact E.
  - destruct IH as [H|[H|[H|[H H']]]].
    + left. apply Exists_cons_tl. exact H.
    + right. left. apply Exists_cons_tl. exact H.
    + right. right. left. constructor; auto.
    + right. right. right. split; [constructor; auto|apply Exists_cons_tl; exact H'].
  - right. left. constructor. exact E.
  - destruct IH as [H|[H|[H|[H H']]]].
    + left. apply Exists_cons_tl. exact H.
    + right. left. apply Exists_cons_tl. exact H.
    + right. right. right. split; [|constructor; eauto]. constructor; [right; eauto|]. eapply Forall_impl; [|exact H]. intros a Ha. left. exact Ha.
    + right. right. right. split; [constructor; eauto|constructor; eauto].
Qed.
Lemma proper_not k l : proper k l -> ~ (Exists (fun w => meaning k w = NaN) l \/ Exists (fun w => meaning k w = Inf false) l \/ Forall (fun w => meaning k w = Inf true) l).
Proof.
  intros [A B] H. rewrite Forall_forall in A. destruct H as [H|[H|H]].
  - apply Exists_exists in H. destruct H as (w & I & E). destruct (A w I) as [Q|[v Q]]; congruence.
  - apply Exists_exists in H. destruct H as (w & I & E). destruct (A w I) as [Q|[v Q]]; congruence.
  - apply Exists_exists in B. destruct B as (w & I & v & E). rewrite Forall_forall in H. rewrite (H w I) in E. discriminate.
Qed.

Section Line.
Context (k : fkind) (ex : binary32 -> binary32) (X : exp_ok ex) (l : list Z) (W : Forall (word k) l).
Let mx := fscanMax k l.
Let e (v : Z) := fmath k ex (fsub k v mx).
Let s := fexpSum k ex l.
Lemma mx_word : word k mx.
Proof. apply scan_word; [exact W|apply lowest_ok]. Qed.
Lemma in_word v : In v l -> word k v.
Proof. rewrite Forall_forall in W. apply W. Qed.
Lemma t_word v : In v l -> word k (fsub k v mx).
Proof. intros I. apply fsub_word; [apply in_word; exact I|apply mx_word]. Qed.
Lemma e_word v : word k (e v).
Proof. apply ffloat_word. Qed.
Lemma es_words : Forall (word k) (fexps k ex l).
Proof. apply Forall_forall. intros w I. apply in_map_iff in I. destruct I as (v & <- & _). apply e_word. Qed.
Lemma s_word : word k s.
Proof. apply fold_words; [apply es_words|apply zero_word]. Qed.
Lemma zero_num : meaning k fzero = Num 0.
Proof. apply meaning_num. split; [apply zero_finite|apply zero_value]. Qed.

(** A proper line. *)
Section Proper.
Context (P : proper k l).
Lemma mx_num : exists m, meaning k mx = Num m /\ (forall w v, In w l -> meaning k w = Num v -> v <= m) /\ exists w, In w l /\ meaning k w = Num m.
Proof.
  destruct P as [A B]. destruct (lowest_ok k) as (WL & a & Ma & La). destruct (scan_num k l (lowest k) a W WL Ma) as (b & Mb & Lb & Ub & Ab).
  - eapply Forall_impl; [|exact A]. intros w [Q|[v Q]] H; congruence.
  - exists b. split; [exact Mb|]. split; [exact Ub|]. destruct Ab as [->|Ab]; [|exact Ab]. apply Exists_exists in B. destruct B as (w & I & v & E). exists w. split; [exact I|]. rewrite E. f_equal. pose proof (La w v E). pose proof (Ub w v I E). lra.
Qed.
Lemma t_below w : In w l -> below0 (meaning k (fsub k w mx)).
Proof.
  intros I. destruct mx_num as (m & Mm & Um & _). destruct P as [A _]. rewrite Forall_forall in A. destruct (A w I) as [Q|[v Q]].
  - rewrite (sub_ninf k w mx m (in_word w I) mx_word Q Mm). exact Logic.I.
  - pose proof (Um w v I Q) as L. rewrite (sub_num k w mx v m (in_word w I) mx_word Q Mm L). destruct (Rlt_bool _ _); cbn; [|exact Logic.I]. rewrite <- (rnd_0 k). apply rnd_le. lra.
Qed.
Lemma sub_order w w' z c : word k w -> word k w' -> word k z -> meaning k z = Num c -> atMost (meaning k w') (Num c) -> atMost (meaning k w) (meaning k w') -> atMost (meaning k (fsub k w z)) (meaning k (fsub k w' z)).
Proof.
  intros Ww Ww' Wz Mz U L. destruct (meaning k w) as [|[]|v] eqn:E; cbn in L; try contradiction.
  - rewrite (sub_ninf k w z c Ww Wz E Mz). exact Logic.I.
  - destruct (meaning k w') as [|[]|v'] eqn:E'; cbn in L; try contradiction. cbn in U. rewrite (sub_num k w z v c Ww Wz E Mz ltac:(lra)), (sub_num k w' z v' c Ww' Wz E' Mz U).
    assert (Q : rnd k (v - c) <= rnd k (v' - c)) by (apply rnd_le; lra). assert (N : rnd k (v' - c) <= 0) by (rewrite <- (rnd_0 k); apply rnd_le; lra).
    destruct (Rlt_bool_spec (Rabs (rnd k (v - c))) (bpow radix2 (emaxOf k))) as [B|B]; [|exact Logic.I]. rewrite Rlt_bool_true; [exact Q|]. rewrite Rabs_left1 in * by lra. lra.
Qed.
Lemma e_num w : In w l -> exists v, meaning k (e w) = Num v /\ 0 <= v <= 1.
Proof. intros I. apply exp_val; [exact X|apply t_word; exact I|apply t_below; exact I]. Qed.
Lemma es_unit : Forall (unitNum k) (fexps k ex l).
Proof. apply Forall_forall. intros w I. apply in_map_iff in I. destruct I as (v & <- & I). split; [apply e_word|]. exact (e_num v I). Qed.
Lemma e_max : exists w, In w l /\ meaning k w = meaning k mx /\ meaning k (e w) = Num 1.
Proof.
  destruct mx_num as (m & Mm & _ & w & I & Q). exists w. split; [exact I|]. split; [congruence|]. apply exp_one; [exact X|apply t_word; exact I|]. rewrite (sub_num k w mx m m (in_word w I) mx_word Q Mm ltac:(lra)).
  rewrite Rminus_diag_eq by reflexivity. rewrite rnd_0, Rabs_R0, Rlt_bool_true by apply bpow_gt_0. reflexivity.
Qed.
Lemma s_num : exists c, meaning k s = Num c /\ 1 <= c <= top k.
Proof.
  destruct (fold_sum k (fexps k ex l) fzero 0 es_unit (zero_word k) zero_num) as (_ & c & Mc & Rc & Uc); [pose proof (one_top k); lra|]. exists c. split; [exact Mc|]. split; [|apply Rc].
  destruct e_max as (w & I & _ & E). apply (Uc (e w)); [|exact E]. apply (in_map e). exact I.
Qed.
Lemma y_num w v c : In w l -> meaning k (e w) = Num v -> meaning k s = Num c -> meaning k (softAt k ex l w) = Num (rnd k (v * recipR k c)) /\ 0 <= rnd k (v * recipR k c) <= 1.
Proof.
  intros I Ev Ec. destruct (e_num w I) as (v' & Ev' & Rv). assert (v' = v) by congruence. subst v'. destruct s_num as (c' & Ec' & Rc). assert (c' = c) by congruence. subst c'.
  destruct (recip_low k c Rc) as [R1 R2]. pose proof (bpow_gt_0 radix2 (- precision k)) as P0. assert (B : 0 <= v * recipR k c <= 1) by nra.
  assert (Q : 0 <= rnd k (v * recipR k c) <= 1) by (rewrite <- (rnd_0 k), <- (rnd_1 k) at 1; split; apply rnd_le; apply B). split; [|exact Q].
  unfold softAt. fold mx. fold s. apply mul_num; [apply e_word|apply recip_word|exact Ev|apply recip_num; [apply s_word|exact Ec|exact Rc]|]. apply small_max. pose proof (one_top k). lra.
Qed.
Lemma y_range w : In w l -> exists y, meaning k (softAt k ex l w) = Num y /\ 0 <= y <= 1.
Proof. intros I. destruct (e_num w I) as (v & Ev & _). destruct s_num as (c & Ec & _). eexists. apply (y_num w v c I Ev Ec). Qed.
Lemma y_masked w : In w l -> meaning k w = Inf true -> meaning k (softAt k ex l w) = Num 0.
Proof.
  intros I M. destruct mx_num as (m & Mm & _). destruct s_num as (c & Ec & _). assert (E : meaning k (e w) = Num 0) by (apply exp_none; [exact X|apply t_word; exact I|]; apply (sub_ninf k w mx m); auto; [apply in_word; exact I|apply mx_word]).
  destruct (y_num w 0 c I E Ec) as [Q _]. rewrite Q, Rmult_0_l, rnd_0. reflexivity.
Qed.
Lemma y_order w w' : In w l -> In w' l -> atMost (meaning k w) (meaning k w') -> exists y y', meaning k (softAt k ex l w) = Num y /\ meaning k (softAt k ex l w') = Num y' /\ y <= y'.
Proof.
  intros I I' L. destruct (e_num w I) as (v & Ev & Rv). destruct (e_num w' I') as (v' & Ev' & Rv'). destruct s_num as (c & Ec & Rc). do 2 eexists. split; [apply (y_num w v c I Ev Ec)|]. split; [apply (y_num w' v' c I' Ev' Ec)|].
  apply rnd_le. destruct (recip_low k c Rc) as [R1 R2]. pose proof (bpow_gt_0 radix2 (- precision k)) as P0. apply Rmult_le_compat_r; [lra|]. destruct mx_num as (m & Mm & Um & _).
  apply (exp_mono k ex (fsub k w mx) (fsub k w' mx) v v' X (t_word w I) (t_word w' I') (t_below w' I')); auto. apply (sub_order w w' mx m (in_word w I) (in_word w' I') mx_word Mm); [|exact L].
  destruct P as [A _]. rewrite Forall_forall in A. destruct (A w' I') as [Q|[z Q]]; rewrite Q; cbn; [exact Logic.I|]. exact (Um w' z I' Q).
Qed.
Lemma y_largest w : In w l -> (forall w', In w' l -> atMost (meaning k w') (meaning k w)) -> exists y, meaning k (softAt k ex l w) = Num y /\ bpow radix2 (- precision k) <= y.
Proof.
  intros I U. destruct e_max as (w0 & I0 & _ & E0). destruct s_num as (c & Ec & Rc). destruct (y_num w0 1 c I0 E0 Ec) as [Q _]. destruct (y_order w0 w I0 I (U w0 I0)) as (y & y' & Y & Y' & L). exists y'. split; [exact Y'|].
  rewrite Q in Y. injection Y as <-. rewrite Rmult_1_l in L. eapply Rle_trans; [|exact L]. rewrite <- (rnd_bpow k (- precision k)) by (destruct k; cbn; lia). apply rnd_le. apply (recip_low k c Rc).
Qed.
Lemma y_total : Rabs (total (map (value k) (map (softAt k ex l) l)) - 1) <= growth k (length l + 4) + INR (length l) * tiny k.
Proof.
  destruct s_num as (c & Ec & Rc). pose proof (fold_both k (fexps k ex l) fzero 0 es_unit (zero_word k) zero_num ltac:(pose proof (one_top k); lra) c Ec) as [A1 A2].
  assert (LE : length (fexps k ex l) = length l) by apply map_length. rewrite LE in A1, A2. rewrite Rplus_0_l in A1, A2. destruct (recip_both k c Rc) as [B1 B2]. destruct (recip_low k c Rc) as [R1 R2]. pose proof (bpow_gt_0 radix2 (- precision k)) as P0.
  set (r := recipR k c) in *. set (E := nums k (fexps k ex l)) in *. set (Y := total (map (value k) (map (softAt k ex l) l))). pose proof (unit_pos k) as U. pose proof (tiny_pos k) as T. set (u := unit k) in *. set (n := length l) in *.
  assert (S : r * E <= (1 + u) * Y + INR n * tiny k /\ Y <= (1 + u) * (r * E) + INR n * tiny k /\ 0 <= Y).
  { unfold E, Y, n, nums, fexps. cbv zeta. fold mx. assert (G : forall l', (forall w, In w l' -> In w l) -> r * total (map (value k) (map (fun v => fmath k ex (fsub k v mx)) l')) <= (1 + u) * total (map (value k) (map (softAt k ex l) l')) + INR (length l') * tiny k /\
        total (map (value k) (map (softAt k ex l) l')) <= (1 + u) * (r * total (map (value k) (map (fun v => fmath k ex (fsub k v mx)) l'))) + INR (length l') * tiny k /\ 0 <= total (map (value k) (map (softAt k ex l) l'))).
    2: { apply G. auto. }
    induction l' as [|w l' IH]; intros Sub.
    - cbn. split; [lra|]. split; lra.
    - cbn [map length]. rewrite !total_cons, S_INR. destruct (IH (fun w' Iw => Sub w' (or_intror Iw))) as (I1 & I2 & I3). assert (Iw : In w l) by (apply Sub; left; reflexivity). destruct (e_num w Iw) as (v & Ev & Rv). destruct (y_num w v c Iw Ev Ec) as [Q RQ].
      apply meaning_num in Q. destruct Q as [_ Q]. rewrite Q. unfold e in Ev. apply meaning_num in Ev. destruct Ev as [_ Ev]. rewrite Ev. fold r in RQ |- *. clear Q Ev. assert (V0 : 0 <= v * r) by nra.
      destruct (round_both (precision k) (emaxOf k) (v * r) (prec_pos k) V0) as (t & Rt & _ & L1 & L2). rewrite <- rnd_rndf in L1, L2. change (bpow radix2 (- precision k)) with u in L1, L2. change (bpow radix2 (2 - emaxOf k - precision k)) with (tiny k) in Rt.
      set (y := rnd k (v * r)) in *. set (TE := total (map (value k) (map (fun v0 => fmath k ex (fsub k v0 mx)) l'))) in *. set (TY := total (map (value k) (map (softAt k ex l) l'))) in *. split; [lra|]. split; lra. }
  destruct S as (S1 & S2 & S3). assert (PN : 0 <= INR n * tiny k) by (apply Rmult_le_pos; [apply pos_INR|lra]). pose proof (pow_ge1 k n) as G1. fold u in G1. set (g := (1 + u) ^ n) in *.
  assert (Gr : growth k (n + 4) = g * (1 + u) ^ 4 - 1) by (unfold growth; fold u; rewrite pow_add; reflexivity). rewrite Gr. set (h := (1 + u) ^ 3) in *. assert (H4 : (1 + u) ^ 4 = (1 + u) * h) by (unfold h; ring). rewrite H4. assert (H1 : 1 <= h) by (apply pow_R1_Rle; lra).
  assert (E0 : 0 <= E) by nra. assert (RE : 0 <= r * E) by nra.
  (* upper *)
  assert (UP : r * E <= h * g).
  { apply Rle_trans with (r * (g * c)); [apply Rmult_le_compat_l; lra|]. replace (r * (g * c)) with (r * c * g) by ring. apply Rmult_le_compat_r; lra. }
  assert (LO : 1 <= h * g * (r * E)).
  { apply Rle_trans with (h * (r * c)); [exact B1|]. replace (h * g * (r * E)) with (h * (r * (g * E))) by ring. apply Rmult_le_compat_l; [lra|]. apply Rmult_le_compat_l; lra. }
  set (q := g * ((1 + u) * h)). assert (Q1 : 1 <= q).
  { unfold q. rewrite <- (Rmult_1_l 1). apply Rmult_le_compat; try lra. rewrite <- (Rmult_1_l 1). apply Rmult_le_compat; lra. }
  assert (Up : Y <= q + INR n * tiny k) by (assert ((1 + u) * (r * E) <= (1 + u) * (h * g)) by (apply Rmult_le_compat_l; lra); unfold q; lra).
  assert (Lo : 1 <= q * (Y + INR n * tiny k)).
  { apply Rle_trans with (h * g * (r * E)); [exact LO|]. apply Rle_trans with (h * g * ((1 + u) * Y + INR n * tiny k)); [apply Rmult_le_compat_l; [nra|exact S1]|].
    apply Rle_trans with (h * g * ((1 + u) * (Y + INR n * tiny k))); [apply Rmult_le_compat_l; nra|]. unfold q. lra. }
  apply Rabs_le. split; [|lra]. assert (Z0 : 0 <= Y + INR n * tiny k) by lra. set (z := Y + INR n * tiny k) in *.
  assert (2 - q <= z).
  { destruct (Rle_lt_dec 1 z); [lra|]. assert (0 < z) by nra. assert ((q - 1) * (1 - z) >= 0) by nra. destruct (Rle_lt_dec (2 - q) z) as [K|K]; [exact K|]. exfalso. assert (z < 2 - q) by exact K. assert (q * z < q * (2 - q)) by (apply Rmult_lt_compat_l; lra). assert (q * (2 - q) <= 1) by nra. lra. }
  unfold z in *. lra.
Qed.
End Proper.

(** A line without a distribution. *)
Lemma bad_sum : Exists (fun w => meaning k w = NaN) l \/ Exists (fun w => meaning k w = Inf false) l -> meaning k s = NaN.
Proof.
  intros H. apply fold_nan; [apply es_words|apply zero_word|]. right. apply Exists_exists. destruct H as [H|H].
  - apply Exists_exists in H. destruct H as (w & I & E). exists (e w). split; [apply (in_map e); exact I|]. apply math_nan; [apply (ex_nan ex X)|apply t_word; exact I|]. apply (op_nan k OpSub); auto; [discriminate|apply in_word; exact I|apply mx_word].
  - pose proof H as H'. apply Exists_exists in H'. destruct H' as (w & I & E). exists (e w). split; [apply (in_map e); exact I|]. apply math_nan; [apply (ex_nan ex X)|apply t_word; exact I|].
    destruct (lowest_ok k) as (WL & a & Ma & _). apply (sub_same_inf k w mx false (in_word w I) mx_word E). apply (scan_pinf k l (lowest k)); auto. rewrite Ma. exact Logic.I.
Qed.
Lemma masked_mx : Forall (fun w => meaning k w = Inf true) l -> exists m, meaning k mx = Num m.
Proof.
  intros H. destruct (lowest_ok k) as (WL & a & Ma & _). destruct (scan_num k l (lowest k) a W WL Ma) as (b & Mb & _).
  - eapply Forall_impl; [|exact H]. intros w Q Q'. congruence.
  - exists b. exact Mb.
Qed.
Lemma masked_e w : Forall (fun w => meaning k w = Inf true) l -> In w l -> meaning k (fsub k w mx) = Inf true /\ meaning k (e w) = Num 0.
Proof.
  intros H I. destruct (masked_mx H) as [m Mm]. assert (T : meaning k (fsub k w mx) = Inf true).
  { apply (sub_ninf k w mx m); auto; [apply in_word; exact I|apply mx_word|]. rewrite Forall_forall in H. apply H. exact I. }
  split; [exact T|]. apply exp_none; [exact X|apply t_word; exact I|exact T].
Qed.
Lemma masked_sum : Forall (fun w => meaning k w = Inf true) l -> meaning k s = Num 0.
Proof.
  intros H. apply fold_zero; [apply es_words|apply zero_word|apply zero_num|]. apply Forall_forall. intros w I. apply in_map_iff in I. destruct I as (v & <- & I). apply (masked_e v H I).
Qed.
Lemma y_bad w : ~ proper k l -> In w l -> meaning k (softAt k ex l w) = NaN.
Proof.
  intros N I. unfold softAt. fold mx. fold s. assert (Q : (Exists (fun w => meaning k w = NaN) l \/ Exists (fun w => meaning k w = Inf false) l) \/ Forall (fun w => meaning k w = Inf true) l) by (destruct (sort_out k l) as [H|[H|[H|H]]]; auto; contradiction).
  destruct Q as [Q|Q].
  - apply (op_nan k OpMul); [discriminate|apply e_word|apply recip_word|]. right. apply recip_nan; [apply s_word|]. apply bad_sum. exact Q.
  - destruct (recip_zero k s s_word (masked_sum Q)) as [b B]. apply (mul_zero_inf k _ _ b); [apply e_word|apply recip_word|apply (masked_e w Q I)|exact B].
Qed.

(** * Log-softmax *)
Context (lg : binary32 -> binary32) (L : log_ok lg).
Let ls := fmath k lg s.
Lemma ls_word : word k ls.
Proof. apply ffloat_word. Qed.
Lemma ls_num : proper k l -> exists g, meaning k ls = Num g /\ 0 <= g <= top k.
Proof.
  intros P. destruct (s_num P) as (c & Ec & Rc). pose proof (tofloat_same k s s_word) as T. rewrite Ec in T. destruct (lg_range lg L _ c T (proj1 Rc)) as (y & Y & Ry).
  assert (Q : 0 <= rnd k y <= top k).
  { split; [rewrite <- (rnd_0 k); apply rnd_le; lra|]. eapply Rle_trans; [|apply Rc]. rewrite <- (rnd_num k s c Ec). apply rnd_le. lra. }
  exists (rnd k y). split; [|exact Q]. apply ffloat_num; [exact Y|]. apply small_max. exact Q.
Qed.
Lemma z_below w : proper k l -> In w l -> below0 (meaning k (logAt k ex lg l w)).
Proof.
  intros P I. unfold logAt. fold mx. fold s. fold ls. destruct (ls_num P) as (g & G & Rg). pose proof (t_below P w I) as B. destruct (meaning k (fsub k w mx)) as [|[]|v] eqn:E; cbn in B; try contradiction.
  - rewrite (sub_ninf k _ ls g (t_word w I) ls_word E G). exact Logic.I.
  - rewrite (sub_num k _ ls v g (t_word w I) ls_word E G ltac:(lra)). destruct (Rlt_bool _ _); cbn; [|exact Logic.I]. rewrite <- (rnd_0 k). apply rnd_le. lra.
Qed.
Lemma z_masked w : proper k l -> In w l -> meaning k w = Inf true -> meaning k (logAt k ex lg l w) = Inf true.
Proof.
  intros P I M. unfold logAt. fold mx. fold s. fold ls. destruct (ls_num P) as (g & G & _). destruct (mx_num P) as (m & Mm & _). apply (sub_ninf k _ ls g (t_word w I) ls_word); [|exact G]. apply (sub_ninf k w mx m (in_word w I) mx_word M Mm).
Qed.
Lemma z_order w w' : proper k l -> In w l -> In w' l -> atMost (meaning k w) (meaning k w') -> atMost (meaning k (logAt k ex lg l w)) (meaning k (logAt k ex lg l w')).
Proof.
  intros P I I' A. unfold logAt. fold mx. fold s. fold ls. destruct (ls_num P) as (g & G & Rg). destruct (mx_num P) as (m & Mm & Um & _).
  assert (U : atMost (meaning k w') (Num m)) by (destruct P as [B _]; rewrite Forall_forall in B; destruct (B w' I') as [Q|[z Q]]; rewrite Q; cbn; [exact Logic.I|exact (Um w' z I' Q)]).
  apply (sub_order _ _ ls g (t_word w I) (t_word w' I') ls_word G).
  - pose proof (t_below P w' I') as B. destruct (meaning k (fsub k w' mx)) as [|[]|v]; cbn in B |- *; try contradiction; auto. lra.
  - exact (sub_order w w' mx m (in_word w I) (in_word w' I') mx_word Mm U A).
Qed.
Lemma z_num w v : proper k l -> In w l -> meaning k w = Num v -> (forall w' v', In w' l -> meaning k w' = Num v' -> Rabs v' <= bpow radix2 (emaxOf k - 2)) -> exists y, meaning k (logAt k ex lg l w) = Num y /\ y <= 0.
Proof.
  intros P I M B. unfold logAt. fold mx. fold s. fold ls. destruct (ls_num P) as (g & G & Rg). destruct (mx_num P) as (m & Mm & Um & w0 & I0 & M0). set (b := bpow radix2 (emaxOf k - 2)) in *. assert (b0 : 0 < b) by apply bpow_gt_0.
  assert (E4 : bpow radix2 (emaxOf k) = 4 * b) by (unfold b; replace (emaxOf k) with (2 + (emaxOf k - 2))%Z at 1 by lia; rewrite bpow_plus; reflexivity). assert (TB : top k <= b) by (apply bpow_le; destruct k; cbn; lia).
  pose proof (B w v I M) as Bv. pose proof (B w0 m I0 M0) as Bm. apply Rabs_le_inv in Bv, Bm. pose proof (Um w v I M) as Lm.
  assert (F2 : rnd k (- (2 * b)) = - (2 * b)).
  { apply round_generic; [apply valid_rnd_N|]. apply generic_format_opp. replace (2 * b) with (bpow radix2 (emaxOf k - 1)) by (unfold b; replace (emaxOf k - 1)%Z with (1 + (emaxOf k - 2))%Z by lia; rewrite bpow_plus; reflexivity). apply format_bpow. destruct k; cbn; lia. }
  assert (F3 : rnd k (- (3 * b)) = - (3 * b)).
  { apply round_generic; [apply valid_rnd_N|]. apply generic_format_opp. apply generic_format_FLT. exists (Float radix2 3 (emaxOf k - 2)); cbn [Fnum Fexp]; [unfold F2R, b; cbn [Fnum Fexp]; reflexivity| |]; destruct k; cbn; lia. }
  assert (T1 : - (2 * b) <= rnd k (v - m) <= 0) by (split; [rewrite <- F2; apply rnd_le; lra|rewrite <- (rnd_0 k); apply rnd_le; lra]).
  assert (T : meaning k (fsub k w mx) = Num (rnd k (v - m))) by (rewrite (sub_num k w mx v m (in_word w I) mx_word M Mm Lm), Rlt_bool_true; [reflexivity|]; rewrite Rabs_left1 by lra; lra).
  assert (T2 : - (3 * b) <= rnd k (rnd k (v - m) - g) <= 0) by (split; [rewrite <- F3; apply rnd_le; lra|rewrite <- (rnd_0 k); apply rnd_le; lra]).
  exists (rnd k (rnd k (v - m) - g)). split; [|apply T2]. rewrite (sub_num k _ ls (rnd k (v - m)) g (t_word w I) ls_word T G ltac:(lra)), Rlt_bool_true; [reflexivity|]. rewrite Rabs_left1 by lra. lra.
Qed.
Lemma z_bad w : ~ proper k l -> In w l -> meaning k (logAt k ex lg l w) = NaN.
Proof.
  intros N I. unfold logAt. fold mx. fold s. fold ls. assert (Q : (Exists (fun w => meaning k w = NaN) l \/ Exists (fun w => meaning k w = Inf false) l) \/ Forall (fun w => meaning k w = Inf true) l) by (destruct (sort_out k l) as [H|[H|[H|H]]]; auto; contradiction).
  destruct Q as [Q|Q].
  - apply (op_nan k OpSub); [discriminate|apply t_word; exact I|apply ls_word|]. right. apply math_nan; [apply (lg_nan lg L)|apply s_word|]. apply bad_sum. exact Q.
  - apply (sub_same_inf k _ _ true); [apply t_word; exact I|apply ls_word|apply (masked_e w Q I)|]. apply ffloat_inf. apply (lg_zero lg L). rewrite (tofloat_same k s s_word). apply masked_sum. exact Q.
Qed.
End Line.
