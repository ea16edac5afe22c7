(** Drawing categories. *)
From Coq Require Import ZArith Reals List Arith Bool Lia Lra.
From Flocq Require Import Core IEEE754.BinarySingleNaN IEEE754.Binary IEEE754.Bits.
From Verif Require Import ShapeModel ShapeSpec ShapeProofs TensorModel TensorSpec TensorLemmas BcastModel BufModel MultiModel MultiSpec.
Import ListNotations.
Open Scope R_scope.

Local Notation fexp := (FLT_exp (-149) 24).
Local Notation rnd := (round radix2 fexp ZnearestE).
Local Notation fmt := (generic_format radix2 fexp).
Local Notation fin w := (is_finite 24 128 w = true).
Local Instance vexp : Valid_exp fexp. Proof. apply FLT_exp_valid. reflexivity. Qed.

Lemma fmt_val w : fmt (val w).
Proof. apply (generic_format_B2R 24 128). Qed.
Lemma fmt_bpow e : (-149 <= e)%Z -> fmt (bpow radix2 e).
Proof. intro H. apply generic_format_bpow. unfold FLT_exp. lia. Qed.
Lemma rnd_mono x y : x <= y -> rnd x <= rnd y.
Proof. intro. apply round_le; auto; typeclasses eauto. Qed.
Lemma rnd_fmt x : fmt x -> rnd x = x.
Proof. intro. apply round_generic; auto; typeclasses eauto. Qed.
Lemma rnd_nonneg x : 0 <= x -> 0 <= rnd x.
Proof. intro H. rewrite <- (round_0 radix2 fexp ZnearestE). apply rnd_mono; auto. Qed.
Lemma flt_ok a b : fin a -> fin b -> flt a b = true <-> val a < val b.
Proof.
  intros Fa Fb. unfold flt, b32_compare, val. rewrite (Bcompare_correct 24 128) by auto. destruct (Rcompare_spec (B2R 24 128 a) (B2R 24 128 b)); split; try discriminate; auto; lra.
Qed.
Lemma f0_ok : fin f0 /\ val f0 = 0.
Proof. split; reflexivity. Qed.
Lemma plus_ok a b : fin a -> fin b -> 0 <= val a -> 0 <= val b -> rnd (val a + val b) < bpow radix2 128 ->
  fin (b32_plus mode_NE a b) /\ val (b32_plus mode_NE a b) = rnd (val a + val b).
Proof.
  intros Fa Fb Ha Hb H. pose proof (Bplus_correct 24 128 eq_refl eq_refl binop_nan_pl32 mode_NE a b Fa Fb) as C. cbn [round_mode] in C. change (SpecFloat.fexp 24 128) with fexp in C.
  fold (val a) in C. fold (val b) in C. rewrite Rlt_bool_true in C.
  - destruct C as (C1 & C2 & _). split; auto.
  - rewrite Rabs_pos_eq; auto. apply rnd_nonneg. lra.
Qed.
Lemma mult_ok u t : fin u -> fin t -> 0 <= val u <= 1 -> 0 <= val t ->
  fin (b32_mult mode_NE u t) /\ val (b32_mult mode_NE u t) = rnd (val u * val t).
Proof.
  intros Fu Ft Hu Ht. pose proof (Bmult_correct 24 128 eq_refl eq_refl binop_nan_pl32 mode_NE u t) as C. cbn [round_mode] in C. change (SpecFloat.fexp 24 128) with fexp in C.
  fold (val u) in C. fold (val t) in C. rewrite Rlt_bool_true in C.
  - destruct C as (C1 & C2 & _). split; auto. unfold b32_mult. rewrite C2, Fu, Ft. auto.
  - rewrite Rabs_pos_eq by (apply rnd_nonneg; nra). apply Rle_lt_trans with (val t).
    + rewrite <- (rnd_fmt (val t)) at 2 by apply fmt_val. apply rnd_mono. nra.
    + pose proof (abs_B2R_lt_emax 24 128 t) as Q. fold (val t) in Q. rewrite Rabs_pos_eq in Q; auto.
Qed.
(** A sum of ordinary weights never exceeds 2^127. *)
Lemma plus_bounded a w : 0 <= a <= bpow radix2 127 -> 0 <= w < bpow radix2 103 -> rnd (a + w) <= bpow radix2 127.
Proof.
  intros Ha Hw. apply round_N_le_midp; [typeclasses eauto|apply fmt_bpow; lia|].
  rewrite succ_eq_pos by apply bpow_ge_0. rewrite ulp_bpow. unfold FLT_exp. replace (Z.max (127 + 1 - 24) (-149)) with 104%Z by lia.
  replace (bpow radix2 104) with (2 * bpow radix2 103) by (change 104%Z with (103 + 1)%Z; rewrite bpow_plus; change (bpow radix2 1) with 2; ring). lra.
Qed.
(** A factor below one makes a number above 2^-126 smaller, also after rounding. *)
Lemma mult_smaller u t : fmt u -> fmt t -> 0 <= u < 1 -> bpow radix2 (-126) < t -> rnd (u * t) < t.
Proof.
  intros Fu Ft Hu Ht. pose proof (bpow_gt_0 radix2 (-126)) as P126. assert (Ht0 : 0 < t) by lra.
  assert (F1 : fmt 1) by (apply (fmt_bpow 0); lia).
  assert (Hu1 : u <= 1 - bpow radix2 (-24)).
  { assert (Q : u <= pred radix2 fexp 1) by (apply pred_ge_gt; auto; [typeclasses eauto|lra]). change (pred radix2 fexp 1) with (pred radix2 fexp (bpow radix2 0)) in Q. rewrite pred_bpow in Q. unfold FLT_exp in Q. replace (Z.max (0 - 24) (-149)) with (-24)%Z in Q by lia. change (bpow radix2 0) with 1 in Q. lra. }
  assert (Hp : pred radix2 fexp t < t) by (apply pred_lt_id; lra).
  apply Rle_lt_trans with (pred radix2 fexp t); auto.
  apply round_N_le_midp; [typeclasses eauto|apply generic_format_pred; auto; typeclasses eauto|].
  rewrite (succ_pred radix2 fexp t Ft).
  assert (Gap : t - pred radix2 fexp t < t * bpow radix2 (-23)).
  { set (e := mag radix2 t). destruct e as [e He]. specialize (He ltac:(lra)). rewrite Rabs_pos_eq in He by lra.
    assert (Hm : mag radix2 t = e :> Z) by (apply mag_unique_pos; auto).
    assert (He' : (-126 < e)%Z). { apply (lt_bpow radix2). lra. }
    destruct (Req_dec t (bpow radix2 (e - 1))) as [Eb|Nb].
    - rewrite Eb. assert ((-126 < e - 1)%Z) by (apply (lt_bpow radix2); rewrite <- Eb; auto).
      rewrite pred_bpow. unfold FLT_exp. replace (Z.max (e - 1 - 24) (-149)) with (e - 1 - 24)%Z by lia.
      replace (bpow radix2 (e - 1) - (bpow radix2 (e - 1) - bpow radix2 (e - 1 - 24))) with (bpow radix2 (e - 1 - 24)) by ring. rewrite <- bpow_plus. apply bpow_lt. lia.
    - rewrite pred_eq_pos by lra. unfold pred_pos. rewrite Hm. rewrite Req_bool_false by auto.
      rewrite ulp_neq_0 by lra. unfold cexp. rewrite Hm. unfold FLT_exp. replace (Z.max (e - 24) (-149)) with (e - 24)%Z by lia.
      replace (t - (t - bpow radix2 (e - 24))) with (bpow radix2 (e - 24)) by ring. replace (e - 24)%Z with (e - 1 + (-23))%Z by lia. rewrite bpow_plus.
      apply Rmult_lt_compat_r; [apply bpow_gt_0|]. lra. }
  replace (bpow radix2 (-23)) with (2 * bpow radix2 (-24)) in Gap by (change (-23)%Z with (-24 + 1)%Z; rewrite bpow_plus; change (bpow radix2 1) with 2; ring). nra.
Qed.

(** ** Running sums *)
Definition okacc (a : binary32) : Prop := fin a /\ 0 <= val a <= bpow radix2 127.
Lemma ordinary_range w : ordinary w -> fin w /\ 0 <= val w < bpow radix2 103.
Proof. intros [F [E|E]]; split; auto; [rewrite E; pose proof (bpow_gt_0 radix2 103); lra|]. pose proof (bpow_gt_0 radix2 (-126)). lra. Qed.
Lemma ordinary_acc w : ordinary w -> okacc w.
Proof. intro H. apply ordinary_range in H. destruct H as [F H]. split; auto. assert (bpow radix2 103 < bpow radix2 127) by (apply bpow_lt; lia). lra. Qed.
Lemma step_ok a w : okacc a -> ordinary w -> let s := b32_plus mode_NE a w in okacc s /\ val a <= val s /\ val w <= val s /\ (val w = 0 -> val s = val a).
Proof.
  intros [Fa Ha] Hw s. apply ordinary_range in Hw. destruct Hw as [Fw Hw].
  pose proof (plus_bounded (val a) (val w) Ha Hw) as B. assert (bpow radix2 127 < bpow radix2 128) by (apply bpow_lt; lia).
  destruct (plus_ok a w Fa Fw) as [F E]; try lra. fold s in F, E. rewrite E. split; [split; auto; rewrite E; split; auto; apply rnd_nonneg; lra|]. split; [|split].
  - rewrite <- (rnd_fmt (val a)) at 1 by apply fmt_val. apply rnd_mono. lra.
  - rewrite <- (rnd_fmt (val w)) at 1 by apply fmt_val. apply rnd_mono. lra.
  - intros ->. rewrite Rplus_0_r. apply rnd_fmt, fmt_val.
Qed.
Lemma run_ge l : forall a, okacc a -> Forall ordinary l -> Forall (fun c => okacc c /\ val a <= val c) (runningSum a l).
Proof.
  induction l as [|x l IH]; intros a Ha Hl; [constructor|]. inversion Hl; subst. cbn [runningSum]. destruct (step_ok a x) as (S1 & S2 & _); auto.
  constructor; auto. eapply Forall_impl; [|apply IH; auto]. cbv beta. intros c [C1 C2]. split; auto. lra.
Qed.
Lemma total_run l : forall a, okacc a -> Forall ordinary l -> let t := last (a :: runningSum a l) f0 in
  okacc t /\ val a <= val t /\ (forall w, In w l -> val w <= val t) /\ ((forall w, In w l -> val w = 0) -> val t = val a).
Proof.
  induction l as [|x l IH]; intros a Ha Hl t.
  - change t with a. split; auto. split; [lra|]. split; [intros w []|auto].
  - inversion Hl; subst. destruct (step_ok a x) as (S1 & S2 & S3 & S4); auto. destruct (IH _ S1 ltac:(auto)) as (T1 & T2 & T3 & T4).
    unfold t. cbn [runningSum]. change (last (a :: b32_plus mode_NE a x :: runningSum (b32_plus mode_NE a x) l) f0) with (last (b32_plus mode_NE a x :: runningSum (b32_plus mode_NE a x) l) f0).
    split; auto. split; [lra|]. split.
    + intros w [->|Hw]; [lra|auto].
    + intro H. rewrite T4 by (intros; apply H; right; auto). apply S4, H. left; auto.
Qed.
Lemma total_ok l : Forall ordinary l -> let t := last (partialSum l) f0 in
  okacc t /\ (forall w, In w l -> val w <= val t) /\ ((forall w, In w l -> val w = 0) -> val t = 0).
Proof.
  intros Hl t. destruct l as [|x l].
  - split; [|split]; [|intros w []|auto]. split; [reflexivity|]. unfold t. cbn. pose proof (bpow_gt_0 radix2 127). split; [lra|]. cbn in H. lra.
  - inversion Hl; subst. destruct (total_run l x) as (T1 & T2 & T3 & T4); auto; [apply ordinary_acc; auto|]. unfold t. cbn [partialSum]. split; auto. split.
    + intros w [->|Hw]; auto.
    + intro H. rewrite T4 by (intros; apply H; right; auto). apply H. left; auto.
Qed.
Lemma above l a r : okacc a -> fin r -> Forall ordinary l -> val r < val a -> forallb (flt r) (runningSum a l) = true.
Proof.
  intros Ha Fr Hl Hr. apply forallb_forall. intros c Hc. pose proof (run_ge l a Ha Hl) as G. rewrite Forall_forall in G. destruct (G c Hc) as [[Fc _] G2]. apply flt_ok; auto. lra.
Qed.
Lemma ub_run l : forall a r, okacc a -> fin r -> Forall ordinary l -> val a <= val r -> val r < val (last (a :: runningSum a l) f0) ->
  exists i, upperBound (runningSum a l) r = Ok i /\ (i < length l)%nat /\ 0 < val (nth i l f0).
Proof.
  induction l as [|x l IH]; intros a r Ha Fr Hl Hr Ht; [cbn in Ht; lra|]. inversion Hl; subst. destruct (step_ok a x) as (S1 & S2 & S3 & S4); auto.
  cbn [runningSum upperBound]. set (s := b32_plus mode_NE a x) in *. destruct (flt r s) eqn:E.
  - apply flt_ok in E; auto; [|apply S1]. rewrite above by auto. exists 0%nat. split; auto. split; [simpl; lia|]. cbn [nth].
    destruct (Rle_lt_or_eq_dec 0 (val x)) as [|E0]; auto; [apply ordinary_range; auto|]. rewrite S4 in E by auto. lra.
  - assert (E' : ~ val r < val s) by (intro Q; apply flt_ok in Q; auto; [congruence|apply S1]).
    destruct (IH s r) as (i & U & Li & P); auto; [lra|]. rewrite U. exists (S i). split; auto. split; [simpl; lia|auto].
Qed.
Lemma ub_ok l r : Forall ordinary l -> fin r -> 0 <= val r < val (last (partialSum l) f0) ->
  exists i, upperBound (partialSum l) r = Ok i /\ (i < length l)%nat /\ 0 < val (nth i l f0).
Proof.
  intros Hl Fr [H0 Ht]. destruct l as [|x l]; [cbn in Ht; lra|]. inversion Hl; subst. cbn [partialSum upperBound] in *.
  destruct (flt r x) eqn:E.
  - apply flt_ok in E; auto; [|apply ordinary_range; auto]. rewrite above by (auto; apply ordinary_acc; auto). exists 0%nat. split; auto. split; [simpl; lia|]. cbn [nth]. lra.
  - assert (E' : ~ val r < val x) by (intro Q; apply flt_ok in Q; auto; [congruence|apply ordinary_range; auto]).
    destruct (ub_run l x r) as (i & U & Li & P); auto; [apply ordinary_acc; auto|lra|]. rewrite U. exists (S i). split; auto. split; [simpl; lia|auto].
Qed.

(** ** One row *)
Lemma drawable_in n W i : In i (drawable n W) <-> (i < n)%nat /\ 0 < val (W i).
Proof. unfold drawable. rewrite filter_In, in_seq. split; intros [H1 H2]; split; try lia. - destruct (Rlt_bool_spec 0 (val (W i))); auto; discriminate. - apply Rlt_bool_true; auto. Qed.
Lemma drawable_nodup n W : NoDup (drawable n W).
Proof. apply NoDup_filter, seq_NoDup. Qed.
Local Notation avail l := (drawable (length l) (fun i => nth i l f0)).
Lemma total_pos l : Forall ordinary l -> flt f0 (last (partialSum l) f0) = true <-> (1 <= length (avail l))%nat.
Proof.
  intro Hl. destruct (total_ok l Hl) as ([Ft Ht] & T1 & T2). rewrite flt_ok by (auto; apply f0_ok). rewrite (proj2 f0_ok). split; intro H.
  - destruct (avail l) as [|i r] eqn:E; [|simpl; lia]. exfalso. rewrite T2 in H; [lra|]. intros w Hw. apply In_nth with (d := f0) in Hw. destruct Hw as (i & Li & Ei).
    destruct (Req_dec (val w) 0); auto. exfalso. assert (Q : In i (avail l)); [|rewrite E in Q; destruct Q]. apply drawable_in. split; auto. cbv beta. rewrite Ei.
    rewrite Forall_forall in Hl. specialize (Hl w). destruct (ordinary_range w) as [_ G]; [apply Hl; rewrite <- Ei; apply nth_In; auto|]. lra.
  - destruct (avail l) as [|i r] eqn:E; [simpl in H; lia|]. assert (Q : In i (avail l)) by (rewrite E; left; auto). apply drawable_in in Q. destruct Q as [Li P].
    specialize (T1 (nth i l f0) (nth_In l f0 Li)). lra.
Qed.
Lemma draw_ok l u : Forall ordinary l -> in_unit u -> (1 <= length (avail l))%nat ->
  exists i, upperBound (partialSum l) (b32_mult mode_NE u (last (partialSum l) f0)) = Ok i /\ In i (avail l).
Proof.
  intros Hl [Fu Hu] Ha. destruct (total_ok l Hl) as ([Ft Ht] & T1 & T2). set (t := last (partialSum l) f0) in *.
  destruct (mult_ok u t) as [Fr Er]; auto; try lra.
  assert (Hb : bpow radix2 (-126) < val t).
  { destruct (avail l) as [|i r] eqn:E; [simpl in Ha; lia|]. assert (Q : In i (avail l)) by (rewrite E; left; auto). apply drawable_in in Q. destruct Q as [Li P]. cbv beta in P.
    pose proof (nth_In l f0 Li) as Hin. specialize (T1 _ Hin). rewrite Forall_forall in Hl. destruct (Hl _ Hin) as [_ [Z0|G]]; lra. }
  destruct (ub_ok l (b32_mult mode_NE u t)) as (i & U & Li & P); auto.
  - rewrite Er. split; [apply rnd_nonneg; nra|]. fold t. apply mult_smaller; try apply fmt_val; auto.
  - exists i. split; auto. apply drawable_in. auto.
Qed.
Lemma set_ordinary l : forall i, Forall ordinary l -> Forall ordinary (set_nth l i f0).
Proof.
  induction l as [|x l IH]; intros [|i] H; inversion H; subst; cbn; constructor; auto. split; [reflexivity|left; reflexivity].
Qed.
Lemma nth_set l i j : (i < length l)%nat -> nth j (set_nth l i f0) f0 = if (j =? i)%nat then f0 else nth j l f0.
Proof.
  intro H. rewrite <- !(nth_default_eq j). unfold nth_default. rewrite set_nth_nth. destruct (Nat.eqb_spec j i); auto. destruct (Nat.ltb_spec i (length l)); [auto|lia].
Qed.
Lemma avail_set l i : In i (avail l) -> length (avail l) = S (length (avail (set_nth l i f0))).
Proof.
  intro H. pose proof H as H'. apply drawable_in in H'. destruct H' as [Li P].
  assert (Permutation.Permutation (avail l) (i :: avail (set_nth l i f0))).
  { apply Permutation.NoDup_Permutation.
    - apply drawable_nodup.
    - constructor; [|apply drawable_nodup]. rewrite drawable_in, nth_set by auto. rewrite Nat.eqb_refl. intros [_ Q]. rewrite (proj2 f0_ok) in Q. lra.
    - intro j. cbn [In]. rewrite !drawable_in, set_nth_length, nth_set by auto. destruct (Nat.eqb_spec j i) as [->|N].
      + tauto.
      + split; [intros [? ?]; right; auto|intros [E|[? ?]]; [congruence|auto]]. }
  apply Permutation.Permutation_length in H0. exact H0.
Qed.
Lemma row_ok (replacement : bool) us : forall l, Forall ordinary l -> Forall in_unit us ->
  (us = [] \/ if replacement then 1 <= length (avail l) else length us <= length (avail l))%nat ->
  exists r, drawRow replacement l us = Ok r /\ length r = length us /\ Forall (fun i => In i (avail l)) r /\ (replacement = false -> NoDup r).
Proof.
  induction us as [|u us IH]; intros l Hl Hu Hen.
  - exists []. repeat split; auto. intros _. constructor.
  - inversion Hu; subst. destruct Hen as [Hen|Hen]; [discriminate|].
    assert (Ha : (1 <= length (avail l))%nat) by (destruct replacement; simpl in Hen; lia).
    cbn [drawRow]. rewrite (proj2 (total_pos l Hl) Ha). destruct (draw_ok l u) as (i & U & Hi); auto. rewrite U. destruct replacement.
    + destruct (IH l) as (r & E & Lr & Fr & _); auto. rewrite E. exists (i :: r). split; auto. split; [simpl; auto|]. split; [constructor; auto|discriminate].
    + pose proof Hi as Hi'. apply drawable_in in Hi'. destruct Hi' as [Li P]. rewrite wr_set by auto.
      destruct (IH (set_nth l i f0)) as (r & E & Lr & Fr & Nr); auto.
      * apply set_ordinary; auto.
      * right. pose proof (avail_set l i Hi). simpl in Hen. lia.
      * rewrite E. exists (i :: r). split; auto. split; [simpl; auto|]. rewrite Forall_forall in Fr.
        assert (Q : forall j, In j r -> j <> i /\ In j (avail l)).
        { intros j Hj. apply Fr in Hj. rewrite drawable_in, set_nth_length, nth_set in Hj by auto. destruct Hj as [Lj Pj]. destruct (Nat.eqb_spec j i) as [->|N]; [rewrite (proj2 f0_ok) in Pj; lra|].
          split; auto. apply drawable_in. auto. }
        split; [constructor; auto; apply Forall_forall; intros j Hj; apply Q; auto|]. intros _. constructor; [intro Hin; apply Q in Hin; tauto|auto].
Qed.
Lemma row_fail (replacement : bool) us : forall l, Forall ordinary l -> Forall in_unit us -> us <> [] ->
  (if replacement then length (avail l) = 0%nat else length (avail l) < length us)%nat -> drawRow replacement l us = Fail.
Proof.
  induction us as [|u us IH]; intros l Hl Hu Hne Hen; [congruence|]. inversion Hu; subst. cbn [drawRow].
  destruct (flt f0 (last (partialSum l) f0)) eqn:E; auto. apply total_pos in E; auto.
  destruct replacement; [lia|]. destruct (draw_ok l u) as (i & U & Hi); auto. rewrite U. pose proof Hi as Hi'. apply drawable_in in Hi'. destruct Hi' as [Li P]. rewrite wr_set by auto.
  rewrite IH; auto.
  - apply set_ordinary; auto.
  - intro Z0. subst us. simpl in Hen. lia.
  - pose proof (avail_set l i Hi). simpl in Hen. lia.
Qed.

(** ** All rows *)
Lemma avail_map n W : avail (map W (seq 0 n)) = drawable n W.
Proof.
  unfold drawable. rewrite map_length, seq_length. apply filter_ext_in. intros i Hi. apply in_seq in Hi.
  rewrite (nth_indep _ f0 (W 0%nat)) by (rewrite map_length, seq_length; lia). rewrite (map_nth W), seq_nth by lia. auto.
Qed.
Lemma map_ordinary n W : (forall i, (i < n)%nat -> ordinary (W i)) -> Forall ordinary (map W (seq 0 n)).
Proof. intro H. apply Forall_forall. intros w Hw. apply in_map_iff in Hw. destruct Hw as (i & <- & Hi). apply in_seq in Hi. apply H. lia. Qed.
Lemma rows_ok (replacement : bool) data n k us W : (forall j, in_unit (us j)) -> forall bs,
  (forall b, In b bs -> (forall i, (i < n)%nat -> rd data (b * n + i) = Some (W b i)) /\ (forall i, (i < n)%nat -> ordinary (W b i)) /\ enough replacement k n (W b)) ->
  exists rs, drawRows replacement data n k us bs = Ok (concat rs) /\
    Forall2 (fun b r => length r = k /\ Forall (fun i => In i (drawable n (W b))) r /\ (replacement = false -> NoDup r)) bs rs.
Proof.
  intros Hus. induction bs as [|b bs IH]; intro H; [exists []; split; auto|].
  destruct (H b) as (H1 & H2 & H3); [left; auto|]. cbn [drawRows]. rewrite (tab_some n _ (W b)) by auto.
  destruct (row_ok replacement (map (fun s => us (b * k + s)%nat) (seq 0 k)) (map (W b) (seq 0 n))) as (r & E & Lr & Fr & Nr).
  - apply map_ordinary; auto.
  - apply Forall_forall. intros u Hu. apply in_map_iff in Hu. destruct Hu as (s & <- & _). auto.
  - rewrite avail_map, map_length, seq_length. destruct H3 as [->|H3]; auto.
  - rewrite E. destruct IH as (rs & Es & Fs); [intros; apply H; right; auto|]. rewrite Es. exists (r :: rs). split; auto. constructor; auto.
    rewrite map_length, seq_length in Lr. rewrite avail_map in Fr. auto.
Qed.
Lemma rows_fail (replacement : bool) data n k us W : (forall j, in_unit (us j)) -> forall bs,
  (forall b, In b bs -> (forall i, (i < n)%nat -> rd data (b * n + i) = Some (W b i)) /\ (forall i, (i < n)%nat -> ordinary (W b i))) ->
  (exists b, In b bs /\ ~ enough replacement k n (W b)) -> drawRows replacement data n k us bs = Fail.
Proof.
  intros Hus. induction bs as [|b bs IH]; intros H (b' & Hb' & Hn); [destruct Hb'|].
  destruct (H b) as (H1 & H2); [left; auto|]. cbn [drawRows]. rewrite (tab_some n _ (W b)) by auto.
  assert (D : enough replacement k n (W b) \/ ~ enough replacement k n (W b)).
  { unfold enough. destruct replacement; lia. }
  destruct D as [D|D].
  - destruct (row_ok replacement (map (fun s => us (b * k + s)%nat) (seq 0 k)) (map (W b) (seq 0 n))) as (r & E & Lr & Fr & Nr).
    + apply map_ordinary; auto.
    + apply Forall_forall. intros u Hu. apply in_map_iff in Hu. destruct Hu as (s & <- & _). auto.
    + rewrite avail_map, map_length, seq_length. destruct D as [->|D]; auto.
    + rewrite E. rewrite IH; auto; [intros; apply H; right; auto|]. exists b'. split; auto. destruct Hb' as [->|]; auto. tauto.
  - rewrite row_fail; auto.
    + apply map_ordinary; auto.
    + apply Forall_forall. intros u Hu. apply in_map_iff in Hu. destruct Hu as (s & <- & _). auto.
    + intro Z0. apply map_eq_nil in Z0. apply D. left. destruct k; auto; discriminate.
    + rewrite avail_map, map_length, seq_length. unfold enough in D. destruct replacement; lia.
Qed.
Lemma nth_concat {A} (d : A) k : forall rs b s, Forall (fun r => length r = k) rs -> (s < k)%nat -> nth (b * k + s) (concat rs) d = nth s (nth b rs []) d.
Proof.
  induction rs as [|r rs IH]; intros b s H Hs.
  - assert (N : forall (B : Type) (e : B) i, nth i [] e = e) by (intros B e []; auto). cbn [concat]. rewrite !N. auto.
  - inversion H; subst. cbn [concat]. destruct b as [|b].
    + cbn [nth]. rewrite Nat.mul_0_l, Nat.add_0_l, app_nth1; auto.
    + cbn [nth]. rewrite app_nth2 by lia. replace (S b * length r + s - length r)%nat with (b * length r + s)%nat by lia. apply IH; auto.
Qed.
Lemma concat_len {A} k (rs : list (list A)) : Forall (fun r => length r = k) rs -> length (concat rs) = (length rs * k)%nat.
Proof. induction 1; cbn [concat length]; [auto|]. rewrite app_length. lia. Qed.
Lemma rows_draws (replacement : bool) n k (W : nat -> nat -> binary32) bs rs : 
  Forall2 (fun b r => length r = k /\ Forall (fun i => In i (drawable n (W b))) r /\ (replacement = false -> NoDup r)) bs rs ->
  length (concat rs) = (length bs * k)%nat /\ forall j b, nth_error bs j = Some b -> valid_draws replacement k n (W b) (fun s => nth (j * k + s) (concat rs) 0%nat).
Proof.
  intro H. assert (L : Forall (fun r => length r = k) rs) by (clear -H; induction H; constructor; tauto).
  assert (Ll : length bs = length rs) by (eapply Forall2_length; eauto). split; [rewrite Ll; apply concat_len; auto|].
  intros j b Hb. assert (Q : exists r, nth_error rs j = Some r /\ length r = k /\ Forall (fun i => In i (drawable n (W b))) r /\ (replacement = false -> NoDup r)).
  { clear L Ll. revert j Hb. induction H as [|b' r' bs rs Hbr H IH]; intros [|j] Hb; try discriminate.
    - inversion Hb; subst. exists r'. auto.
    - apply IH. auto. }
  destruct Q as (r & Er & Lr & Fr & Nr). rewrite Forall_forall in Fr.
  assert (E : forall s, (s < k)%nat -> nth (j * k + s) (concat rs) 0%nat = nth s r 0%nat).
  { intros s Hs. rewrite nth_concat by auto. f_equal. apply nth_error_nth. auto. }
  assert (I : forall s, (s < k)%nat -> In (nth s r 0%nat) (drawable n (W b))) by (intros; apply Fr, nth_In; lia).
  split; [|split].
  - intros s Hs. rewrite E by auto. apply I in Hs. apply drawable_in in Hs. tauto.
  - intros s Hs. rewrite E by auto. apply I in Hs. apply drawable_in in Hs. tauto.
  - intros Hr s s' Hs Hs'. rewrite !E by auto. intro Q. specialize (Nr Hr). eapply NoDup_nth in Q; eauto; lia.
Qed.
Lemma draws_ext (replacement : bool) k n W f g : (forall s, (s < k)%nat -> f s = g s) -> valid_draws replacement k n W f -> valid_draws replacement k n W g.
Proof.
  intros E (V1 & V2 & V3). split; [|split].
  - intros s Hs. rewrite <- E by auto. auto.
  - intros s Hs. rewrite <- E by auto. auto.
  - intros Hr s s' Hs Hs'. rewrite <- !E by auto. auto.
Qed.
