(** Which category a random number selects. *)
From Coq Require Import ZArith Reals List Arith Bool Lia Lra.
From Flocq Require Import Core IEEE754.BinarySingleNaN IEEE754.Binary IEEE754.Bits.
From Verif Require Import ShapeModel ShapeSpec ShapeProofs TensorModel TensorSpec TensorLemmas BcastModel BufModel MultiModel MultiSpec MultiProofs.
Import ListNotations.
Open Scope R_scope.
Local Notation fin w := (is_finite 24 128 w = true).

Definition lsum (ws : list R) (a : R) : R := fold_left (fun acc w => rnd32 (acc + w)) ws a.
Lemma fsum_lsum w i : fsum w i = lsum (map w (seq 0 i)) 0.
Proof. unfold fsum, lsum. generalize 0. induction (seq 0 i) as [|j l IH]; intro a; auto. cbn. apply IH. Qed.
Lemma fsum_ext w w' i : (forall j, (j < i)%nat -> w j = w' j) -> fsum w i = fsum w' i.
Proof. intro H. rewrite !fsum_lsum. f_equal. apply map_ext_in. intros j Hj. apply in_seq in Hj. apply H. lia. Qed.
Lemma run_val l : forall a, okacc a -> Forall ordinary l ->
  length (runningSum a l) = length l /\ forall j, (j < length l)%nat -> fin (nth j (runningSum a l) f0) /\ val (nth j (runningSum a l) f0) = lsum (map val (firstn (S j) l)) (val a).
Proof.
  induction l as [|x l IH]; intros a Ha Hl; [split; auto; intros j Hj; simpl in Hj; lia|]. inversion Hl; subst.
  destruct (step_ok a x) as (S1 & _); auto. destruct (IH _ S1 ltac:(auto)) as [L V]. cbn [runningSum length]. split; [lia|].
  assert (E : val (b32_plus mode_NE a x) = rnd32 (val a + val x)).
  { destruct Ha as [Fa Ha]. apply ordinary_range in H1. destruct H1 as [Fx Hx].
    pose proof (plus_bounded (val a) (val x) Ha Hx). assert (bpow radix2 127 < bpow radix2 128) by (apply bpow_lt; lia).
    apply (plus_ok a x Fa Fx); try lra. }
  intros [|j] Hj; cbn [nth firstn map].
  - cbn. split; [apply S1|exact E].
  - unfold lsum. cbn [fold_left]. fold (lsum (map val (firstn (S j) l)) (rnd32 (val a + val x))). rewrite <- E. apply V. lia.
Qed.
Lemma part_val l : Forall ordinary l ->
  length (partialSum l) = length l /\ forall j, (j < length l)%nat -> fin (nth j (partialSum l) f0) /\ val (nth j (partialSum l) f0) = fsum (fun i => val (nth i l f0)) (S j).
Proof.
  destruct l as [|x l]; intro Hl; [split; auto; intros j Hj; simpl in Hj; lia|]. inversion Hl; subst. destruct (run_val l x) as [L V]; auto; [apply ordinary_acc; auto|].
  assert (R0 : rnd32 (0 + val x) = val x) by (rewrite Rplus_0_l; apply rnd_fmt, fmt_val).
  cbn [partialSum length]. split; [lia|]. intros [|j] Hj.
  - cbn [nth]. split; [apply ordinary_range; auto|]. unfold fsum. cbn. auto.
  - change (nth (S j) (x :: runningSum x l) f0) with (nth j (runningSum x l) f0). destruct (V j) as [F E]; [lia|]. split; auto. rewrite E, fsum_lsum.
    replace (map (fun i => val (nth i (x :: l) f0)) (seq 0 (S (S j)))) with (val x :: map val (firstn (S j) l)).
    + unfold lsum. cbn [fold_left]. rewrite R0. auto.
    + change (seq 0 (S (S j))) with (0%nat :: seq 1 (S j)). rewrite map_cons. cbn [nth]. f_equal. rewrite <- seq_shift, map_map. cbn [nth].
      rewrite <- (map_map (fun i => nth i l f0) val). f_equal. assert (Hj' : (S j <= length l)%nat) by lia. clear -Hj'.
      generalize dependent (S j). intro n. revert l. induction n as [|n IH]; intros l H; auto. destruct l as [|y l]; [simpl in H; lia|]. cbn [firstn seq map nth].
      rewrite <- seq_shift, map_map. cbn [nth]. f_equal. apply IH. simpl in H. lia.
Qed.
Lemma ub_spec cdf r : forall i, upperBound cdf r = Ok i -> (forall j, (j < length cdf)%nat -> fin (nth j cdf f0)) -> fin r ->
  (i <= length cdf)%nat /\ (forall j, (j < i)%nat -> val (nth j cdf f0) <= val r) /\ ((i < length cdf)%nat -> val r < val (nth i cdf f0)).
Proof.
  induction cdf as [|c cdf IH]; intros i E F Fr; cbn [upperBound] in E.
  - injection E as <-. simpl. split; auto. split; intros; lia.
  - pose proof (F 0%nat ltac:(simpl; lia)) as Fc. cbn [nth] in Fc. destruct (flt r c) eqn:Ec.
    + destruct (forallb _ _); [|discriminate]. injection E as <-. split; [simpl; lia|]. split; [intros; lia|]. intros _. cbn [nth]. apply flt_ok in Ec; auto.
    + assert (Hc : val c <= val r) by (apply Rnot_lt_le; intro Q; apply flt_ok in Q; auto; congruence).
      destruct (upperBound cdf r) as [| |i'] eqn:E'; try discriminate. injection E as <-.
      destruct (IH i' eq_refl) as (H1 & H2 & H3); auto; [intros j Hj; apply (F (S j)); simpl; lia|].
      split; [simpl; lia|]. split; [intros [|j] Hj; cbn [nth]; auto; apply H2; lia|]. intro Hi. cbn [nth]. apply H3. simpl in Hi. lia.
Qed.
Lemma last_nth' (l : list binary32) : l <> [] -> last l f0 = nth (length l - 1) l f0.
Proof.
  induction l as [|x l IH]; intro H; [congruence|]. destruct l as [|y l]; [reflexivity|].
  change (last (x :: y :: l) f0) with (last (y :: l) f0). rewrite IH by discriminate. cbn [length nth]. replace (S (S (length l)) - 1)%nat with (S (S (length l) - 1)) by lia. reflexivity.
Qed.
Lemma pick_ok l u i : Forall ordinary l -> in_unit u -> (i < length l)%nat ->
  upperBound (partialSum l) (b32_mult mode_NE u (last (partialSum l) f0)) = Ok i ->
  let w := fun i => val (nth i l f0) in fsum w i <= rnd32 (val u * fsum w (length l)) < fsum w (S i).
Proof.
  intros Hl [Fu Hu] Hi E w. destruct (total_ok l Hl) as ([Ft Ht] & _). destruct (part_val l Hl) as [L V]. set (t := last (partialSum l) f0) in *.
  assert (Et : val t = fsum w (length l)).
  { unfold t. rewrite last_nth', L by (intro Q; rewrite Q in L; simpl in L; lia). destruct (V (length l - 1)%nat) as [_ ->]; [lia|]. f_equal. lia. }
  destruct (mult_ok u t) as [Fr Er]; auto; try lra. rewrite <- Et. unfold rnd32. rewrite <- Er.
  destruct (ub_spec _ _ _ E) as (_ & H2 & H3); auto; [intros j Hj; apply V; lia|].
  rewrite L in H3. specialize (H3 Hi). destruct (V i Hi) as [_ Vi]. fold w in Vi. rewrite <- Vi. split; auto.
  destruct i as [|i].
  - rewrite Er. cbn. apply rnd_nonneg. nra.
  - specialize (H2 i ltac:(lia)). destruct (V i ltac:(lia)) as [_ Vi']. fold w in Vi'. rewrite <- Vi'. auto.
Qed.
Lemma row_picks (replacement : bool) us : forall l r, Forall ordinary l -> Forall in_unit us ->
  (us = [] \/ if replacement then 1 <= length (drawable (length l) (fun i => nth i l f0)) else length us <= length (drawable (length l) (fun i => nth i l f0)))%nat ->
  drawRow replacement l us = Ok r ->
  draws_by_weight replacement (length us) (length l) (fun i => nth i l f0) (fun s => nth s us f0) (fun s => nth s r 0%nat).
Proof.
  induction us as [|u us IH]; intros l r Hl Hu Hen E; [intros s Hs; simpl in Hs; lia|]. inversion Hu; subst.
  destruct Hen as [Hen|Hen]; [discriminate|]. assert (Ha : (1 <= length (drawable (length l) (fun i => nth i l f0)))%nat) by (destruct replacement; simpl in Hen; lia).
  cbn [drawRow] in E. rewrite (proj2 (total_pos l Hl) Ha) in E. destruct (draw_ok l u) as (i & U & Hi); auto. rewrite U in E. pose proof Hi as Hi'. apply drawable_in in Hi'. destruct Hi' as [Li P].
  pose proof (pick_ok l u i Hl H1 Li U) as PK.
  assert (H0 : forall (rep : bool) r', let w := weights_at rep (fun i => nth i l f0) (fun s => nth s (i :: r') 0%nat) 0 in
     fsum w i <= rnd32 (val u * fsum w (length l)) < fsum w (S i)).
  { intros rep r'. unfold weights_at. cbn [seq existsb]. rewrite andb_false_r. exact PK. }
  destruct replacement.
  - destruct (drawRow true l us) as [| |r'] eqn:E'; try discriminate. injection E as <-. intros [|s] Hs w.
    + apply (H0 true).
    + specialize (IH l r' Hl H2 ltac:(right; auto) E' s). simpl in Hs. specialize (IH ltac:(lia)). exact IH.
  - rewrite wr_set in E by auto. destruct (drawRow false (set_nth l i f0) us) as [| |r'] eqn:E'; try discriminate. injection E as <-. intros [|s] Hs w.
    + apply (H0 false).
    + simpl in Hs. assert (IH' := IH (set_nth l i f0) r' (set_ordinary l i Hl) H2).
      assert (Hen' : us = [] \/ (length us <= length (drawable (length (set_nth l i f0)) (fun j => nth j (set_nth l i f0) f0)))%nat) by (right; pose proof (avail_set l i Hi); simpl in Hen; lia).
      specialize (IH' Hen' E' s ltac:(lia)). cbv zeta in IH'. rewrite set_nth_length in IH'.
      assert (Ew : forall j, weights_at false (fun j => nth j (set_nth l i f0) f0) (fun s => nth s r' 0%nat) s j = w j).
      { intro j. assert (EX : existsb (fun s' => (nth s' (i :: r') 0 =? j)%nat) (seq 0 (S s)) = ((i =? j)%nat || existsb (fun s' => (nth s' r' 0 =? j)%nat) (seq 0 s))).
        { change (seq 0 (S s)) with (0%nat :: seq 1 s). cbn [existsb]. f_equal. rewrite <- seq_shift. generalize (seq 0 s) as ss. clear. induction ss as [|a ss IHl]; [reflexivity|]. cbn [map existsb]. rewrite IHl. reflexivity. }
        unfold w, weights_at. cbn [negb andb]. rewrite EX, nth_set by auto. rewrite (Nat.eqb_sym i j). destruct (Nat.eqb_spec j i); cbn [orb].
        - match goal with |- (if ?b then 0 else val f0) = _ => destruct b; reflexivity end.
        - reflexivity. }
      change (nth (S s) (i :: r') 0%nat) with (nth s r' 0%nat). change (nth (S s) (u :: us) f0) with (nth s us f0). rewrite !(fsum_ext w (weights_at false (fun j => nth j (set_nth l i f0) f0) (fun s => nth s r' 0%nat) s)) by (intros; symmetry; apply Ew). exact IH'.
Qed.
Lemma rows_split (replacement : bool) data n k us : forall bs d, drawRows replacement data n k us bs = Ok d ->
  exists rs, d = concat rs /\ Forall2 (fun b r => exists prob, tab n (fun i => rd data (b * n + i)) = Some prob /\ drawRow replacement prob (map (fun s => us (b * k + s)%nat) (seq 0 k)) = Ok r) bs rs.
Proof.
  induction bs as [|b bs IH]; intros d E; cbn [drawRows] in E.
  - injection E as <-. exists []. split; auto.
  - destruct (tab _ _) as [prob|] eqn:ET; [|discriminate]. destruct (drawRow _ _ _) as [| |r] eqn:ER; try discriminate.
    destruct (drawRows _ _ _ _ _ bs) as [| |rs] eqn:E2; try discriminate. injection E as <-. destruct (IH rs eq_refl) as (rs' & -> & F).
    exists (r :: rs'). split; auto. constructor; auto. exists prob. auto.
Qed.
Lemma row_len (replacement : bool) us : forall l r, drawRow replacement l us = Ok r -> length r = length us.
Proof.
  induction us as [|u us IH]; intros l r E; cbn [drawRow] in E; [injection E as <-; auto|].
  destruct (flt _ _); [|discriminate]. destruct (upperBound _ _) as [| |i]; try discriminate. destruct replacement.
  - destruct (drawRow _ _ _) as [| |r'] eqn:E'; try discriminate. injection E as <-. cbn [length]. f_equal. eauto.
  - destruct (wr _ _ _) as [l'|]; [|discriminate]. destruct (drawRow _ _ _) as [| |r'] eqn:E'; try discriminate. injection E as <-. cbn [length]. f_equal. eauto.
Qed.
Lemma picks_ext (replacement : bool) k n W W' u u' d d' : (forall i, (i < n)%nat -> W i = W' i) -> (forall s, (s < k)%nat -> u s = u' s /\ d s = d' s /\ (d s < n)%nat) ->
  draws_by_weight replacement k n W u d -> draws_by_weight replacement k n W' u' d'.
Proof.
  intros HW Hs H s Hk w. destruct (Hs s Hk) as (E1 & E2 & L). specialize (H s Hk). cbv zeta in H. rewrite <- E1, <- E2.
  assert (Ew : forall j, (j < n)%nat -> weights_at replacement W d s j = w j).
  { intros j Hj. unfold w, weights_at. rewrite HW by auto. replace (existsb (fun s' => (d s' =? j)%nat) (seq 0 s)) with (existsb (fun s' => (d' s' =? j)%nat) (seq 0 s)); auto.
    assert (Q : forall l, (forall s', In s' l -> (s' < k)%nat) -> existsb (fun s' => (d' s' =? j)%nat) l = existsb (fun s' => (d s' =? j)%nat) l).
    { induction l as [|a l IHl]; intro Hl; auto. cbn [existsb]. rewrite IHl by (intros; apply Hl; right; auto). destruct (Hs a) as (_ & -> & _); auto. apply Hl. left; auto. }
    apply Q. intros s' Hs'. apply in_seq in Hs'. lia. }
  rewrite <- !(fsum_ext (weights_at replacement W d s) w) by (intros; apply Ew; lia). auto.
Qed.
Lemma rows_picks (replacement : bool) data n k us W bs d : (forall j, in_unit (us j)) ->
  (forall b, In b bs -> (forall i, (i < n)%nat -> rd data (b * n + i) = Some (W b i)) /\ (forall i, (i < n)%nat -> ordinary (W b i)) /\ enough replacement k n (W b)) ->
  drawRows replacement data n k us bs = Ok d -> (forall p, (p < length d)%nat -> (nth p d 0 < n)%nat) ->
  forall j b, nth_error bs j = Some b -> draws_by_weight replacement k n (W b) (fun s => us (b * k + s)%nat) (fun s => nth (j * k + s) d 0%nat).
Proof.
  intros Hus H E Hd j b Hb. destruct (rows_split _ _ _ _ _ _ _ E) as (rs & -> & F).
  assert (L : Forall (fun r => length r = k) rs).
  { clear -F. induction F as [|b r bs rs (prob & _ & E) F IH]; constructor; auto. apply row_len in E. rewrite E, map_length, seq_length. auto. }
  assert (Q : exists r, nth_error rs j = Some r /\ exists prob, tab n (fun i => rd data (b * n + i)) = Some prob /\ drawRow replacement prob (map (fun s => us (b * k + s)%nat) (seq 0 k)) = Ok r).
  { clear -F Hb. revert j Hb. induction F as [|b' r' bs rs Hbr F IH]; intros [|j] Hb; try discriminate.
    - inversion Hb; subst. exists r'. auto.
    - apply IH. auto. }
  destruct Q as (r & Er & prob & Et & Ed). destruct (H b) as (H1 & H2 & H3); [eapply nth_error_In; eauto|].
  rewrite (tab_some n _ (W b)) in Et by auto. injection Et as <-.
  pose proof (row_len _ _ _ _ Ed) as Lr. rewrite map_length, seq_length in Lr.
  assert (En : forall s, (s < k)%nat -> nth s r 0%nat = nth (j * k + s) (concat rs) 0%nat).
  { intros s Hs. rewrite nth_concat by auto. f_equal. symmetry. apply nth_error_nth. auto. }
  assert (Lc : forall s, (s < k)%nat -> (j * k + s < length (concat rs))%nat).
  { intros s Hs. rewrite (concat_len k) by auto. assert (j < length rs)%nat by (apply nth_error_Some; rewrite Er; discriminate). nia. }
  apply row_picks in Ed.
  - rewrite !map_length, !seq_length in Ed. eapply picks_ext; [| |exact Ed]; cbv beta.
    + intros i Hi. rewrite (nth_indep _ f0 (W b 0%nat)) by (rewrite map_length, seq_length; lia). rewrite (map_nth (W b)), seq_nth by lia. auto.
    + intros s Hs. split; [|split].
      * rewrite (nth_indep _ f0 (us (b * k + 0)%nat)) by (rewrite map_length, seq_length; lia). rewrite (map_nth (fun s => us (b * k + s)%nat)), seq_nth by lia. auto.
      * auto.
      * rewrite En by auto. apply Hd. auto.
  - apply map_ordinary; auto.
  - apply Forall_forall. intros u Hu. apply in_map_iff in Hu. destruct Hu as (s & <- & _). auto.
  - rewrite avail_map, map_length, seq_length. destruct H3 as [->|H3]; auto.
Qed.
