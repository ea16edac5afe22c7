From Coq Require Import ZArith List Bool Arith Lia ZifyBool ZifyNat Permutation.
From Verif Require Import StoreModel StoreSpec StoreProofs.
Import ListNotations.
Open Scope Z_scope.

(** * Running totals *)
Lemma reads_parse : forall v z, reads_as v z -> signed (skipSpace v) = Some z.
Proof.
  intros v z (ws & sg & ds & junk & -> & Hws & Hds & Hne & HJ & Hz).
  destruct ds as [|d ds]; [contradiction|]. pose proof (readNumber_app (d :: ds) junk Hds Hne HJ) as HR. inversion Hds as [|? ? Hd Hds']; subst x l. unfold is_digit in Hd.
  assert (HS : skipSpace (ws ++ sg ++ (d :: ds) ++ junk) = sg ++ (d :: ds) ++ junk).
  { apply skipSpace_app; auto. right. unfold is_space. destruct Hz as [[[ -> | -> ] _]|[ -> _]]; cbn; lia. }
  rewrite HS. destruct Hz as [[[ -> | -> ] ->]|[ -> ->]].
  - cbn [app]. unfold signed. destruct (Z.eqb_spec d 45); [lia|]. destruct (Z.eqb_spec d 43); [lia|]. cbn [app] in HR. exact HR.
  - cbn [app] in *. unfold signed. destruct (43 =? 45) eqn:E; [discriminate|]. rewrite Z.eqb_refl. exact HR.
  - cbn [app] in *. unfold signed. rewrite Z.eqb_refl. rewrite HR. reflexivity.
Qed.
Lemma reads_unique : forall v z z', reads_as v z -> reads_as v z' -> z = z'.
Proof. intros v z z' H H'. apply reads_parse in H. apply reads_parse in H'. congruence. Qed.
Lemma amounts_app : forall k a b, amounts k (a ++ b) = amounts k a ++ amounts k b.
Proof. intros k a b. induction a as [|[o q] a IH]; auto. cbn. destruct (isAdd k o); cbn; rewrite IH; auto. Qed.
Lemma results_app : forall k a b, results k (a ++ b) = results k a ++ results k b.
Proof. intros k a b. induction a as [|[o q] a IH]; auto. cbn. destruct (isAdd k o); cbn; rewrite IH; auto. Qed.
Lemma totals_snoc : forall l a n, totals a (l ++ [n]) = totals a l ++ [a + fold_right Z.add 0 l + n].
Proof. induction l as [|x l IH]; intros a n; cbn [totals app fold_right]; [f_equal; lia|]. rewrite IH. replace (a + x + fold_right Z.add 0 l + n) with (a + (x + fold_right Z.add 0 l) + n) by lia. reflexivity. Qed.
Lemma sum_snoc : forall l n, fold_right Z.add 0 (l ++ [n]) = fold_right Z.add 0 l + n.
Proof. induction l as [|x l IH]; intros n; cbn; [lia|]. rewrite IH. lia. Qed.
Lemma seq_totals : forall k l m, seq_run (fun _ => None) l m -> (forall o r, In (o, r) l -> touches k o -> exists n, o = OAdd k n) ->
  results k l = map RInt (totals 0 (amounts k l)) /\
  ((amounts k l = [] /\ m k = None) \/ exists t, m k = Some t /\ is_decimal t (fold_right Z.add 0 (amounts k l))).
Proof.
  intros k l m H. induction H as [m' HU|l m1 o r m2 H IH HS]; intros HT.
  - split; [reflexivity|]. left. split; [reflexivity|apply HU].
  - destruct IH as [IH1 IH2]. { intros o' r' HI. apply (HT o' r'). apply in_or_app. auto. }
    rewrite results_app, amounts_app. cbn [results amounts].
    assert (HO : (exists n, o = OAdd k n) \/ ~ touches k o).
    { assert (D : touches k o \/ ~ touches k o) by (destruct o; cbn; auto; try (destruct (list_eq_dec Z.eq_dec k0 k); auto)). destruct D as [D|D]; auto. left. apply (HT o r); auto. apply in_or_app. right. left. reflexivity. }
    destruct HO as [[n ->]|HO].
    + cbn [isAdd]. rewrite key_eqb_refl. cbn [seq_step] in HS. destruct HS as (z & t & HZ & -> & HM & HD & _).
      assert (EZ : z = fold_right Z.add 0 (amounts k l)).
      { destruct IH2 as [[E0 EN]|(t0 & ET & HD0)].
        - rewrite E0. cbn. destruct HZ as [[_ ->]|(v & EV & _)]; auto. congruence.
        - destruct HZ as [[[EN|EN] ->]|(v & EV & HR)]; [congruence| |].
          + rewrite ET in EN. injection EN as ->. destruct HD0 as (ds & _ & Hne & _ & [[E _]|[E _]]); [subst; contradiction|discriminate].
          + rewrite ET in EV. injection EV as ->. eapply reads_unique; eauto. apply decimal_reads. auto. }
      split.
      * rewrite totals_snoc, map_app, IH1. cbn. rewrite EZ. repeat f_equal.
      * right. exists t. split; auto. rewrite sum_snoc, <- EZ. auto.
    + assert (EA : isAdd k o = None). { destruct o; auto. cbn. destruct (key_eqb k k0) eqn:E; auto. apply key_eqb_eq in E. subst. contradiction HO. reflexivity. }
      rewrite EA, !app_nil_r. split; auto. assert (EM : m2 k = m1 k).
      { destruct o; cbn in HS, HO; unfold unchanged, changed_only in HS.
        - destruct HS as (_ & _ & HC). apply HC. congruence.
        - destruct HS as (HC & _). apply HC.
        - destruct HS as (z & t & _ & _ & _ & _ & HC). apply HC. congruence.
        - destruct HS as (HC & _). apply HC.
        - destruct HS as (HC & _). apply HC.
        - destruct HS as (_ & HC & _). apply HC. congruence.
        - destruct HS as (HC & _). apply HC. }
      rewrite EM. auto.
Qed.
(** ** Answers are points *)
Lemma phases_det : forall c l p, phases c l p -> forall q, phases c l q -> p = q.
Proof.
  intros c l p H. induction H as [|l p e p' H IH HS]; intros q Hq.
  - inversion Hq; auto. destruct l; discriminate.
  - inversion Hq as [E|l0 p0 e0 q0 H0 HS0 E]; [destruct l; discriminate|]. apply app_inj_tail in E. destruct E as [-> ->]. specialize (IH _ H0). subst p0. inversion HS; subst; inversion HS0; subst; auto; congruence.
Qed.
Lemma phases_last : forall c l e q, phases c (l ++ [e]) q -> exists p, phases c l p /\ phase_step c p e q.
Proof. intros c l e q H. inversion H as [E|l0 p0 e0 q0 H0 HS0 E]; [destruct l; discriminate|]. apply app_inj_tail in E. destruct E as [-> ->]. eauto. Qed.
Lemma answers_app : forall k a b, answers k (a ++ b) = answers k a ++ answers k b.
Proof. intros k a b. induction a as [|[c o|c o q] a IH]; cbn; auto. destruct (isAdd k o); cbn; rewrite IH; auto. Qed.
Lemma invoked_app : forall k a b, invoked k (a ++ b) = (invoked k a + invoked k b)%nat.
Proof. intros k a b. induction a as [|[c o|c o q] a IH]; cbn; auto. destruct (isAdd k o); cbn; rewrite IH; auto. Qed.
Lemma phases_other_iff : forall c l e p, (forall q, e <> XInv c q) -> (forall q r, e <> XLin c q r) -> (forall q r, e <> XRes c q r) -> (phases c (l ++ [e]) p <-> phases c l p).
Proof.
  intros c l e p H1 H2 H3. split; [|intros; apply phases_other; auto]. intros H. apply phases_last in H. destruct H as (q & Hq & HS). inversion HS; subst; auto; exfalso; [eapply H1|eapply H2|eapply H3]; reflexivity.
Qed.
Definition isAddOp (k : key) (o : op) : Prop := isAdd k o <> None.
(** Pending additions: those with a point and no answer ([pend]), those without a
    point ([wt]). *)
Lemma in_remove_split : forall A (a b : list A) x y, NoDup (a ++ x :: b) -> (In y (a ++ b) <-> In y (a ++ x :: b) /\ y <> x).
Proof.
  intros A a b x y H. apply NoDup_remove in H. destruct H as [_ H]. rewrite !in_app_iff. cbn. rewrite in_app_iff in H. split.
  - intros HI. split; [tauto|]. intros ->. tauto.
  - intros [[HI|[HI|HI]] N]; auto. congruence.
Qed.
Lemma answers_points : forall k l, (forall c, exists p, phases c l p) ->
  exists (pend : list (nat * res)) (wt : list nat),
    Permutation (results k (points l)) (answers k (visible l) ++ map snd pend) /\
    NoDup (map fst pend) /\ (forall c r, In (c, r) pend <-> exists o, phases c l (PLin o r) /\ isAddOp k o) /\
    NoDup wt /\ (forall c, In c wt <-> exists o, phases c l (PInv o) /\ isAddOp k o) /\
    invoked k (visible l) = (length (results k (points l)) + length wt)%nat.
Proof.
  intros k l. induction l as [|e l IH] using rev_ind; intros HP.
  - exists [], []. cbn. repeat split; auto; try constructor; try tauto.
    + intros (o & H & _). inversion H as [|l p e p' H1 H2 H3]. destruct l; discriminate.
    + intros (o & H & _). inversion H as [|l p e p' H1 H2 H3]. destruct l; discriminate.
  - destruct IH as (pend & wt & H1 & H2 & H3 & H4 & H5 & H6).
    { intros c. destruct (HP c) as (p & Hp). apply phases_last in Hp. destruct Hp as (q & Hq & _). eauto. }
    rewrite visible_app, points_app, results_app, answers_app, invoked_app.
    destruct e as [c o|c o r|c o r].
    + (* invocation *)
      assert (HO : forall c' p, c' <> c -> (phases c' (l ++ [XInv c o]) p <-> phases c' l p)) by (intros c' p N; apply phases_other_iff; intros; congruence).
      destruct (HP c) as (p & Hp). pose proof (phases_last _ _ _ _ Hp) as (q & Hq & HS). inversion HS; subst; try congruence.
      cbn [visible points results answers invoked]. rewrite !app_nil_r.
      assert (H3' : forall c0 r, In (c0, r) pend <-> exists o0, phases c0 (l ++ [XInv c o]) (PLin o0 r) /\ isAddOp k o0).
      { intros c0 r. rewrite H3. destruct (Nat.eq_dec c0 c) as [ -> |N].
        - split; intros (o0 & A & _); exfalso; [pose proof (phases_det _ _ _ A _ Hq)|pose proof (phases_det _ _ _ A _ Hp)]; discriminate.
        - split; intros (o0 & A & B); exists o0; split; auto; apply HO in A || apply HO; auto. }
      destruct (isAdd k o) as [n|] eqn:EA.
      * exists pend, (c :: wt). repeat split; auto; try apply H3'.
        -- constructor; auto. intros HI. apply H5 in HI. destruct HI as (o0 & A & _). pose proof (phases_det _ _ _ A _ Hq). discriminate.
        -- intros [<-|HI]; [exists o; split; auto; unfold isAddOp; rewrite EA; discriminate|]. apply H5 in HI. destruct HI as (o0 & A & B). exists o0. split; auto. apply HO; auto. intros ->. pose proof (phases_det _ _ _ A _ Hq). discriminate.
        -- intros (o0 & A & B). destruct (Nat.eq_dec c0 c) as [ -> |N]; [left; auto|right]. apply H5. exists o0. split; auto. apply HO in A; auto.
        -- rewrite H6. cbn. lia.
      * exists pend, wt. repeat split; auto; try apply H3'.
        -- intros HI. apply H5 in HI. destruct HI as (o0 & A & B). exists o0. split; auto. apply HO; auto. intros ->. pose proof (phases_det _ _ _ A _ Hq). discriminate.
        -- intros (o0 & A & B). apply H5. destruct (Nat.eq_dec c0 c) as [ -> |N]; [|exists o0; split; auto; apply HO in A; auto].
           pose proof (phases_det _ _ _ A _ Hp) as E. injection E as ->. unfold isAddOp in B. congruence.
        -- rewrite H6. cbn. lia.
    + (* point *)
      assert (HO : forall c' p, c' <> c -> (phases c' (l ++ [XLin c o r]) p <-> phases c' l p)) by (intros c' p N; apply phases_other_iff; intros; congruence).
      destruct (HP c) as (p & Hp). pose proof (phases_last _ _ _ _ Hp) as (q & Hq & HS). inversion HS; subst; try congruence.
      cbn [visible points results answers invoked]. rewrite !app_nil_r, Nat.add_0_r. destruct (isAdd k o) as [n|] eqn:EA.
      * assert (HI : In c wt) by (apply H5; exists o; split; auto; unfold isAddOp; rewrite EA; discriminate). apply in_split in HI. destruct HI as (w1 & w2 & ->).
        exists ((c, r) :: pend), (w1 ++ w2). split; [|split; [|split; [|split; [|split]]]].
        -- cbn [map snd]. apply Permutation_trans with (r :: results k (points l)); [apply Permutation_sym, Permutation_cons_append|]. apply Permutation_cons_app. auto.
        -- cbn [map fst]. constructor; auto. intros HI. apply in_map_iff in HI. destruct HI as ([c0 r0] & E & HI). cbn in E. subst c0. apply H3 in HI. destruct HI as (o0 & A & _). pose proof (phases_det _ _ _ A _ Hq). discriminate.
        -- intros c0 r0. destruct (Nat.eq_dec c0 c) as [ -> |N].
           ++ split.
              ** intros [E|HI]; [injection E as <-; exists o; split; auto; unfold isAddOp; rewrite EA; discriminate|]. apply H3 in HI. destruct HI as (o0 & A & _). pose proof (phases_det _ _ _ A _ Hq). discriminate.
              ** intros (o0 & A & _). left. pose proof (phases_det _ _ _ A _ Hp) as E. injection E as -> ->. reflexivity.
           ++ split.
              ** intros [E|HI]; [congruence|]. apply H3 in HI. destruct HI as (o0 & A & B). exists o0. split; auto. apply HO; auto.
              ** intros (o0 & A & B). right. apply H3. exists o0. split; auto. apply HO in A; auto.
        -- eapply NoDup_remove_1; eauto.
        -- intros c0. rewrite (in_remove_split _ w1 w2 c c0 H4). rewrite H5. split.
           ++ intros [(o0 & A & B) N]. exists o0. split; auto. apply HO; auto.
           ++ intros (o0 & A & B). assert (N : c0 <> c) by (intros ->; pose proof (phases_det _ _ _ A _ Hp); discriminate). split; auto. exists o0. split; auto. apply HO in A; auto.
        -- rewrite H6. rewrite !app_length. cbn. lia.
      * exists pend, wt. rewrite app_nil_r. repeat split; auto.
        -- intros HI. apply H3 in HI. destruct HI as (o0 & A & B). exists o0. split; auto. apply HO; auto. intros ->. pose proof (phases_det _ _ _ A _ Hq). discriminate.
        -- intros (o0 & A & B). apply H3. destruct (Nat.eq_dec c0 c) as [ -> |N]; [|exists o0; split; auto; apply HO in A; auto].
           pose proof (phases_det _ _ _ A _ Hp) as E. injection E as -> ->. unfold isAddOp in B. congruence.
        -- intros HI. apply H5 in HI. destruct HI as (o0 & A & B). exists o0. split; auto. apply HO; auto. intros ->. pose proof (phases_det _ _ _ A _ Hq) as E. injection E as ->. unfold isAddOp in B. congruence.
        -- intros (o0 & A & B). apply H5. destruct (Nat.eq_dec c0 c) as [ -> |N]; [pose proof (phases_det _ _ _ A _ Hp); discriminate|exists o0; split; auto; apply HO in A; auto].
    + (* answer *)
      assert (HO : forall c' p, c' <> c -> (phases c' (l ++ [XRes c o r]) p <-> phases c' l p)) by (intros c' p N; apply phases_other_iff; intros; congruence).
      destruct (HP c) as (p & Hp). pose proof (phases_last _ _ _ _ Hp) as (q & Hq & HS). inversion HS; subst; try congruence.
      cbn [visible points results answers invoked]. rewrite !app_nil_r, Nat.add_0_r.
      assert (H5' : forall c0, In c0 wt <-> exists o0, phases c0 (l ++ [XRes c o r]) (PInv o0) /\ isAddOp k o0).
      { intros c0. rewrite H5. destruct (Nat.eq_dec c0 c) as [ -> |N].
        - split; intros (o0 & A & _); exfalso; [pose proof (phases_det _ _ _ A _ Hq)|pose proof (phases_det _ _ _ A _ Hp)]; discriminate.
        - split; intros (o0 & A & B); exists o0; split; auto; apply HO in A || apply HO; auto. }
      destruct (isAdd k o) as [n|] eqn:EA.
      * assert (HI : In (c, r) pend) by (apply H3; exists o; split; auto; unfold isAddOp; rewrite EA; discriminate). apply in_split in HI. destruct HI as (w1 & w2 & ->).
        rewrite map_app in *. cbn [map fst snd] in *.
        exists (w1 ++ w2), wt. split; [|split; [|split; [|split; [|split]]]]; auto.
        -- rewrite map_app. rewrite <- app_assoc. cbn [app]. apply Permutation_trans with (1 := H1). apply Permutation_app_head. apply Permutation_sym, Permutation_middle.
        -- rewrite map_app. eapply NoDup_remove_1; eauto.
        -- intros c0 r0. destruct (Nat.eq_dec c0 c) as [ -> |N].
           ++ split.
              ** intros HI. exfalso. apply NoDup_remove_2 in H2. apply H2. rewrite <- map_app. apply (in_map fst) in HI. exact HI.
              ** intros (o0 & A & _). pose proof (phases_det _ _ _ A _ Hp). discriminate.
           ++ specialize (H3 c0 r0). rewrite in_app_iff in *. cbn [In] in H3. split.
              ** intros HI. destruct H3 as [H3 _]. destruct H3 as (o0 & A & B); [tauto|]. exists o0. split; auto. apply HO; auto.
              ** intros (o0 & A & B). destruct H3 as [_ H3]. destruct H3 as [H3|[H3|H3]]; auto; [exists o0; split; auto; apply HO in A; auto|congruence].
      * exists pend, wt. rewrite app_nil_r. repeat split; auto; try apply H5'.
        -- intros HI. apply H3 in HI. destruct HI as (o0 & A & B). exists o0. split; auto. apply HO; auto. intros ->. pose proof (phases_det _ _ _ A _ Hq) as E. injection E as -> ->. unfold isAddOp in B. congruence.
        -- intros (o0 & A & B). apply H3. destruct (Nat.eq_dec c0 c) as [ -> |N]; [pose proof (phases_det _ _ _ A _ Hp); discriminate|exists o0; split; auto; apply HO in A; auto].
Qed.
(** Every point's operation was invoked. *)
Lemma points_invoked : forall l, (forall c, exists p, phases c l p) -> forall o r, In (o, r) (points l) -> exists c, In (EInv c o) (visible l).
Proof.
  intros l HP. assert (G : (forall o r, In (o, r) (points l) -> exists c, In (EInv c o) (visible l)) /\ (forall c o, phases c l (PInv o) -> In (EInv c o) (visible l))); [|apply G].
  induction l as [|e l IH] using rev_ind.
  - split; [intros o r []|]. intros c o H. inversion H as [|l p e p' H1 H2 H3]. destruct l; discriminate.
  - assert (HP' : forall c, exists p, phases c l p) by (intros c; destruct (HP c) as (p & Hp); apply phases_last in Hp; destruct Hp as (q & Hq & _); eauto). destruct (IH HP') as [I1 I2]. rewrite points_app, visible_app. split.
    + intros o r HI. apply in_app_or in HI. destruct HI as [HI|HI]; [destruct (I1 _ _ HI) as (c & HC); exists c; apply in_or_app; auto|].
      destruct e as [c o'|c o' r'|c o' r']; cbn in HI; try contradiction. destruct HI as [E|[]]. injection E as -> ->. destruct (HP c) as (p & Hp). apply phases_last in Hp. destruct Hp as (q & Hq & HS). exists c. apply in_or_app. left. apply I2. inversion HS; subst; auto; congruence.
    + intros c o H. apply phases_last in H. destruct H as (q & Hq & HS). apply in_or_app. inversion HS; subst; [right; left; reflexivity| | |]; left; auto.
Qed.
Lemma totals_one : forall l a, Forall (fun n => n = 1) l -> totals a l = map (fun i => a + Z.of_nat i) (seq 1 (length l)).
Proof.
  induction l as [|n l IH]; intros a H; auto. inversion H; subst. cbn [totals length seq map]. f_equal. rewrite IH by auto. rewrite <- (seq_shift (length l) 1), map_map. apply map_ext. intros. lia.
Qed.

(** * Waking up *)
Record wake_inv (s : sys) : Prop := {
  wi_reg : forall c o m, isBlocked (thr s c) o m -> forall k, In k (waitsFor o) -> find (kv s) k = None -> In k m /\ In (k, c) (cvs s);
  wi_sleep : forall c o m, thr s c = Sleep o m -> exists k, In k (waitsFor o) /\ find (kv s) k = None
}.
Lemma isReg_ok : forall l k c, isReg l k c = true <-> In (k, c) l.
Proof.
  intros l k c. unfold isReg. rewrite existsb_exists. split.
  - intros ([k' c'] & HI & HE). cbn in HE. apply andb_true_iff in HE. destruct HE as [E1 E2]. apply key_eqb_eq in E1. apply Nat.eqb_eq in E2. subst. auto.
  - intros HI. exists (k, c). split; auto. cbn. rewrite key_eqb_refl, Nat.eqb_refl. reflexivity.
Qed.
Lemma not_ready : forall s o, ready s o = false -> exists k, In k (waitsFor o) /\ find (kv s) k = None.
Proof.
  intros s o H. unfold ready in H. induction (waitsFor o) as [|k ks IH]; [discriminate|]. cbn in H. unfold present in H at 1. destruct (find (kv s) k) eqn:E; cbn in H; [destruct (IH H) as (k' & A & B); exists k'; split; auto; right; auto|exists k; split; auto; left; auto].
Qed.
Lemma notify_inv : forall s c k v o r, wake_inv s -> (forall o m, ~ isBlocked (thr s c) o m) -> wake_inv (withThr (notify (withKv s (put (kv s) k v)) k) c (Done o r)).
Proof.
  intros s c k v o r [H1 H2] HN. constructor; cbn [kv cvs thr withThr withKv notify].
  - intros c' o' m HB k' HI HF. destruct (Nat.eq_dec c' c) as [ -> |N]; [rewrite setThr_same in HB; destruct HB as [HB|[HB|HB]]; discriminate|]. rewrite setThr_other in HB by auto.
    assert (HB' : isBlocked (thr s c') o' m). { unfold isBlocked in *. destruct (thr s c'); cbn in HB; auto. destruct (isReg (cvs s) k c'); auto. right. left. destruct HB as [HB|[HB|HB]]; congruence. }
    assert (Nk : k' <> k) by (intros ->; rewrite find_put_same in HF; discriminate). rewrite find_put_other in HF by auto. destruct (H1 c' o' m HB' k' HI HF) as [A B]. split; auto. apply filter_In. split; auto. cbn. rewrite key_eqb_neq by auto. reflexivity.
  - intros c' o' m HS. destruct (Nat.eq_dec c' c) as [ -> |N]; [rewrite setThr_same in HS; discriminate|]. rewrite setThr_other in HS by auto. destruct (thr s c') eqn:ET; try discriminate. destruct (isReg (cvs s) k c') eqn:ER; [discriminate|]. injection HS as -> ->.
    destruct (H2 c' o' m ET) as (k' & A & B). exists k'. split; auto. rewrite find_put_other; auto. intros ->. destruct (H1 c' o' m) with (k := k) as [_ HR]; auto; [right; left; auto|]. apply isReg_ok in HR. congruence.
Qed.
Lemma same_inv : forall s c t, wake_inv s -> (forall o m, ~ isBlocked t o m) -> wake_inv (withThr s c t).
Proof.
  intros s c t [H1 H2] HN. constructor; cbn [kv cvs thr withThr].
  - intros c' o' m HB. destruct (Nat.eq_dec c' c) as [ -> |N]; [rewrite setThr_same in HB; exfalso; eapply HN; eauto|]. rewrite setThr_other in HB by auto. apply (H1 _ _ _ HB).
  - intros c' o' m HS. destruct (Nat.eq_dec c' c) as [ -> |N]; [rewrite setThr_same in HS; exfalso; eapply HN; right; left; eauto|]. rewrite setThr_other in HS by auto. eauto.
Qed.
Lemma finish_wake : forall s c o m b, wake_inv s -> wake_inv (finish s c o m b).
Proof.
  intros s c o m b [H1 H2]. unfold finish. constructor; cbn [kv cvs thr withThr].
  - intros c' o' m' HB k HI HF. destruct (Nat.eq_dec c' c) as [ -> |N]; [rewrite setThr_same in HB; destruct HB as [HB|[HB|HB]]; discriminate|]. rewrite setThr_other in HB by auto. destruct (H1 c' o' m' HB k HI HF) as [A B]. split; auto. apply filter_In. split; auto. cbn. apply negb_true_iff. apply andb_false_iff. right. apply Nat.eqb_neq. auto.
  - intros c' o' m' HS. destruct (Nat.eq_dec c' c) as [ -> |N]; [rewrite setThr_same in HS; discriminate|]. rewrite setThr_other in HS by auto. eauto.
Qed.
Lemma register_wake : forall s c o m, wake_inv s -> (forall k, In k (waitsFor o) -> find (kv s) k = None -> In k m) -> wake_inv (withThr (register s c m) c (Reg o m)).
Proof.
  intros s c o m [H1 H2] HM. constructor; cbn [kv cvs thr withThr register].
  - intros c' o' m' HB k HI HF. destruct (Nat.eq_dec c' c) as [ -> |N].
    + rewrite setThr_same in HB. assert (E : o' = o /\ m' = m) by (destruct HB as [HB|[HB|HB]]; try discriminate; injection HB as -> ->; auto). destruct E as [-> ->]. split; auto. apply in_or_app. left. apply in_map_iff. exists k. auto.
    + rewrite setThr_other in HB by auto. destruct (H1 c' o' m' HB k HI HF) as [A B]. split; auto. apply in_or_app. auto.
  - intros c' o' m' HS. destruct (Nat.eq_dec c' c) as [ -> |N]; [rewrite setThr_same in HS; discriminate|]. rewrite setThr_other in HS by auto. eauto.
Qed.
Lemma awake_inv : forall s c o m, wake_inv s -> isBlocked (thr s c) o m -> wake_inv (withThr s c (Awake o m)).
Proof.
  intros s c o m [H1 H2] HB0. constructor; cbn [kv cvs thr withThr].
  - intros c' o' m' HB. destruct (Nat.eq_dec c' c) as [ -> |N]; [|rewrite setThr_other in HB by auto; apply (H1 _ _ _ HB)]. rewrite setThr_same in HB. assert (E : o' = o /\ m' = m) by (destruct HB as [HB|[HB|HB]]; try discriminate; injection HB as -> ->; auto). destruct E as [-> ->]. apply (H1 _ _ _ HB0).
  - intros c' o' m' HS. destruct (Nat.eq_dec c' c) as [ -> |N]; [rewrite setThr_same in HS; discriminate|]. rewrite setThr_other in HS by auto. eauto.
Qed.
Lemma sleep_inv : forall s c o m, wake_inv s -> isBlocked (thr s c) o m -> ready s o = false -> wake_inv (withThr s c (Sleep o m)).
Proof.
  intros s c o m [H1 H2] HB0 HR. constructor; cbn [kv cvs thr withThr].
  - intros c' o' m' HB. destruct (Nat.eq_dec c' c) as [ -> |N]; [|rewrite setThr_other in HB by auto; apply (H1 _ _ _ HB)]. rewrite setThr_same in HB. assert (E : o' = o /\ m' = m) by (destruct HB as [HB|[HB|HB]]; try discriminate; injection HB as -> ->; auto). destruct E as [-> ->]. apply (H1 _ _ _ HB0).
  - intros c' o' m' HS. destruct (Nat.eq_dec c' c) as [ -> |N]; [|rewrite setThr_other in HS by auto; eauto]. rewrite setThr_same in HS. injection HS as -> ->. apply not_ready. auto.
Qed.
Lemma delete_wake : forall s c o r k, wake_inv s -> keeps_awaited s (withThr (withKv s (erase (kv s) k)) c (Done o r)) -> (forall o m, ~ isBlocked (thr s c) o m) -> wake_inv (withThr (withKv s (erase (kv s) k)) c (Done o r)).
Proof.
  intros s c o r k [H1 H2] HK HN. unfold keeps_awaited in HK. cbn [kv cvs thr withThr withKv] in *. constructor; cbn [kv cvs thr withThr withKv].
  - intros c' o' m' HB k' HI HF. destruct (Nat.eq_dec c' c) as [ -> |N]; [rewrite setThr_same in HB; destruct HB as [HB|[HB|HB]]; discriminate|]. rewrite setThr_other in HB by auto. apply (H1 c' o' m' HB k' HI). destruct (find (kv s) k') eqn:E; auto. exfalso. apply (HK c' o' m' k' HB HI); [rewrite E; discriminate|auto].
  - intros c' o' m' HS. destruct (Nat.eq_dec c' c) as [ -> |N]; [rewrite setThr_same in HS; discriminate|]. rewrite setThr_other in HS by auto. destruct (H2 c' o' m' HS) as (k' & A & B). exists k'. split; auto. destruct (list_eq_dec Z.eq_dec k' k) as [ -> |Nk]; [apply find_erase_same|rewrite find_erase_other; auto].
Qed.
Lemma not_blocked_got : forall t o o' m, t = Got o -> ~ isBlocked t o' m. Proof. intros t o o' m -> [H|[H|H]]; discriminate. Qed.
Lemma not_blocked_done : forall o r o' m, ~ isBlocked (Done o r) o' m. Proof. intros o r o' m [H|[H|H]]; discriminate. Qed.
Lemma act_wake : forall s a s' ev, wake_inv s -> act s a = Some (s', ev) -> keeps_awaited s s' -> wake_inv s'.
Proof.
  intros s a s' ev HI H HK. destruct a as [c o|c|c|c|c|c]; cbn [act] in H.
  - destruct (thr s c) eqn:ET; try discriminate. injection H as <- <-. apply same_inv; auto. intros o' m [HB|[HB|HB]]; discriminate.
  - destruct (thr s c) as [|o| | | | |] eqn:ET; try discriminate. assert (HN : forall o' m, ~ isBlocked (thr s c) o' m) by (intros; eapply not_blocked_got; eauto).
    destruct (runOp s c o) as [s1|] eqn:ER; [|discriminate]. injection H as <- <-. destruct o as [k v|k|k n|ks|ks|k|]; cbn [runOp] in ER.
    + injection ER as <-. apply notify_inv; auto.
    + destruct (find (kv s) k) eqn:EF; injection ER as <-; [apply same_inv; auto; apply not_blocked_done|apply register_wake; auto].
    + destruct (match find (kv s) k with Some (b :: v) => stoll (b :: v) | _ => Some 0 end) as [z|]; [|discriminate]. destruct (in64 (n + z)); [|discriminate]. injection ER as <-. apply notify_inv; auto.
    + injection ER as <-. apply same_inv; auto. apply not_blocked_done.
    + destruct (filter (fun k => negb (present (kv s) k)) ks) as [|k0 r] eqn:EM; injection ER as <-; [apply same_inv; auto; apply not_blocked_done|]. apply register_wake; auto. intros k HIk HF. rewrite <- EM. apply filter_In. split; auto. unfold present. rewrite HF. reflexivity.
    + injection ER as <-. apply delete_wake; auto.
    + injection ER as <-. apply same_inv; auto. apply not_blocked_done.
  - assert (G : forall o m, isBlocked (thr s c) o m -> wake_inv (recheck s c o m)).
    { intros o m HB. unfold recheck. destruct (ready s o) eqn:ER; [apply finish_wake; auto|apply sleep_inv; auto]. }
    destruct (thr s c) eqn:ET; try discriminate; injection H as <- <-; apply G; unfold isBlocked; auto.
  - destruct (thr s c) eqn:ET; try discriminate. injection H as <- <-. apply awake_inv; auto. rewrite ET. right. left. reflexivity.
  - destruct (thr s c) eqn:ET; try discriminate. injection H as <- <-. apply finish_wake; auto.
  - destruct (thr s c) as [| | | | |o r|] eqn:ET; try discriminate. assert (HN1 : forall o m, ~ isBlocked Idle o m) by (intros o' m [HB|[HB|HB]]; discriminate). assert (HN2 : forall o m, ~ isBlocked Closed o m) by (intros o' m [HB|[HB|HB]]; discriminate).
    destruct r; injection H as <- <-; apply same_inv; auto.
Qed.
Lemma reach_wake : forall s, reach s -> wake_inv s.
Proof.
  intros s H. induction H as [|s a s' ev H IH HA HK]; [|eapply act_wake; eauto]. constructor; cbn; [intros c o m [HB|[HB|HB]]; discriminate|discriminate].
Qed.
