(** Proofs about StreamModel: every run ends; what a script knows after it has
    waited and read. *)
From Coq Require Import List Bool Arith Lia.
From Verif Require Import CollModel StreamModel StreamSpec StreamProofs StreamProofs2 StreamProofs3 StreamProofs4 StreamProofs5.
Import ListNotations.

Section End.
Context {V : Type} (sem : collOp -> nat -> list V -> V -> V).
Implicit Types (rs : list (rank V)) (pms : list (list (hcmd V) * (nat -> V))).

Definition left (r : rank V) : nat := calls (prog r) + length (compute r) + length (comm r).
Lemma hostStep_left r r' : hostStep r = Some r' -> left r' < left r.
Proof.
  destruct r as [p cq nq ne rc fd ws m sn]. unfold hostStep, left. cbn [prog compute comm]. destruct p as [|[k|c|w|h] p]; intros E; [discriminate|..]; cbv zeta in E; unfold withProg in E; cbn [prog compute comm nextEv recorded fired works memory seen] in E; cbn [calls].
  - injection E as <-. cbn. rewrite app_length. cbn. lia.
  - rewrite startColl_eq in E. injection E as <-. cbn. rewrite !app_length. cbn. lia.
  - unfold wait in E. cbn [works] in E. destruct (nth_error ws w); [|discriminate]. injection E as <-. unfold blockC. destruct (has _ _); cbn; rewrite ?app_length; cbn; lia.
  - unfold hostRead in E. cbn [compute] in E. destruct cq; [|discriminate]. injection E as <-. cbn. lia.
Qed.
Lemma computeStep_left r r' : computeStep r = Some r' -> left r' < left r.
Proof.
  unfold computeStep, left. destruct (compute r) as [|[] q]; intros E; try discriminate; try (injection E as <-; cbn; lia).
  destruct (has (fired r) e); [|discriminate]. injection E as <-. cbn. lia.
Qed.
Lemma commStep_left r r' : commStep r = Some r' -> left r' < left r.
Proof.
  unfold commStep, left. destruct (comm r) as [|[] q]; intros E; try discriminate; try (injection E as <-; cbn; lia).
  destruct (has (fired r) e); [|discriminate]. injection E as <-. cbn. lia.
Qed.
Lemma sum_app a b : sum (a ++ b) = sum a + sum b. Proof. induction a; cbn; lia. Qed.
Lemma onRank_left f i rs rs' : (forall r r', f r = Some r' -> left r' < left r) -> onRank f i rs = Some rs' -> sum (map left rs') < sum (map left rs).
Proof. intros H E. destruct (onRank_split _ _ _ _ E) as (rs1 & r & r' & rs2 & -> & -> & F & _). rewrite !map_app, !sum_app. cbn. specialize (H _ _ F). lia. Qed.
Lemma allAt_length rs cs : allAt rs = Some cs -> length cs = length rs.
Proof. revert cs; induction rs as [|r rs IH]; intros cs E; cbn in E; [injection E as <-; reflexivity|]. destruct (atColl r); [|discriminate]. destruct (allAt rs); [|discriminate]. injection E as <-. cbn. auto. Qed.
Lemma receiveAll_left sent i rs cs : allAt rs = Some cs -> sum (map left (receiveAll sem sent i rs cs)) + length rs = sum (map left rs).
Proof.
  revert i cs; induction rs as [|r rs IH]; intros i cs E; cbn in E; [injection E as <-; reflexivity|].
  destruct (atColl r) eqn:A; [|discriminate]. destruct (allAt rs); [|discriminate]. injection E as <-. specialize (IH (S i) _ eq_refl). cbn [receiveAll map sum length].
  unfold atColl in A. unfold left at 1. unfold left at 2. unfold received at 1 2 3. cbn [prog compute comm]. destruct (comm r); [discriminate|]. cbn [tl length]. lia.
Qed.
Lemma step_left a rs rs' : step sem a rs = Some rs' -> sum (map left rs') < sum (map left rs).
Proof.
  destruct a; cbn [step]; try (apply onRank_left; first [exact hostStep_left|exact computeStep_left|exact commStep_left]).
  unfold rendezvous. destruct (allAt rs) as [cs|] eqn:A; [|discriminate]. destruct (sameOp cs) eqn:S; [|discriminate]. intros E. injection E as <-.
  pose proof (receiveAll_left (map (fun rc => memory (fst rc) (cin (snd rc))) (combine rs cs)) 0 _ _ A) as L. apply allAt_length in A. destruct cs; [discriminate|]. cbn in A. lia.
Qed.
Lemma exec_left sch rs rs' : exec sem sch rs = Some rs' -> length sch + sum (map left rs') <= sum (map left rs).
Proof.
  revert rs; induction sch as [|a sch IH]; intros rs E; cbn in E; [injection E as <-; cbn; lia|].
  destruct (step sem a rs) as [r1|] eqn:S; [|discriminate]. apply step_left in S. apply IH in E. cbn. lia.
Qed.
Theorem run_bound pms sch rs : exec sem sch (start pms) = Some rs -> length sch <= sum (map (fun pm => calls (fst pm)) pms).
Proof.
  intros E. apply exec_left in E. replace (sum (map left (start pms))) with (sum (map (fun pm => calls (fst pm)) pms)) in E; [lia|].
  clear. induction pms as [|[p m] pms IH]; [reflexivity|]. cbn. rewrite IH. unfold left. cbn. unfold start. lia.
Qed.
Lemma exec_app s1 s2 rs : exec sem (s1 ++ s2) rs = match exec sem s1 rs with Some r => exec sem s2 r | None => None end.
Proof. revert rs; induction s1 as [|a s1 IH]; intros rs; cbn; [reflexivity|]. destruct (step sem a rs); auto. Qed.
Theorem completes pms sch rs : (forall p, In p (map fst pms) -> waitsFirst p) -> sameCalls (map fst pms) -> exec sem sch (start pms) = Some rs ->
  exists sch' rs', exec sem (sch ++ sch') (start pms) = Some rs' /\ Forall done1 rs'.
Proof.
  intros W SC. remember (sum (map left rs)) as n eqn:N. revert sch rs N. induction n as [n IH] using lt_wf_ind. intros sch rs -> E.
  destruct (progress sem pms sch rs W SC E) as [D|(a & rs1 & S)].
  - exists [], rs. rewrite app_nil_r. auto.
  - assert (E1 : exec sem (sch ++ [a]) (start pms) = Some rs1) by (rewrite exec_app, E; cbn; rewrite S; reflexivity).
    destruct (IH _ (step_left _ _ _ S) _ _ eq_refl E1) as (sch' & rs' & E2 & D). exists (a :: sch'), rs'. rewrite <- app_assoc in E2. auto.
Qed.

(** * Counting collectives *)
Fixpoint ncoll (q : list (item V)) : nat := match q with [] => 0 | SColl _ :: q => S (ncoll q) | _ :: q => ncoll q end.
Lemma ncoll_app a b : ncoll (a ++ b) = ncoll a + ncoll b. Proof. induction a as [|[] a IH]; cbn; lia. Qed.
Record counted (p : list (hcmd V)) (r : rank V) (k : nat) (pa : list (hcmd V)) : Prop := mkCt {
  c_pre : p = pa ++ prog r;
  c_ev : nextEv r = 2 * length (colls pa);
  c_works : works r = evs (length (colls pa));
  c_rec : forall e, In e (works r) -> In e (recorded r);
  c_coll : ncoll (comm r) + k = length (colls pa);
  c_order : forall a w b, comm r = a ++ SRecord (2 * w + 1) :: b -> S w = k + ncoll a;
  c_fired : forall w, In (2 * w + 1) (fired r) -> w < k;
  c_even : forall w, ~ In (SRecord (2 * w + 1)) (compute r);
  c_wait : forall w, In (HWait w) pa -> In (SWait (2 * w + 1)) (compute r) \/ In (2 * w + 1) (fired r);
  c_read : forall x w y a z, pa = x ++ HWait w :: y ++ HRead a :: z -> w < k
}.
Lemma read_end pa x w y a z (X : hcmd V) : pa ++ [X] = x ++ HWait w :: y ++ HRead a :: z -> (exists z', pa = x ++ HWait w :: y ++ HRead a :: z') \/ (X = HRead a /\ In (HWait w) pa).
Proof.
  intros E. destruct (destruct_last z) as [->|(z' & t & ->)].
  - replace (x ++ HWait w :: y ++ [HRead a]) with ((x ++ HWait w :: y) ++ [HRead a]) in E by (rewrite <- app_assoc; reflexivity).
    apply app_inj_tail in E. destruct E as [-> ->]. right. split; [reflexivity|]. apply in_app_iff. right. left. reflexivity.
  - replace (x ++ HWait w :: y ++ HRead a :: z' ++ [t]) with ((x ++ HWait w :: y ++ HRead a :: z') ++ [t]) in E by (rewrite <- !app_assoc; cbn; rewrite <- !app_assoc; reflexivity).
    apply app_inj_tail in E. destruct E as [-> _]. left. eauto.
Qed.
Lemma hostStep_counted p r k pa r' : counted p r k pa -> hostStep r = Some r' -> exists pa', counted p r' k pa'.
Proof.
  intros C E. destruct r as [pr cq nq ne rc fd ws m sn]. destruct C as [C1 C2 C3 C4 C5 C6 C7 C8 C9 C10]. cbn [prog compute comm nextEv recorded fired works memory seen] in *.
  unfold hostStep in E. cbn [prog] in E. destruct pr as [|x pr]; [discriminate|]. cbv zeta in E. unfold withProg in E; cbn [prog compute comm nextEv recorded fired works memory seen] in E.
  exists (pa ++ [x]). destruct x as [kn|c|w|h].
  - injection E as <-. constructor; cbn; rewrite ?colls_app; cbn; rewrite ?app_nil_r; auto.
    + rewrite <- app_assoc. exact C1.
    + intros w I. apply in_app_iff in I. destruct I as [I|[I|[]]]; [apply (C8 w I)|discriminate].
    + intros w I. rewrite in_app_iff in *. destruct I as [I|[I|[]]]; [|discriminate]. destruct (C9 _ I); auto.
    + intros x w y a z F. apply read_end in F. destruct F as [(z' & F)|[F _]]; [apply (C10 _ _ _ _ _ F)|discriminate].
  - rewrite startColl_eq in E. injection E as <-. constructor; cbn [prog compute comm nextEv recorded fired works memory seen]; rewrite ?colls_app, ?app_length; cbn [colls length]; auto.
    + rewrite <- app_assoc. exact C1.
    + lia.
    + rewrite Nat.add_1_r, evs_S, C3. do 2 f_equal. lia.
    + intros e I. apply in_app_iff in I. destruct I as [I|[I|[]]]; [right; right; apply C4; exact I|left; auto].
    + rewrite !ncoll_app. cbn. lia.
    + intros a w b F. rewrite <- !app_assoc in F. destruct (split_app _ _ _ _ _ F) as [(p2 & -> & G)|(q1 & G & _)]; [|apply (C6 _ _ _ G)].
      destruct p2 as [|? [|? [|? []]]]; try discriminate. injection G as <- <- G _. rewrite ncoll_app. cbn. lia.
    + intros w I. apply in_app_iff in I. destruct I as [I|[I|[]]]; [apply (C8 w I)|]. injection I as I. lia.
    + intros w I. rewrite in_app_iff in *. destruct I as [I|[I|[]]]; [|discriminate]. destruct (C9 _ I); auto.
    + intros x w y a z F. apply read_end in F. destruct F as [(z' & F)|[F _]]; [apply (C10 _ _ _ _ _ F)|discriminate].
  - unfold wait in E. cbn [works] in E. destruct (nth_error ws w) as [e|] eqn:NE; [|discriminate].
    assert (HR : has rc e = true) by (apply has_In, C4; eapply nth_error_In; exact NE).
    rewrite C3, evs_nth in NE. destruct (w <? length (colls pa)); [|discriminate]. injection NE as <-. change (w + (w + 0) + 1) with (2 * w + 1) in *.
    unfold blockC in E. cbn [recorded] in E. rewrite HR in E. injection E as <-. unfold enqueueC. constructor; cbn [prog compute comm nextEv recorded fired works memory seen]; rewrite ?colls_app; cbn [colls]; rewrite ?app_nil_r; auto.
    + rewrite <- app_assoc. exact C1.
    + intros v I. apply in_app_iff in I. destruct I as [I|[I|[]]]; [apply (C8 v I)|discriminate].
    + intros v I. rewrite in_app_iff in *. destruct I as [I|[I|[]]]; [destruct (C9 _ I); auto|]. injection I as ->. left. right. left. reflexivity.
    + intros x v y a z F. apply read_end in F. destruct F as [(z' & F)|[F _]]; [apply (C10 _ _ _ _ _ F)|discriminate].
  - unfold hostRead in E. cbn [compute] in E. destruct cq as [|]; [|discriminate]. injection E as <-. constructor; cbn [prog compute comm nextEv recorded fired works memory seen]; rewrite ?colls_app; cbn [colls]; rewrite ?app_nil_r; auto.
    + rewrite <- app_assoc. exact C1.
    + intros w I. rewrite in_app_iff in I. destruct I as [I|[I|[]]]; [|discriminate]. destruct (C9 _ I); auto.
    + intros x w y a z F. apply read_end in F. destruct F as [(z' & F)|[F I]]; [apply (C10 _ _ _ _ _ F)|]. destruct (C9 _ I) as [[]|J]. apply C7, J.
Qed.
Lemma computeStep_counted p r k pa r' : counted p r k pa -> computeStep r = Some r' -> counted p r' k pa.
Proof.
  intros C E. unfold computeStep in E. destruct (compute r) as [|x q] eqn:EQ; [discriminate|]. destruct C as [C1 C2 C3 C4 C5 C6 C7 C8 C9 C10].
  assert (C8' : forall w, ~ In (SRecord (2 * w + 1)) q) by (intros w I; apply (C8 w); rewrite EQ; right; exact I).
  destruct x as [kn|c|e|e]; try discriminate.
  - injection E as <-. constructor; cbn [prog compute comm nextEv recorded fired works memory seen]; auto.
    intros w I. destruct (C9 w I) as [J|J]; [|auto]. rewrite EQ in J. destruct J as [J|J]; [discriminate|auto].
  - injection E as <-. constructor; cbn [prog compute comm nextEv recorded fired works memory seen]; auto.
    + intros w [I|I]; [|auto]. exfalso. apply (C8 w). rewrite EQ, I. left. reflexivity.
    + intros w I. destruct (C9 w I) as [J|J]; [|right; right; auto]. rewrite EQ in J. destruct J as [J|J]; [discriminate|auto].
  - destruct (has (fired r) e) eqn:HF; [|discriminate]. injection E as <-. constructor; cbn [prog compute comm nextEv recorded fired works memory seen]; auto.
    intros w I. destruct (C9 w I) as [J|J]; [|auto]. rewrite EQ in J. destruct J as [J|J]; [|auto]. injection J as ->. right. apply has_In, HF.
Qed.
Lemma commStep_counted p r k pa r' : counted p r k pa -> commStep r = Some r' -> counted p r' k pa.
Proof.
  intros C E. unfold commStep in E. destruct (comm r) as [|x q] eqn:EQ; [discriminate|]. destruct C as [C1 C2 C3 C4 C5 C6 C7 C8 C9 C10]. rewrite EQ in *.
  destruct x as [kn|c|e|e]; try discriminate.
  - injection E as <-. constructor; cbn [prog compute comm nextEv recorded fired works memory seen]; auto.
    + intros a w b F. specialize (C6 (SRecord e :: a) w b). rewrite F in C6. apply (C6 eq_refl).
    + intros w [I|I]; [|auto]. subst e. specialize (C6 [] w q eq_refl). cbn in C6. lia.
    + intros w I. destruct (C9 w I); [auto|right; right; auto].
  - destruct (has (fired r) e) eqn:HF; [|discriminate]. injection E as <-. constructor; cbn [prog compute comm nextEv recorded fired works memory seen]; auto.
    intros a w b F. specialize (C6 (SWait e :: a) w b). rewrite F in C6. apply (C6 eq_refl).
Qed.
Lemma meet_counted p r k pa c sent i : counted p r k pa -> atColl r = Some c -> counted p (received sem sent i r c) (S k) pa.
Proof.
  intros C E. unfold atColl in E. destruct (comm r) as [|x q] eqn:EQ; [discriminate|]. destruct x; try discriminate. injection E as ->.
  destruct C as [C1 C2 C3 C4 C5 C6 C7 C8 C9 C10]. rewrite EQ in *. unfold received. rewrite EQ. constructor; cbn [prog compute comm nextEv recorded fired works memory seen tl]; auto.
  - cbn in C5. lia.
  - intros a w b F. specialize (C6 (SColl c :: a) w b). rewrite F in C6. specialize (C6 eq_refl). cbn in C6. lia.
  - intros w I. specialize (C7 _ I). lia.
  - intros x w y a z F. specialize (C10 _ _ _ _ _ F). lia.
Qed.
Definition ctd (k : nat) (p : list (hcmd V)) (r : rank V) : Prop := exists pa, counted p r k pa.
Lemma onRank_ctd f i k ps rs rs' : (forall p r r', ctd k p r -> f r = Some r' -> ctd k p r') -> Forall2 (ctd k) ps rs -> onRank f i rs = Some rs' -> Forall2 (ctd k) ps rs'.
Proof.
  intros H T E. destruct (onRank_split _ _ _ _ E) as (rs1 & r & r' & rs2 & -> & -> & F & _).
  apply Forall2_app_inv_r in T. destruct T as (ps1 & ps0 & T1 & T2 & ->). inversion T2; subst. apply Forall2_app; [exact T1|]. constructor; eauto.
Qed.
Lemma step_ctd a k ps rs rs' : Forall2 (ctd k) ps rs -> step sem a rs = Some rs' -> exists k', k <= k' /\ Forall2 (ctd k') ps rs'.
Proof.
  intros T E. destruct a; cbn [step] in E.
  - exists k. split; [lia|]. eapply onRank_ctd; [|exact T|exact E]. intros p r r' (pa & C) F. eapply hostStep_counted; eauto.
  - exists k. split; [lia|]. eapply onRank_ctd; [|exact T|exact E]. intros p r r' (pa & C) F. exists pa. eapply computeStep_counted; eauto.
  - exists k. split; [lia|]. eapply onRank_ctd; [|exact T|exact E]. intros p r r' (pa & C) F. exists pa. eapply commStep_counted; eauto.
  - exists (S k). split; [lia|]. unfold rendezvous in E. destruct (allAt rs) as [cs|] eqn:A; [|discriminate]. destruct (sameOp cs); [|discriminate]. injection E as <-.
    generalize (map (fun rc : rank V * coll => memory (fst rc) (cin (snd rc))) (combine rs cs)), 0. intros sent i. revert cs A i. induction T as [|p r ps rs (pa & C) T IH]; intros cs A i; cbn in A.
    + injection A as <-. constructor.
    + destruct (atColl r) as [c|] eqn:AC; [|discriminate]. destruct (allAt rs) as [cs'|]; [|discriminate]. injection A as <-. cbn [receiveAll]. constructor; [|apply IH; reflexivity].
      exists pa. apply meet_counted; assumption.
Qed.
Lemma exec_ctd sch k ps rs rs' : Forall2 (ctd k) ps rs -> exec sem sch rs = Some rs' -> exists k', Forall2 (ctd k') ps rs'.
Proof.
  revert k rs; induction sch as [|a sch IH]; intros k rs T E; cbn in E; [injection E as <-; eauto|].
  destruct (step sem a rs) as [r1|] eqn:S; [|discriminate]. destruct (step_ctd _ _ _ _ _ T S) as (k1 & _ & T1). eapply IH; eauto.
Qed.
Lemma start_ctd pms : Forall2 (ctd 0) (map fst pms) (start pms).
Proof.
  induction pms as [|[p m] pms IH]; constructor; [|exact IH]. exists []. constructor; cbn; auto; try (intros; tauto).
  - intros [] ? ? E; discriminate.
  - intros [] ? ? ? ? E; discriminate.
Qed.
Lemma app_suffix {A} (a b : list A) c : a ++ c = b ++ c -> a = b. Proof. apply app_inv_tail. Qed.
Theorem waited_everywhere pms sch rs i p r x w y a z : exec sem sch (start pms) = Some rs -> nth_error (map fst pms) i = Some p -> nth_error rs i = Some r ->
  p = (x ++ HWait w :: y ++ HRead a :: z) ++ prog r ->
  forall j q s, nth_error (map fst pms) j = Some q -> nth_error rs j = Some s -> w < length (colls q) - length (colls (prog s)).
Proof.
  intros E P R EP j q s Q S. destruct (exec_ctd _ _ _ _ _ (start_ctd pms) E) as (k & T).
  assert (G : forall i p r, nth_error (map fst pms) i = Some p -> nth_error rs i = Some r -> ctd k p r).
  { clear -T. induction T; intros [|i] p r E1 E2; cbn in *; try discriminate; [congruence|eauto]. }
  destruct (G _ _ _ P R) as (pa & C). destruct (G _ _ _ Q S) as (pb & D).
  assert (W : w < k). { pose proof (c_pre _ _ _ _ C) as X. rewrite EP in X. apply app_suffix in X. symmetry in X. apply (c_read _ _ _ _ C _ _ _ _ _ X). }
  pose proof (c_coll _ _ _ _ D). pose proof (c_pre _ _ _ _ D) as X. rewrite X, colls_app, app_length. lia.
Qed.
End End.
