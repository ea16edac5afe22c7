(** Statements seen from the program; programs run again with a leaf moved. *)
From Coq Require Import ZArith List Bool Arith Lia Reals Lra.
From Verif Require Import AutogradModel AutogradSpec AutogradProofs2 GradModel ProgModel ProgSpec ProgProofs2 ProgProofs3 ProgProofs4 ProgProofs5 ProgProofs6.
Import ListNotations.
Close Scope R_scope.
Open Scope nat_scope.

Lemma reachable_ok : forall st, reachable st -> WF st.
Proof. intros st (theta & p & E). eapply reachable_wf; [apply wf_start|eauto]. Qed.
Lemma value_var : forall st v x, valueOf st v = Some x -> exists h, nth_error (vars st) v = Some h /\ getVal st h = x.
Proof. intros st v x H. unfold valueOf in H. destruct (nth_error (vars st) v) as [h|]; [|discriminate]. injection H as <-. eauto. Qed.
Lemma req_var : forall st v h r, nth_error (vars st) v = Some h -> requiresGradOf st v = Some r -> getReq st h = r.
Proof. intros st v h r E H. unfold requiresGradOf in H. rewrite E in H. injection H as <-. auto. Qed.
Lemma added_untouched : forall st st' x r, WF st -> added st st' x r -> forall v, v < tensors st -> untouched st st' v.
Proof.
  intros st st' x r W A v Hv. unfold tensors in Hv. destruct (nth_error (vars st) v) as [h|] eqn:E; [|apply nth_error_None in E; lia].
  destruct (added_keeps st st' x r v h W A E) as (H1 & H2 & H3 & H4). unfold untouched, valueOf, requiresGradOf. rewrite E, H1. cbn. rewrite H2, H3. auto.
Qed.
Lemma added_seen : forall st st' x r, added st st' x r -> tensors st' = S (tensors st) /\ valueOf st' (tensors st) = Some x /\ requiresGradOf st' (tensors st) = Some r
  /\ (gradFnOf st' (tensors st) = None <-> r = false).
Proof.
  intros st st' x r A. destruct (added_new _ _ _ _ A) as (h & H1 & H2 & H3 & H4 & H5). unfold tensors, valueOf, requiresGradOf. rewrite H1. cbn. rewrite H3, H4. auto.
Qed.
Lemma un_seen : forall theta en u x st v r, WF st -> valueOf st x = Some v -> requiresGradOf st x = Some r -> (u = UReshape -> en = true \/ r = false) ->
  exists st', exec1 theta en (SUn u x) st = Some st' /\ added st st' (un_math u v) (en && r).
Proof.
  intros theta en u x st v r W HV HR HU. destruct (value_var _ _ _ HV) as (h & E & Ev). pose proof (req_var _ _ _ _ E HR) as Er. cbn [exec1]. rewrite E.
  assert (HI : forall h', In h' [h] -> exists w, nth_error (vars st) w = Some h') by (intros h' [<-|[]]; eauto).
  destruct (apply_new en st [h] (KUn u h) (un_math u v) (match u with UReshape => r | _ => false end) W HI) as (st' & X & A).
  - destruct u; auto. destruct (HU eq_refl) as [->|Hr]; auto. right. split; auto. cbn. rewrite Er, orb_false_r. auto.
  - exists st'. cbn [existsb] in A. rewrite Er, orb_false_r in A. split; auto. rewrite <- X. f_equal. unfold applyFn. destruct (if en then _ else _); auto. destruct u; cbn [unForward]; unfold unValue, opSin, opCos, un_math; rewrite ?Ev, ?Er; auto.
Qed.
Lemma bin_value : forall b x y, arg_ok b x y -> binValue b x y = bin_math b x y.
Proof. intros b x y H. destruct b; cbn; unfold opAdd, opSub, opMul, opDiv, opPow, stdpow; try ring; auto. destruct (Rlt_dec 0 x); auto. cbn in H. tauto. Qed.
Lemma bin_seen : forall theta en b x y st v w r q, WF st -> valueOf st x = Some v -> valueOf st y = Some w -> requiresGradOf st x = Some r -> requiresGradOf st y = Some q -> arg_ok b v w ->
  exists st', exec1 theta en (SBin b x y) st = Some st' /\ added st st' (bin_math b v w) (en && (r || q)).
Proof.
  intros theta en b x y st v w r q W HV HW HR HQ HA. destruct (value_var _ _ _ HV) as (h1 & E1 & Ev). destruct (value_var _ _ _ HW) as (h2 & E2 & Ew). pose proof (req_var _ _ _ _ E1 HR) as Er. pose proof (req_var _ _ _ _ E2 HQ) as Eq.
  cbn [exec1]. rewrite E1, E2. destruct (apply_new en st [h1; h2] (KBin b h1 h2) (bin_math b v w) false W) as (st' & X & A); auto; [intros h' [<-|[<-|[]]]; eauto|].
  exists st'. cbn [existsb] in A. rewrite Er, Eq, orb_false_r in A. split; auto. rewrite <- X. f_equal. unfold applyFn. destruct (if en then _ else _); auto. unfold binForward. rewrite Ev, Ew, bin_value by auto. auto.
Qed.
Lemma sum_seen : forall theta en x st v, WF st -> valueOf st x = Some v -> requiresGradOf st x = Some false ->
  exists st', exec1 theta en (SSum x) st = Some st' /\ tensors st' = S (tensors st) /\ (forall w, w < tensors st -> untouched st st' w) /\ valueOf st' (tensors st) = Some v /\ requiresGradOf st' (tensors st) = Some false.
Proof.
  intros theta en x st v W HV HR. destruct (value_var _ _ _ HV) as (h & E & Ev). pose proof (req_var _ _ _ _ E HR) as Er. cbn [exec1]. rewrite E. destruct (collect_any st [h] W) as (fs & C1 & C2); [intros h' [<-|[]]; eauto|].
  cbn [existsb] in C2. rewrite Er in C2. destruct fs; [|discriminate]. unfold applyFn. rewrite C1. cbn [sumForward]. rewrite Er. assert (EN : (if en then Some [] else Some []) = Some ([] : list nat)) by (destruct en; auto). rewrite EN. cbn [option_map].
  eexists. split; [reflexivity|]. unfold tensors, untouched, valueOf, requiresGradOf, gradFnOf, addVar. cbn [fst snd vars impls metas]. rewrite app_length, Nat.add_comm. split; auto. split.
  - intros w Hw. rewrite nth_error_app1 by auto. auto.
  - rewrite nth_error_app2, Nat.sub_diag by auto. cbn. split; [rewrite <- Ev|rewrite <- Er]; reflexivity.
Qed.
Lemma in_seen : forall theta en b x y st v w r, WF st -> valueOf st x = Some v -> valueOf st y = Some w -> requiresGradOf st x = Some r -> arg_ok b v w ->
  exists st', exec1 theta en (SIn b x y) st = Some st' /\ tensors st' = tensors st /\ (forall z, z <> x -> untouched st st' z)
  /\ valueOf st' x = Some (bin_math b v w) /\ requiresGradOf st' x = Some r /\ gradFnOf st' x = gradFnOf st x.
Proof.
  intros theta en b x y st v w r W HV HW HR HA. destruct (value_var _ _ _ HV) as (h1 & E1 & Ev). destruct (value_var _ _ _ HW) as (h2 & E2 & Ew). pose proof (req_var _ _ _ _ E1 HR) as Er.
  rewrite (in_result theta en b x y st h1 h2) by auto. eexists. split; [reflexivity|]. assert (L : x < length (vars st)) by (apply nth_error_Some; congruence).
  unfold tensors, untouched, valueOf, requiresGradOf, gradFnOf. cbn [vars impls metas]. split; [apply length_setNth|].
  split.
  - intros z Hz. rewrite nth_error_setNth by auto. destruct (Nat.eqb_spec z x); [tauto|]. destruct (nth_error (vars st) z) as [h|] eqn:Ez; auto. cbn [option_map]. unfold getVal, getReq. 
    rewrite (impl_app st (HState _ _ _ _) _ h eq_refl) by (eapply w_impl; eauto). auto.
  - rewrite nth_error_setNth, Nat.eqb_refl by auto. cbn [option_map hmeta]. rewrite E1. unfold getVal at 1, getReq at 1, getImpl. cbn [himpl impls]. rewrite app_nth2, Nat.sub_diag by auto. cbn [nth ival ireq]. rewrite Ev, Ew, bin_value, Er by auto. repeat split; auto. f_equal. unfold getReq, getImpl. cbn [himpl impls]. rewrite app_nth2, Nat.sub_diag by auto. auto.
Qed.

(** Without reductions, no two tensors share an object. *)
Definition apart (st : hstate) : Prop := forall v w h k, nth_error (vars st) v = Some h -> nth_error (vars st) w = Some k -> himpl h = himpl k -> v = w.
Lemma apart_added : forall st st' x r, WF st -> apart st -> added st st' x r -> apart st'.
Proof.
  intros st st' x r W A (_ & m & e & e' & E1 & E2 & E3 & E4 & _). intros v w h k Hv Hw Hh.
  assert (CASE : forall i h', nth_error (vars st') i = Some h' -> (nth_error (vars st) i = Some h' /\ himpl h' < length (impls st)) \/ (i = length (vars st) /\ himpl h' = length (impls st))).
  { intros i h' H. rewrite E4 in H. destruct (Nat.lt_ge_cases i (length (vars st))) as [L|L]; [rewrite nth_error_app1 in H by auto; left; split; auto; eapply w_impl; eauto|].
    rewrite nth_error_app2 in H by auto. destruct (i - length (vars st)) as [|[|j]] eqn:Ei; cbn in H; try discriminate. injection H as <-. right. cbn. split; auto. lia. }
  destruct (CASE v h Hv) as [[B1 C1]|[B1 C1]], (CASE w k Hw) as [[B2 C2]|[B2 C2]]; try lia. eapply A; eauto.
Qed.
Lemma apart_step : forall theta en s st st', WF st -> apart st -> (forall x, s <> SSum x) -> exec1 theta en s st = Some st' -> apart st'.
Proof.
  intros theta en s st st' W A NS E. destruct s as [r|u x|b x y|x|b x y|x v].
  - cbn in E. injection E as <-. eapply apart_added; eauto. apply new_added; auto.
  - destruct (nth_error (vars st) x) as [h|] eqn:Ex; [|cbn [exec1] in E; rewrite Ex in E; discriminate].
    destruct u; [| |destruct en; [|destruct (getReq st h) eqn:Er]].
    3: { destruct (un_seen theta true UReshape x st (getVal st h) (getReq st h) W) as (st1 & X & AD); try (unfold valueOf, requiresGradOf; rewrite Ex; auto); auto. rewrite X in E. injection E as <-. eapply apart_added; eauto. }
    3: { exfalso. cbn [exec1] in E. rewrite Ex in E. unfold applyFn, unForward, newTensor in E. rewrite Er in E. unfold getReq, getImpl in E. cbn [himpl impls] in E. rewrite app_nth2, Nat.sub_diag in E by auto. discriminate. }
    3: { destruct (un_seen theta false UReshape x st (getVal st h) false W) as (st1 & X & AD); try (unfold valueOf, requiresGradOf; rewrite Ex; cbn; rewrite ?Er; auto); auto. rewrite X in E. injection E as <-. eapply apart_added; eauto. }
    + destruct (un_seen theta en USin x st (getVal st h) (getReq st h) W) as (st1 & X & AD); try (unfold valueOf, requiresGradOf; rewrite Ex; auto); try discriminate. rewrite X in E. injection E as <-. eapply apart_added; eauto.
    + destruct (un_seen theta en UCos x st (getVal st h) (getReq st h) W) as (st1 & X & AD); try (unfold valueOf, requiresGradOf; rewrite Ex; auto); try discriminate. rewrite X in E. injection E as <-. eapply apart_added; eauto.
  - cbn [exec1] in E. destruct (nth_error (vars st) x) as [h1|] eqn:Ex; [|discriminate]. destruct (nth_error (vars st) y) as [h2|] eqn:Ey; [|discriminate].
    destruct (apply_new en st [h1; h2] (KBin b h1 h2) (binValue b (getVal st h1) (getVal st h2)) false W) as (st1 & X & AD); auto; [intros h' [<-|[<-|[]]]; eauto|].
    assert (EA : applyFn en st [h1; h2] (KBin b h1 h2) (binForward b h1 h2) = applyFn en st [h1; h2] (KBin b h1 h2) (fun st0 => newTensor st0 (binValue b (getVal st h1) (getVal st h2)) false)) by reflexivity.
    rewrite EA, X in E. injection E as <-. eapply apart_added; eauto.
  - exfalso. apply (NS x). auto.
  - destruct (nth_error (vars st) x) as [h1|] eqn:Ex; [|cbn [exec1] in E; rewrite Ex in E; discriminate]. destruct (nth_error (vars st) y) as [h2|] eqn:Ey; [|cbn [exec1] in E; rewrite Ex, Ey in E; discriminate].
    rewrite (in_result theta en b x y st h1 h2) in E by auto. injection E as <-. assert (L : x < length (vars st)) by (apply nth_error_Some; congruence).
    intros v w h k Hv Hw Hh. cbn [vars] in *. rewrite nth_error_setNth in Hv, Hw by auto. destruct (Nat.eqb_spec v x) as [->|], (Nat.eqb_spec w x) as [->|]; auto.
    + injection Hv as <-. apply (w_impl _ W) in Hw. cbn in Hh. lia.
    + injection Hw as <-. apply (w_impl _ W) in Hv. cbn in Hh. lia.
    + eapply A; eauto.
  - cbn [exec1] in E. destruct (nth_error (vars st) x) as [h|] eqn:Ex; [|discriminate]. injection E as <-. exact A.
Qed.
Lemma apart_run : forall theta p st st', WF st -> apart st -> no_reductions p -> execProg theta p st = Some st' -> apart st'.
Proof.
  intros theta p. induction p as [|[en s] p IH]; intros st st' W A N E; cbn in E; [injection E as <-; auto|]. destruct (exec1 theta en s st) as [st1|] eqn:E1; [|discriminate]. eapply IH; [| | |exact E].
  - eapply exec1_wf; eauto.
  - eapply apart_step; eauto. intros x ->. apply (N en x). left. auto.
  - intros e x H. apply (N e x). right. auto.
Qed.
Lemma fill_seen : forall theta en x st u v, WF st -> apart st -> valueOf st x = Some u ->
  exists st', exec1 theta en (SFill x v) st = Some st' /\ tensors st' = tensors st /\ (forall z, z <> x -> untouched st st' z)
  /\ valueOf st' x = Some v /\ requiresGradOf st' x = requiresGradOf st x /\ gradFnOf st' x = gradFnOf st x.
Proof.
  intros theta en x st u v W A HV. destruct (value_var _ _ _ HV) as (h & E & _). cbn [exec1]. rewrite E. eexists. split; [reflexivity|].
  assert (L : himpl h < length (impls st)) by (eapply w_impl; eauto).
  unfold tensors, untouched, valueOf, requiresGradOf, gradFnOf. cbn [vars metas]. split; auto.
  split; [|rewrite E; cbn [option_map]; unfold getVal, getReq, getImpl; cbn [impls]; rewrite nth_setNth, Nat.eqb_refl by auto; auto].
  intros z Hz. destruct (nth_error (vars st) z) as [k|] eqn:Ez; auto. cbn [option_map]. unfold getVal, getReq, getImpl. cbn [impls]. rewrite nth_setNth by auto.
  destruct (Nat.eqb_spec (himpl k) (himpl h)) as [Eh|]; auto. exfalso. apply Hz. eapply A; eauto.
Qed.
Lemma apart_start : apart start.
Proof. intros [|v] w h k H; discriminate. Qed.

(** * Running again *)
Lemma rerun : forall theta l t p ps qs, length ps = length qs ->
  (forall v, moved (at_ ps v) = base (at_ qs v) /\ moved (at_ qs v) = base (at_ qs v) /\ needs (at_ ps v) = needs (at_ qs v) /\ (needs (at_ ps v) = false -> base (at_ ps v) = base (at_ qs v))) ->
  (forall en s, In (en, s) p -> en = true) ->
  l < length ps \/ (exists p1 en p2, p = p1 ++ (en, SLeaf true) :: p2 /\ l = length ps + made p1) ->
  forall v, moved (at_ (run theta (move theta l t) p ps) v) = base (at_ (run (move theta l t) (move theta l t) p qs) v).
Proof.
  intros theta l t p. set (phi := move theta l t). induction p as [|[en s] p IH]; intros ps qs HL HP HE Hl; [cbn; intros v; apply HP|]. cbn [run].
  assert (en = true) by (apply (HE en s); left; auto). subst en. apply IH.
  - rewrite !run1_length, HL. auto.
  - assert (LEAF : creates s = true -> length ps = l -> s = SLeaf true).
    { intros Hc Hll. destruct Hl as [Hl|([|[en' s'] p1] & en0 & p2 & Hl & Hl')]; [lia|injection Hl as _ -> _; auto|]. injection Hl as <- <- ->. rewrite made_cons, Hc in Hl'. lia. }
    clear IH Hl HE.
    assert (HX : forall x y : nat, needs (at_ ps x) || needs (at_ ps y) = false -> base (at_ ps x) = base (at_ qs x) /\ base (at_ ps y) = base (at_ qs y)).
    { intros x y H. apply orb_false_elim in H. destruct H. split; apply HP; auto. }
    intros v. destruct s as [r|u x|b x y|x|b x y|x c]; cbn [run1]; cbn zeta.
    + rewrite !at_snoc, HL. destruct (v =? length qs); [cbn|apply HP]. destruct r; repeat split; auto; try discriminate; unfold phi, move; destruct (Nat.eqb_spec (length qs) l) as [El|]; auto; exfalso; rewrite <- HL in El; specialize (LEAF eq_refl El); discriminate.
    + rewrite !at_snoc, HL. destruct (v =? length qs); [cbn|apply HP]. destruct (HP x) as (A & B & C & D). rewrite <- C. destruct (needs (at_ ps x)); cbn; repeat split; auto; try discriminate; rewrite ?A, ?B, ?D; auto.
    + rewrite !at_snoc, HL. destruct (v =? length qs); [cbn|apply HP]. destruct (HP x) as (A & B & C & D), (HP y) as (A' & B' & C' & D'). rewrite <- C, <- C'. specialize (HX x y).
      destruct (needs (at_ ps x) || needs (at_ ps y)); cbn; [rewrite A, A', B, B'; repeat split; auto; discriminate|]. destruct (HX eq_refl) as [-> ->]. auto.
    + rewrite !at_snoc, HL. destruct (v =? length qs); [cbn|apply HP]. destruct (HP x) as (A & B & C & D). rewrite <- C. destruct (needs (at_ ps x)); cbn; repeat split; auto; try discriminate; rewrite ?A, ?B, ?D; auto.
    + destruct (Nat.lt_ge_cases x (length ps)) as [Lx|Lx].
      * rewrite !at_set by lia. destruct (v =? x); [cbn|apply HP]. destruct (HP x) as (A & B & C & D), (HP y) as (A' & B' & C' & D'). rewrite <- C, <- C', A, A', B, B'. repeat split; auto. intros H. destruct (HX x y H) as [-> ->]. auto.
      * assert (SA : forall (l : list point) i q, length l <= i -> set_at l i q = l) by (induction l0 as [|a l0 IH]; intros [|i] q H; cbn in *; auto; [lia|rewrite IH; auto; lia]). rewrite !SA by lia. apply HP.
    + destruct (Nat.lt_ge_cases x (length ps)) as [Lx|Lx].
      * rewrite !at_set by lia. destruct (v =? x); [cbn|apply HP]. repeat split; auto. apply HP.
      * assert (SA : forall (l : list point) i q, length l <= i -> set_at l i q = l) by (induction l0 as [|a l0 IH]; intros [|i] q H; cbn in *; auto; [lia|rewrite IH; auto; lia]). rewrite !SA by lia. apply HP.
  - intros e s' H. apply (HE e s'). right. auto.
  - rewrite run1_length. destruct Hl as [Hl|([|[en' s'] p1] & en0 & p2 & Hl & Hl')]; [left; destruct (creates s); lia| |].
    + injection Hl as -> -> ->. left. cbn in *. lia.
    + injection Hl as <- <- ->. rewrite made_cons in Hl'. right. exists p1, en0, p2. split; auto. lia.
Qed.
