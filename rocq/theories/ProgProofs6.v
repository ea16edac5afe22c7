(** What one statement does to the tensors of any program. *)
From Coq Require Import ZArith List Bool Arith Lia Reals Lra.
From Verif Require Import AutogradModel AutogradSpec AutogradProofs2 GradModel ProgModel ProgSpec ProgProofs2 ProgProofs3.
Import ListNotations.
Close Scope R_scope.
Open Scope nat_scope.

Record WF (st : hstate) : Prop := {
  w_impl : forall v h, nth_error (vars st) v = Some h -> himpl h < length (impls st);
  w_meta : forall v h m, nth_error (vars st) v = Some h -> hmeta h = Some m -> m < length (metas st);
  w_req : forall v h, nth_error (vars st) v = Some h -> getReq st h = true -> exists m, hmeta h = Some m }.
Lemma collect_any : forall st hs, WF st -> (forall h, In h hs -> exists v, nth_error (vars st) v = Some h) ->
  exists fs, collectFns st hs = Some fs /\ (match fs with [] => false | _ => true end) = existsb (getReq st) hs.
Proof.
  intros st hs W. induction hs as [|h hs IH]; intros H; [exists []; auto|]. destruct IH as (fs & IH1 & IH2); [intros h' Hh; apply H; right; auto|].
  cbn [collectFns existsb]. destruct (getReq st h) eqn:E; [|exists fs; auto]. destruct (H h (or_introl eq_refl)) as (v & Hv). destruct (w_req _ W v h Hv E) as (m & Hm). rewrite Hm.
  pose proof (w_meta _ W v h m Hv Hm) as L. destruct (nth_error (metas st) m) as [f|] eqn:Ef; [|apply nth_error_None in Ef; lia]. rewrite IH1. exists (f :: fs). auto.
Qed.
Lemma impl_app : forall st st' e h, impls st' = impls st ++ e -> himpl h < length (impls st) -> getImpl st' h = getImpl st h.
Proof. intros st st' e h E H. unfold getImpl. rewrite E. apply app_nth1. auto. Qed.
Lemma gradFn_snoc : forall st st' h e v, WF st -> vars st' = vars st ++ [h] -> metas st' = metas st ++ e -> v < length (vars st) -> gradFnOf st' v = gradFnOf st v.
Proof.
  intros st st' h e v W E1 E2 H. unfold gradFnOf. rewrite E1, nth_error_app1 by auto. destruct (nth_error (vars st) v) as [h0|] eqn:E; auto. destruct (hmeta h0) as [m|] eqn:Em; auto.
  rewrite E2. apply nth_error_app1. eapply w_meta; eauto.
Qed.
(** A state [st'] that adds one tensor object, with value [x] and flag [r], and a
    handle for it. *)
Definition added (st st' : hstate) (x : R) (r : bool) : Prop :=
  WF st' /\ exists m e e', impls st' = impls st ++ [Impl x r] /\ metas st' = metas st ++ e /\ funcs st' = funcs st ++ e'
  /\ vars st' = vars st ++ [Handle (length (impls st)) m] /\ (r = false -> m = None).
Lemma added_wf : forall st st' x r m e, WF st -> impls st' = impls st ++ [Impl x r] -> metas st' = metas st ++ e -> vars st' = vars st ++ [Handle (length (impls st)) m] ->
  (forall k, m = Some k -> k < length (metas st')) -> (r = true -> exists k, m = Some k) -> WF st'.
Proof.
  intros st st' x r m e W E1 E2 E3 Hm Hr.
  assert (CASE : forall v h, nth_error (vars st') v = Some h -> nth_error (vars st) v = Some h \/ h = Handle (length (impls st)) m).
  { intros v h H. rewrite E3 in H. destruct (Nat.lt_ge_cases v (length (vars st))); [rewrite nth_error_app1 in H; auto|]. rewrite nth_error_app2 in H by auto. destruct (v - length (vars st)) as [|[|k]]; cbn in H; try discriminate. injection H as <-. auto. }
  constructor.
  - intros v h H. rewrite E1, app_length. cbn. destruct (CASE v h H) as [H'| ->]; [|cbn; lia]. apply (w_impl _ W) in H'. lia.
  - intros v h k H Hk. destruct (CASE v h H) as [H'| ->]; [|apply Hm; auto]. rewrite E2, app_length. pose proof (w_meta _ W v h k H' Hk). lia.
  - intros v h H Hk. destruct (CASE v h H) as [H'| ->].
    + apply (w_req _ W v h H'). unfold getReq in *. rewrite <- (impl_app st st' [Impl x r] h); auto. eapply w_impl; eauto.
    + apply Hr. unfold getReq, getImpl in Hk. cbn in Hk. rewrite E1, app_nth2, Nat.sub_diag in Hk by auto. exact Hk.
Qed.
Lemma new_added : forall st x r, WF st -> added st (addVar (newTensor st x r)) x r.
Proof.
  intros st x r W. unfold newTensor, addVar. destruct r; cbn [fst snd impls metas funcs vars]; (split; [eapply (added_wf st _ x); [exact W|reflexivity|cbn; try reflexivity; symmetry; apply app_nil_r|reflexivity|..]|]).
  - intros k H. injection H as <-. cbn. rewrite app_length. cbn. lia.
  - eauto.
  - do 3 eexists. repeat split. discriminate.
  - discriminate.
  - discriminate.
  - exists None, [], []. rewrite !app_nil_r. auto.
Qed.

(** Operations that make a new tensor object. *)
Lemma apply_new : forall en st hs k v r, WF st -> (forall h, In h hs -> exists w, nth_error (vars st) w = Some h) ->
  r = false \/ (en = true /\ r = existsb (getReq st) hs) ->
  exists st', option_map addVar (applyFn en st hs k (fun st => newTensor st v r)) = Some st' /\ added st st' v (en && existsb (getReq st) hs).
Proof.
  intros en st hs k v r W H Hr. destruct (collect_any st hs W H) as (fs & C1 & C2). unfold applyFn. rewrite C1.
  destruct (en && existsb (getReq st) hs) eqn:E.
  - apply andb_prop in E. destruct E as [-> E]. rewrite E in C2. destruct fs as [|f fs]; [discriminate|]. unfold newTensor. destruct r; unfold requireGrad, addVar, getVal, getImpl; cbn [fst snd impls metas funcs vars himpl hmeta]; rewrite app_nth2, Nat.sub_diag by auto; cbn [nth ival]; rewrite ?setNth_last.
    + eexists. split; [reflexivity|].
      assert (EM : forall f, setNth (metas st ++ [length (funcs st)]) (length (metas st)) f = metas st ++ [f]) by (intros; apply setNth_last). rewrite ?EM.
      split; [eapply (added_wf st _ v true); [exact W|reflexivity|reflexivity|reflexivity| |]|].
      * intros j Hj. injection Hj as <-. cbn. rewrite app_length. cbn. lia.
      * eauto.
      * do 3 eexists. cbn. rewrite <- app_assoc. repeat split. discriminate.
    + eexists. split; [reflexivity|].
      split; [eapply (added_wf st _ v true); [exact W|reflexivity|reflexivity|reflexivity| |]|].
      * intros j Hj. injection Hj as <-. cbn. rewrite app_length. cbn. lia.
      * eauto.
      * do 3 eexists. cbn. repeat split. discriminate.
  - assert (r = false) by (destruct Hr as [|[-> ->]]; [auto|rewrite <- E; auto]). subst r.
    assert (EF : (if en then Some fs else Some []) = Some []).
    { destruct en; auto. cbn in E. rewrite E in C2. destruct fs; [auto|discriminate]. }
    rewrite EF. pose proof (new_added st v false W) as HA. unfold newTensor in *. unfold getReq, getImpl. cbn [himpl impls]. rewrite app_nth2, Nat.sub_diag by auto. cbn [nth ireq option_map].
    eexists. split; [reflexivity|]. exact HA.
Qed.
Lemma added_keeps : forall st st' x r v h, WF st -> added st st' x r -> nth_error (vars st) v = Some h ->
  nth_error (vars st') v = Some h /\ getVal st' h = getVal st h /\ getReq st' h = getReq st h /\ gradFnOf st' v = gradFnOf st v.
Proof.
  intros st st' x r v h W (W' & m & e & e' & E1 & E2 & E3 & E4 & _) Hv. assert (L : v < length (vars st)) by (apply nth_error_Some; congruence). pose proof (w_impl _ W v h Hv).
  unfold getVal, getReq. rewrite (impl_app st st' _ h E1) by auto. split; [rewrite E4, nth_error_app1; auto|]. split; auto. split; auto. eapply gradFn_snoc; eauto.
Qed.
Lemma added_new : forall st st' x r, added st st' x r -> exists h, nth_error (vars st') (length (vars st)) = Some h /\ length (vars st') = S (length (vars st)) /\ getVal st' h = x /\ getReq st' h = r
  /\ (gradFnOf st' (length (vars st)) = None <-> r = false).
Proof.
  intros st st' x r (W' & m & e & e' & E1 & E2 & E3 & E4 & E5). exists (Handle (length (impls st)) m). assert (EV : nth_error (vars st') (length (vars st)) = Some (Handle (length (impls st)) m)) by (rewrite E4, nth_error_app2, Nat.sub_diag by auto; auto).
  assert (ER : getReq st' (Handle (length (impls st)) m) = r) by (unfold getReq, getImpl; cbn [himpl]; rewrite E1, app_nth2, Nat.sub_diag by auto; auto).
  split; auto. split; [rewrite E4, app_length; cbn; lia|]. split; [unfold getVal, getImpl; cbn [himpl]; rewrite E1, app_nth2, Nat.sub_diag by auto; auto|]. split; auto.
  unfold gradFnOf. rewrite EV. cbn [hmeta]. split.
  - intros H. destruct r; auto. destruct (w_req _ W' _ _ EV ER) as (k & Hk). cbn in Hk. subst m. apply nth_error_None in H. pose proof (w_meta _ W' _ _ k EV eq_refl). lia.
  - intros Hr. rewrite (E5 Hr). auto.
Qed.

Lemma wf_set : forall st x h v, WF st -> nth_error (vars st) x = Some h ->
  WF (HState (impls st ++ [Impl v (getReq st h)]) (metas st) (funcs st) (setNth (vars st) x (Handle (length (impls st)) (hmeta h)))).
Proof.
  intros st x h v W Hx. assert (CASE : forall w h', nth_error (setNth (vars st) x (Handle (length (impls st)) (hmeta h))) w = Some h' -> (w <> x /\ nth_error (vars st) w = Some h') \/ (w = x /\ h' = Handle (length (impls st)) (hmeta h))).
  { intros w h' H. rewrite nth_error_setNth in H by (apply nth_error_Some; congruence). destruct (Nat.eqb_spec w x) as [->|]; [|auto]. injection H as <-. auto. }
  constructor; cbn [impls metas vars].
  - intros w h' H. rewrite app_length. cbn. destruct (CASE w h' H) as [[_ H']|[_ ->]]; [apply (w_impl _ W) in H'; lia|cbn; lia].
  - intros w h' m H Hm. destruct (CASE w h' H) as [[_ H']|[_ ->]]; [eapply w_meta; eauto|cbn in Hm; eapply w_meta; eauto].
  - intros w h' H Hr. unfold getReq, getImpl in Hr. cbn [impls] in Hr. destruct (CASE w h' H) as [[_ H']|[_ ->]].
    + rewrite app_nth1 in Hr by (eapply w_impl; eauto). eapply w_req; eauto.
    + cbn [himpl] in Hr. rewrite app_nth2, Nat.sub_diag in Hr by auto. cbn in *. eapply (w_req _ W x h); eauto.
Qed.
(** [x op= y]. *)
Lemma in_result : forall theta en b x y st h1 h2, WF st -> nth_error (vars st) x = Some h1 -> nth_error (vars st) y = Some h2 ->
  exec1 theta en (SIn b x y) st = Some (HState (impls st ++ [Impl (binValue b (getVal st h1) (getVal st h2)) (getReq st h1)]) (metas st) (funcs st) (setNth (vars st) x (Handle (length (impls st)) (hmeta h1)))).
Proof.
  intros theta en b x y st h1 h2 W E1 E2. cbn [exec1]. rewrite E1, E2. destruct (collect_any st [h1; h2] W) as (fs & C1 & C2); [intros h [<-|[<-|[]]]; eauto|].
  unfold applyFn. rewrite C1. unfold binForward, newTensor. set (v := binValue b _ _).
  assert (GR : forall r ms fs vs o, getReq (HState (impls st ++ [Impl v r]) ms fs vs) (Handle (length (impls st)) o) = r) by (intros; unfold getReq, getImpl; cbn [himpl impls]; rewrite app_nth2, Nat.sub_diag by auto; auto).
  assert (GV : forall r ms fs vs o, getVal (HState (impls st ++ [Impl v r]) ms fs vs) (Handle (length (impls st)) o) = v) by (intros; unfold getVal, getImpl; cbn [himpl impls]; rewrite app_nth2, Nat.sub_diag by auto; auto).
  destruct (if en then Some fs else Some []) as [[|f gs]|] eqn:EF; [| |destruct en; discriminate].
  - rewrite GR. cbn [option_map]. unfold inplaceSet. cbn [fst snd himpl impls]. rewrite GV, setNth_last. auto.
  - unfold requireGrad. cbn [impls metas funcs vars himpl hmeta option_map]. rewrite GV, setNth_last. unfold inplaceSet. cbn [fst snd himpl impls]. rewrite GV, setNth_last. auto.
Qed.
Lemma getReq_set : forall st i v r h, i < length (impls st) -> ireq (nth i (impls st) (Impl 0 false)) = r ->
  ireq (nth (himpl h) (setNth (impls st) i (Impl v r)) (Impl 0 false)) = getReq st h.
Proof. intros st i v r h L E. rewrite nth_setNth by auto. destruct (Nat.eqb_spec (himpl h) i) as [Ei|]; auto. unfold getReq, getImpl. rewrite Ei, E. auto. Qed.
Lemma exec1_wf : forall theta en s st st', WF st -> exec1 theta en s st = Some st' -> WF st'.
Proof.
  intros theta en s st st' W E. destruct s as [r|u x|b x y|x|b x y|x v].
  - cbn in E. injection E as <-. apply new_added; auto.
  - cbn [exec1] in E. destruct (nth_error (vars st) x) as [h|] eqn:Ex; [|discriminate]. assert (HI : forall h', In h' [h] -> exists w, nth_error (vars st) w = Some h') by (intros h' [<-|[]]; eauto).
    assert (CASES : (u = UReshape /\ en = false /\ getReq st h = true) \/ exists v r, unForward u h = (fun st' => newTensor st' (v st') (r st')) /\ (r st = false \/ (en = true /\ r st = existsb (getReq st) [h]))).
    { destruct u.
      - right. exists (fun st => opSin (getVal st h)), (fun _ => false). auto.
      - right. exists (fun st => opCos (getVal st h)), (fun _ => false). auto.
      - destruct en; [right; exists (fun st => getVal st h), (fun st => getReq st h); split; auto; right; cbn; rewrite orb_false_r; auto|].
        destruct (getReq st h) eqn:Er; [left; auto|]. right. exists (fun st => getVal st h), (fun st => getReq st h). auto. }
    destruct CASES as [(-> & -> & Er)|(v & r & EF & Hr)].
    + exfalso. unfold applyFn in E. unfold unForward, newTensor in E. rewrite Er in E. unfold getReq, getImpl in E. cbn [himpl impls] in E. rewrite app_nth2, Nat.sub_diag in E by auto. discriminate.
    + destruct (apply_new en st [h] (KUn u h) (v st) (r st) W HI Hr) as (st1 & X & (W1 & _)).
      assert (EA : applyFn en st [h] (KUn u h) (unForward u h) = applyFn en st [h] (KUn u h) (fun st0 => newTensor st0 (v st) (r st))) by (rewrite EF; reflexivity).
      rewrite EA in E. congruence.
  - cbn [exec1] in E. destruct (nth_error (vars st) x) as [h1|] eqn:Ex; [|discriminate]. destruct (nth_error (vars st) y) as [h2|] eqn:Ey; [|discriminate].
    destruct (apply_new en st [h1; h2] (KBin b h1 h2) (binValue b (getVal st h1) (getVal st h2)) false W) as (st1 & X & (W1 & _)); auto; [intros h' [<-|[<-|[]]]; eauto|].
    assert (EA : applyFn en st [h1; h2] (KBin b h1 h2) (binForward b h1 h2) = applyFn en st [h1; h2] (KBin b h1 h2) (fun st0 => newTensor st0 (binValue b (getVal st h1) (getVal st h2)) false)) by reflexivity.
    rewrite EA in E. congruence.
  - cbn [exec1] in E. destruct (nth_error (vars st) x) as [h|] eqn:Ex; [|discriminate]. destruct (collect_any st [h] W) as (fs & C1 & C2); [intros h' [<-|[]]; eauto|].
    unfold applyFn in E. rewrite C1 in E. cbn [sumForward] in E. cbn [existsb] in C2. rewrite orb_false_r in C2.
    assert (CASE : forall k w h', nth_error (vars st ++ [k]) w = Some h' -> nth_error (vars st) w = Some h' \/ h' = k).
    { intros k w h' H. destruct (Nat.lt_ge_cases w (length (vars st))); [rewrite nth_error_app1 in H; auto|]. rewrite nth_error_app2 in H by auto. destruct (w - length (vars st)) as [|[|j]]; cbn in H; try discriminate. injection H as <-. auto. }
    destruct (if en then Some fs else Some []) as [[|f gs]|] eqn:EF; [| |discriminate].
    + cbn [sumForward] in E. destruct (getReq st h) eqn:Er; [discriminate|]. cbn in E. injection E as <-. unfold addVar. cbn [fst snd impls metas funcs vars]. constructor; cbn [impls metas vars].
      * intros w h' H. destruct (CASE _ w h' H) as [H'| ->]; eapply w_impl; eauto.
      * intros w h' m H Hm. destruct (CASE _ w h' H) as [H'| ->]; eapply w_meta; eauto.
      * intros w h' H Hr. change (getReq st h' = true) in Hr. destruct (CASE _ w h' H) as [H'| ->]; [eapply w_req; eauto|congruence].
    + assert (Er : getReq st h = true) by (destruct en; [injection EF as ->; auto|discriminate]). destruct (w_req _ W x h Ex Er) as (m & Hm). cbn [sumForward] in E. unfold requireGrad in E. rewrite Hm in E. cbn [option_map fst snd] in E. injection E as <-.
      assert (HR : forall h', ireq (nth (himpl h') (setNth (impls st) (himpl h) (Impl (getVal st h) true)) (Impl 0 false)) = getReq st h') by (intros h'; apply getReq_set; [eapply w_impl; eauto|exact Er]).
      unfold addVar. cbn [fst snd impls metas funcs vars]. constructor; cbn [impls metas vars].
      * intros w h' H. rewrite length_setNth. destruct (CASE _ w h' H) as [H'| ->]; eapply w_impl; eauto.
      * intros w h' j H Hj. rewrite length_setNth. destruct (CASE _ w h' H) as [H'| ->]; eapply w_meta; eauto.
      * intros w h' H Hr. unfold getReq, getImpl in Hr. cbn [impls] in Hr. rewrite HR in Hr. destruct (CASE _ w h' H) as [H'| ->]; [eapply w_req; eauto|]. eauto.
  - destruct (nth_error (vars st) x) as [h1|] eqn:Ex; [|cbn [exec1] in E; rewrite Ex in E; discriminate]. destruct (nth_error (vars st) y) as [h2|] eqn:Ey; [|cbn [exec1] in E; rewrite Ex, Ey in E; discriminate].
    rewrite (in_result theta en b x y st h1 h2) in E by auto. injection E as <-. apply wf_set; auto.
  - cbn [exec1] in E. destruct (nth_error (vars st) x) as [h|] eqn:Ex; [|discriminate]. injection E as <-.
    assert (HR : forall h', ireq (nth (himpl h') (setNth (impls st) (himpl h) (Impl v (getReq st h))) (Impl 0 false)) = getReq st h') by (intros h'; apply getReq_set; [eapply w_impl; eauto|reflexivity]).
    constructor; cbn [impls metas vars].
    + intros w h' H. rewrite length_setNth. eapply w_impl; eauto.
    + intros w h' m H Hm. eapply w_meta; eauto.
    + intros w h' H Hr. unfold getReq, getImpl in Hr. cbn [impls] in Hr. rewrite HR in Hr. eapply w_req; eauto.
Qed.
Lemma wf_start : WF start.
Proof. constructor; intros [|v] h; cbn; intros; discriminate. Qed.
Lemma reachable_wf : forall theta p st st', WF st -> execProg theta p st = Some st' -> WF st'.
Proof.
  intros theta p. induction p as [|[en s] p IH]; intros st st' W E; cbn in E; [injection E as <-; auto|]. destruct (exec1 theta en s st) as [st1|] eqn:E1; [|discriminate]. eapply IH; [|exact E]. eapply exec1_wf; eauto.
Qed.
