(** Proofs: whole backward passes and whole plain programs. *)
From Coq Require Import List Bool Arith Lia.
From Verif Require Import AutogradModel AutogradSpec AutogradProofs LifeModel LifeSpec LifeProofs LifeProofs2.
Import ListNotations.

(** Every successful pass. *)
Lemma runFuncs_inv : forall fs w s w', Inv w s -> runFuncs w fs = Some w' ->
  Inv w' s /\ exists cs, map cfn cs = fs /\ after_calls w w' cs /\ Forall (right_call w s) cs.
Proof.
  induction fs as [|f fs IH]; intros w s w' HI E; cbn in E.
  - injection E as <-. split; auto. exists []. split; auto. split; [apply after_calls_nil|constructor].
  - destruct (runFunc w f) as [w1|] eqn:E1; [|discriminate]. destruct (runFunc_inv _ _ _ _ HI E1) as (HI1 & _ & c & Ec & A & R).
    destruct (IH _ _ _ HI1 E) as (HI2 & cs & Ecs & B & RS). split; auto. exists (c :: cs). split; [cbn; congruence|]. split.
    + apply (after_calls_trans w w1 w' [c] cs); auto.
    + constructor; auto. eapply Forall_impl; [|exact RS]. intros c' H. eapply right_call_back; eauto.
Qed.
Lemma runFuncs_app : forall fs gs w, runFuncs w (fs ++ gs) = match runFuncs w fs with None => None | Some w1 => runFuncs w1 gs end.
Proof. induction fs as [|f fs IH]; intros gs w; cbn; auto. destruct (runFunc w f); auto. Qed.

(** The order that [buildBackwardGraph] finds. *)
Lemma lock_live w s n : Inv w s -> Live w n -> lock w n = n.
Proof. intros HI H. destruct (live_func _ _ _ HI H) as (y & E). unfold lock. rewrite E. auto. Qed.
Lemma seen_node w u : nth_error (seen w) u = match nth_error (funcs w) u with
  | None => None | Some None => Some FLeaf | Some (Some f) => Some (FOp (map (fun n => (lock w n, Fresh (V := nothing) (fun x => x))) (fnexts f))) end.
Proof. unfold seen. rewrite nth_error_map. destruct (nth_error (funcs w) u) as [[f|]|]; reflexivity. Qed.
Lemma seen_live w s u f : Inv w s -> nth_error (seen w) u = Some f -> nexts f = [] \/ exists y, obj (funcs w) u = Some y /\ nexts f = fnexts y.
Proof.
  intros HI E. rewrite seen_node in E. destruct (nth_error (funcs w) u) as [[y|]|] eqn:Eu; [|injection E as <-; auto|discriminate].
  right. exists y. assert (Ey : obj (funcs w) u = Some y) by (unfold obj; rewrite Eu; auto). split; auto. injection E as <-. unfold nexts. cbn. rewrite map_map. cbn.
  rewrite <- (map_id (fnexts y)) at 2. apply map_ext_in. intros n Hn. eapply lock_live; eauto. eapply saved_live; eauto.
Qed.
Lemma build_seen w s root : Inv w s -> Live w root -> exists order, buildBackwardGraph (seen w) root = Some order /\ consumers_first (graph_of s) root order.
Proof.
  intros HI HL.
  assert (AC : acyclic (seen w)).
  { intros u f t E Ht. destruct (seen_live _ _ _ _ HI E) as [H|(y & Ey & H)]; rewrite H in Ht; [easy|]. destruct (i_func _ _ HI u y Ey) as (E1 & _). eapply edge_lt; [apply HI|exact E1|exact Ht]. }
  destruct (live_func _ _ _ HI HL) as (y0 & Ey0).
  assert (Hr : root < length (seen w)) by (unfold seen; rewrite map_length; eapply obj_lt; eauto).
  destruct (build_order (seen w) AC root Hr) as (order & E & H1 & H2 & H3). exists order. split; auto.
  assert (RE : forall v, reach (seen w) root v <-> reach (graph_of s) root v).
  { intros v. split; intros H.
    - induction H as [|v u f H IH Ef Hu]; [constructor|]. destruct (seen_live _ _ _ _ HI Ef) as [K|(y & Ey & K)]; rewrite K in Hu; [easy|].
      destruct (i_func _ _ HI v y Ey) as (E1 & _). eapply reach_edge; eauto.
    - assert (K : reach (seen w) root v /\ Live w v); [|tauto]. revert v H. apply reach_ind'; [split; [constructor|auto]|].
      intros v u r fs Hv (IH & IL) Ev Hu. destruct (live_func _ _ _ HI IL) as (y & Ey). destruct (i_func _ _ HI v y Ey) as (E1 & _). rewrite E1 in Ev. injection Ev as <- <-.
      split; [|eapply saved_live; eauto]. assert (exists f, nth_error (seen w) v = Some f) as (f & Ef).
      { destruct (nth_error (seen w) v) eqn:Ef; eauto. apply nth_error_None in Ef. unfold seen in Ef. rewrite map_length in Ef. apply obj_lt in Ey. lia. }
      eapply reach_step; [exact IH|exact Ef|]. destruct (seen_live _ _ _ _ HI Ef) as [K|(y' & Ey' & K)]; [|rewrite K; congruence].
      rewrite seen_node in Ef. unfold obj in Ey. destruct (nth_error (funcs w) v) as [o|] eqn:En; [|discriminate]. subst o. injection Ef as <-. unfold nexts in K. cbn in K.
      destruct (fnexts y); [easy|discriminate]. }
  apply consumers_def. split; auto. split; [intros v; rewrite H2; auto|].
  intros before u after Eo c r fs Hc Ec Hu. apply RE in Hc. destruct (live_func w s c HI) as (y & Ey); [eapply live_reach; eauto; apply RE; auto|].
  destruct (i_func _ _ HI c y Ey) as (E1 & _). rewrite E1 in Ec. injection Ec as <- <-.
  assert (exists f, nth_error (seen w) c = Some f) as (f & Ef).
  { destruct (nth_error (seen w) c) eqn:Ef; eauto. apply nth_error_None in Ef. unfold seen in Ef. rewrite map_length in Ef. apply obj_lt in Ey. lia. }
  eapply H3; eauto. destruct (seen_live _ _ _ _ HI Ef) as [K|(y' & Ey' & K)]; [|rewrite K; congruence].
  rewrite seen_node in Ef. unfold obj in Ey. destruct (nth_error (funcs w) c) as [o|] eqn:En; [|discriminate]. subst o. injection Ef as <-. unfold nexts in K. cbn in K.
  destruct (fnexts y); [easy|discriminate].
Qed.

(** The pass reaches its end. *)
Lemma Inv_root w s m x order : Inv w s -> obj (metas w) m = Some x -> consumers_first (graph_of s) (mfn x) order ->
  Inv (setMetas w (modify (metas w) m (fun x => Meta (mfn x) order true))) s.
Proof.
  intros HI Ex HC. apply Inv_remeta; auto.
  - intros m' x' E. rewrite obj_modify in E. destruct (m' =? m) eqn:Em; [|eauto 6]. apply Nat.eqb_eq in Em. subst m'. rewrite Ex in *. injection E as <-. exists x. cbn. auto.
  - intros m' x' E. rewrite obj_modify. destruct (m' =? m) eqn:Em; [|eauto]. apply Nat.eqb_eq in Em. subst m'. rewrite Ex in *. injection E as <-. cbn. eauto.
Qed.
Lemma runFuncs_runs s root order : acyclic (graph_of s) -> consumers_first (graph_of s) root order ->
  forall after before w, order = before ++ after -> Inv w s -> (forall u, In u order -> Live w u) ->
  (forall u r fs, In u after -> nth_error (ops s) u = Some (r, fs) -> r <> Some NoRule /\ (r = Some Once -> ~ In u (map cfn (calls w)))) ->
  (forall u m x, In u order -> obj (metas w) m = Some x -> mfn x = u ->
     (u = root \/ exists c r fs, In c before /\ nth_error (ops s) c = Some (r, fs) /\ In u fs) -> (forall r fs, nth_error (ops s) u = Some (r, fs) -> r <> Some NoRule) -> mgrad x = true) ->
  exists w', runFuncs w after = Some w'.
Proof.
  intros AC HC. apply consumers_def in HC as (H1 & H2 & H3). induction after as [|f after IH]; intros before w Eo HI HL HR HG; cbn; [eauto|].
  assert (Hf : In f order) by (rewrite Eo; apply in_app_iff; cbn; auto).
  destruct (HL f Hf) as (m & o & Em & Ef). destruct (live_func w s f HI) as (x & Ex); [exists m, o; auto|].
  destruct (i_func _ _ HI f x Ex) as (E1 & _). destruct (HR f _ _ (or_introl eq_refl) E1) as (HR1 & HR2).
  destruct (runFunc_runs w s f x m o HI Ex HR1) as (w1 & E); auto.
  - destruct (fspent x) eqn:Es; auto. apply (i_spent _ _ HI f x Ex) in Es as (Es1 & Es2). exfalso. apply HR2; auto.
  - right. apply (HG f m o); auto.
    + destruct (Nat.eq_dec f root) as [->|Hne]; auto. right. pose proof (proj1 (H2 f) Hf) as Hreach.
      assert (K : f = root \/ exists c r fs, reach (graph_of s) root c /\ nth_error (ops s) c = Some (r, fs) /\ In f fs).
      { clear - Hreach. revert f Hreach. apply reach_ind'; [auto|]. intros v u r fs Hv _ Ev Hu. right. exists v, r, fs. auto. }
      destruct K as [K|(c & r & fs & Hc & Ec & Hu)]; [easy|]. exists c, r, fs. split; auto. eapply H3; eauto.
    + intros r fs E. congruence.
  - rewrite E. destruct (runFunc_inv _ _ _ _ HI E) as (HI1 & _ & c & Ec & A & R).
    apply (IH (before ++ [f])); auto.
    + rewrite <- app_assoc. auto.
    + intros u Hu. destruct (HL u Hu) as (m' & x' & Em' & Eu). destruct A as (_ & _ & _ & A & _). specialize (A m'). rewrite Em' in A. cbn [option_map] in A. eexists m', _. split; [exact A|].
      destruct (mem m' (flat_map cto [c])); auto.
    + intros u r fs Hu Eu. destruct (HR u r fs (or_intror Hu) Eu) as (K1 & K2). split; auto. intros Er. destruct A as (_ & _ & -> & _). rewrite map_app, in_app_iff. intros [K|K]; [apply K2; auto|].
      cbn in K. destruct K as [K|[]]. rewrite Ec in K. subst u. rewrite Eo in H1. apply NoDup_remove_2 in H1. apply H1. apply in_app_iff. auto.
    + intros u m' x' Hu Em' Eu Hc Hn2. pose proof A as (_ & _ & _ & A4 & _). rewrite A4 in Em'. destruct (obj (metas w) m') as [x0|] eqn:Ex0; [|discriminate]. cbn [option_map] in Em'.
      assert (Eu0 : mfn x0 = u) by (rewrite <- Eu; clear - Em'; destruct (mem m' (flat_map cto [c])); injection Em' as <-; auto).
      destruct (mem m' (flat_map cto [c])) eqn:Emm; injection Em' as <-; auto.
      apply (HG u m' x0); auto. destruct Hc as [Hc|(c' & r & fs & Hc & Ec' & Hfs)]; auto. apply in_app_iff in Hc as [Hc|[<-|[]]]; [eauto 8|]. exfalso.
      destruct R as (_ & _ & r' & fs' & R1 & R2). rewrite Ec, Ec' in R1. injection R1 as <- <-.
      assert (exists m'', In m'' (cto c) /\ exists z, obj (metas w) m'' = Some z /\ mfn z = u) as (m'' & Hm'' & z & Ez & Ezu).
      { clear - R2 Hfs. induction R2 as [|n m ns ms H R2 IH]; [easy|]. destruct Hfs as [->|Hfs]; [exists m; cbn; auto|]. destruct (IH Hfs) as (m'' & ? & ?). exists m''. cbn. auto. }
      destruct (live_func w s u HI) as (yu & Eyu); [apply HL; auto|]. destruct (i_func _ _ HI u yu Eyu) as (Eou & _).
      destruct (owner_unique w s m' m'' x0 z yu HI Ex0 Ez) as (-> & _); [congruence|congruence|eapply Hn2; eauto|].
      assert (K : mem m'' (flat_map cto [c]) = true) by (apply mem_true; cbn; rewrite app_nil_r; auto). congruence.
Qed.

Lemma backward_starts w s t f m x : Inv w s -> goodT (flags w) (metas w) t (Some f) -> tmeta t = Some m -> obj (metas w) m = Some x ->
  exists order, consumers_first (graph_of s) (mfn x) order /\ mfn x = f /\
  backward w t = runFuncs (setMetas w (modify (metas w) m (fun x => Meta (mfn x) order true))) order.
Proof.
  intros HI (_ & Hf & m' & x' & E1 & E2 & E3) Em Ex. rewrite E1 in Em. injection Em as ->. rewrite E2 in Ex. injection Ex as ->.
  unfold backward, flag. rewrite Hf, E1, E2. cbn [negb]. destruct (i_meta _ _ HI m x E2) as (_ & Ho).
  destruct (morder x) as [|g fs] eqn:Eo.
  - destruct (build_seen w s (mfn x) HI) as (order & H1 & H2); [exists m, x; auto|]. exists order. rewrite H1. auto.
  - exists (g :: fs). destruct Ho as [Ho|Ho]; [discriminate|]. auto.
Qed.
Lemma after_root w s m x order : Inv w s -> obj (metas w) m = Some x -> forall m' x', obj (metas (setMetas w (modify (metas w) m (fun x => Meta (mfn x) order true)))) m' = Some x' ->
  exists x0, obj (metas w) m' = Some x0 /\ mfn x' = mfn x0 /\ (mgrad x' = true <-> m' = m \/ mgrad x0 = true).
Proof.
  intros HI Ex m' x' E. cbn in E. rewrite obj_modify in E. destruct (m' =? m) eqn:Em.
  - apply Nat.eqb_eq in Em. subst m'. rewrite Ex in *. injection E as <-. exists x. cbn. intuition.
  - apply Nat.eqb_neq in Em. exists x'. intuition congruence.
Qed.
Lemma backward_inv w s t o w' : Inv w s -> goodT (flags w) (metas w) t o -> backward w t = Some w' -> Inv w' s.
Proof.
  intros HI HT E. destruct o as [f|].
  - destruct HT as (H1 & H2 & m & x & E1 & E2 & E3). destruct (backward_starts w s t f m x HI) as (order & HC & Ef & Eb); auto.
    { split; auto. split; auto. exists m, x. auto. }
    rewrite E in Eb. symmetry in Eb. apply (runFuncs_inv _ _ _ _ (Inv_root w s m x order HI E2 HC) Eb).
  - destruct HT as (_ & H & _). unfold backward, flag in E. rewrite H in E. cbn in E. congruence.
Qed.

(** Whole programs. *)
Lemma perform_inv w s c w' : Inv w s -> plain [c] -> perform w c = Some w' -> Inv w' (tell s c).
Proof.
  intros HI HP E. specialize (HP c (or_introl eq_refl)). destruct c as [r|en r k ins|en v|v|v|v b|v]; cbn [perform] in E; try easy.
  - injection E as <-. destruct r; cbn [tell].
    + change (create w true) with (outputs (setFuncs w (funcs w ++ [Some (Func None [] [] 0 false)])) 1 (Some (length (funcs w)))).
      pose proof (Inv_addFunc w s None [] [] [] HI (Forall2_nil _) eq_refl (fun _ => eq_refl)) as HI1.
      eapply (Inv_outputs_some 1 _ _ (length (funcs w))) in HI1; [|cbn; rewrite obj_app, Nat.eqb_refl; reflexivity|].
      * cbn [repeat ops tens] in HI1. rewrite (i_funcs _ _ HI) in HI1 |- *. exact HI1.
      * right. split; auto. apply (fresh_func w s HI).
    + apply (Inv_outputs_none 1 w s HI).
  - destruct (held w ins) as [ts|] eqn:Eh; [|discriminate]. unfold apply in E. cbn [tell]. destruct en; [|injection E as <-; apply Inv_outputs_none; auto].
    destruct (held_good w s HI ins ts Eh) as (os & H1 & H2). rewrite (gradFns_good _ _ _ H1) in E. rewrite H2.
    destruct (flat_map opt_list os) as [|f0 fs] eqn:Ef; [injection E as <-; apply Inv_outputs_none; auto|]. injection E as <-.
    pose proof (Inv_addFunc w s (Some r) (f0 :: fs) ts os HI H1 (eq_sym Ef) ltac:(discriminate)) as HI1.
    eapply (Inv_outputs_some k _ _ (length (funcs w))) in HI1; [|cbn; rewrite obj_app, Nat.eqb_refl; reflexivity|].
    + cbn [repeat ops tens] in HI1. rewrite (i_funcs _ _ HI) in HI1 |- *. exact HI1.
    + cbn [frule]. destruct HP as [-> | ->]; auto. right. split; auto. apply (fresh_func w s HI).
  - destruct (obj (vars w) v) as [t|] eqn:Ev; [|discriminate]. injection E as <-. cbn [tell]. destruct (i_var _ _ HI v t Ev) as (o & Eo & G).
    rewrite (nth_error_nth _ _ None Eo). apply Inv_newVar; auto. intros f ->. eapply i_tens; eauto.
  - destruct (obj (vars w) v) as [t|] eqn:Ev; [|discriminate]. injection E as <-. cbn [tell]. destruct HI as [H1 H2 H3 H4 H5 H6 H7 H8 HL H9]. constructor; auto.
    + cbn. rewrite length_setNth. auto.
    + intros v' t' E. cbn in E. rewrite obj_setNth in E by (eapply obj_lt; eauto). destruct (v' =? v); [discriminate|]. apply H2; auto.
  - destruct (obj (vars w) v) as [t|] eqn:Ev; [|discriminate]. cbn [tell]. destruct (i_var _ _ HI v t Ev) as (o & Eo & G). eapply backward_inv; eauto.
Qed.
Lemma step_inv w s c w' : Inv w s -> plain [c] -> step w c = Some w' -> Inv w' (tell s c).
Proof.
  intros HI HP E. unfold step in E. destruct (perform w c) as [w1|] eqn:E1; [|discriminate]. injection E as <-. apply Inv_sweep. eapply perform_inv; eauto.
Qed.
Lemma Inv_start : Inv start (Story [] []).
Proof.
  constructor; cbn; auto; try easy.
  - intros v t E. destruct v; discriminate.
  - intros v t E. destruct v; discriminate.
  - intros v t E. destruct v; discriminate.
  - intros v t E. destruct v; discriminate.
  - intros v t n E. destruct v; discriminate.
  - intros v t E. destruct v; discriminate.
  - intros v t E. destruct v; discriminate.
Qed.
Lemma run_inv : forall p w s w', Inv w s -> plain p -> run w p = Some w' -> Inv w' (fold_left tell p s).
Proof.
  induction p as [|c p IH]; intros w s w' HI HP E; cbn in *; [congruence|]. destruct (step w c) as [w1|] eqn:E1; [|discriminate].
  apply (IH w1); auto.
  - eapply step_inv; eauto. intros c' [<-|[]]. apply HP. cbn. auto.
  - intros c' Hc. apply HP. cbn. auto.
Qed.
Lemma program_inv p w : plain p -> run start p = Some w -> Inv w (story_of p).
Proof. intros HP E. eapply run_inv; eauto. apply Inv_start. Qed.

(** What sweeping leaves alone. *)
Lemma sweep_keeps w : vars (sweep w) = vars w /\ calls (sweep w) = calls w /\ flags (sweep w) = flags w
  /\ forall v t m, obj (vars w) v = Some t -> tmeta t = Some m -> obj (metas (sweep w)) m = obj (metas w) m.
Proof.
  unfold sweep. apply (times_inv (fun w' => vars w' = vars w /\ calls w' = calls w /\ flags w' = flags w /\ forall v t m, obj (vars w) v = Some t -> tmeta t = Some m -> obj (metas w') m = obj (metas w) m)); auto.
  intros w' (H1 & H2 & H3 & H4). split; [auto|]. split; [auto|]. split; [auto|]. intros v t m E1 E2. rewrite obj_metas_sweepOnce, mem_true; eauto.
  apply in_metaRefs. left. exists v, t. rewrite H1. auto.
Qed.

(** The theorem on one backward. *)
Lemma backward_done w s v f t : Inv w s -> result_of w s v f t ->
  can_run w s f -> exists w', step w (SBackward v) = Some w' /\ exists cs, calls w' = calls w ++ cs
    /\ consumers_first (graph_of s) f (map cfn cs) /\ flow w' s cs /\ vars w' = vars w
    /\ forall v' u t', result_of w s v' u t' -> (has_grad w' t' <-> has_grad w t' \/ reach (graph_of s) f u).
Proof.
  intros HI (Ev & Et) HC. destruct (i_var _ _ HI v t Ev) as (o & Eo & G). rewrite Et in Eo. injection Eo as <-.
  pose proof G as (_ & _ & m & x & E1 & E2 & E3). destruct (backward_starts w s t f m x HI G E1 E2) as (order & HO & _ & Eb). subst f.
  pose proof (Inv_root w s m x order HI E2 HO) as HI1. set (w1 := setMetas w _) in *.
  pose proof HO as HO'. apply consumers_def in HO' as (ND & HR & _).
  assert (KM : forall m' x', obj (metas w) m' = Some x' -> exists x1, obj (metas w1) m' = Some x1 /\ mfn x1 = mfn x').
  { intros m' x' E. unfold w1. cbn. rewrite obj_modify. destruct (m' =? m) eqn:Em; [|eauto]. apply Nat.eqb_eq in Em. subst m'. rewrite E. cbn. eauto. }
  assert (HL1 : forall u, In u order -> Live w1 u).
  { intros u Hu. apply HR in Hu. destruct (live_reach w s (mfn x) u HI) as (m' & x' & Em' & Eu); auto; [exists m, x; auto|]. destruct (KM _ _ Em') as (x1 & ? & ?). exists m', x1. split; auto. congruence. }
  assert (NR : forall u r fs, In u order -> nth_error (ops s) u = Some (r, fs) -> r <> Some NoRule) by (intros u r fs Hu Eu; apply HR in Hu; eapply HC; eauto).
  destruct (runFuncs_runs s (mfn x) order (i_acyclic _ _ HI) HO order [] w1) as (w2 & E); auto.
  { intros u r fs Hu Eu. apply HR in Hu. destruct (HC u r fs Hu Eu). auto. }
  { intros u m' x' Hu Em' Eu Hc _. destruct Hc as [->|(c & _ & _ & [] & _)]. destruct (after_root w s m x order HI E2 m' x' Em') as (x0 & Ex0 & Ef & ->). left.
    destruct (live_func w s (mfn x) HI) as (y & Ey); [exists m, x; auto|]. destruct (i_func _ _ HI _ _ Ey) as (Eops & _).
    destruct (owner_unique w s m' m x0 x y HI Ex0 E2) as (-> & _); auto; [congruence|replace (mfn x0) with (mfn x) by congruence; auto|eapply NR; eauto]. }
  destruct (runFuncs_inv _ _ _ _ HI1 E) as (HI2 & cs & Ecs & A & RC).
  exists (sweep w2). destruct (sweep_keeps w2) as (S1 & S2 & S3 & S4). split.
  { unfold step. cbn [perform]. rewrite Ev, Eb. fold w1. rewrite E. auto. }
  exists cs. pose proof A as (A1 & A2 & A3 & A4 & A5). split; [rewrite S2, A3; auto|]. split; [rewrite Ecs; auto|]. split; [|split; [rewrite S1, A2; auto|]].
  - (* uniqueness of the owners of reached functions in w1 *)
    rewrite Forall_forall in RC.
    assert (HU : forall c m' x', In c cs -> obj (metas w1) m' = Some x' -> mfn x' = cfn c -> cowner c = m').
    { intros c m' x' Hc Em' Ef. destruct (RC c Hc) as (_ & (y & Ey & Hr & Ho) & _). destruct (i_meta _ _ HI1 m' x' Em') as ((z & Ez & Hz) & _). rewrite Ef, Ey in Ez. injection Ez as <-. rewrite <- (Hz Hr). auto. }
    intros c Hc. split.
    + intros v' t' (Ev' & Et'). rewrite S1, A2 in Ev'. change (vars w1) with (vars w) in Ev'. destruct (i_var _ _ HI v' t' Ev') as (o & Eo & _ & G'). rewrite Et' in Eo. injection Eo as <-.
      destruct G' as (_ & m' & x' & F1 & F2 & F3). destruct (KM _ _ F2) as (x1 & F4 & F5). rewrite F1. f_equal. symmetry. apply (HU c m' x1); auto. congruence.
    + destruct (RC c Hc) as (_ & _ & r & fs & R1 & R2). exists r, fs. split; auto. clear R1. induction R2 as [|n m' ns ms (z & Ez & En) R2 IH]; constructor; auto.
      intros c' Hc' Ec'. apply (HU c' m' z); auto. congruence.
  - intros v' u t' (Ev' & Et'). destruct (i_var _ _ HI v' t' Ev') as (o & Eo & _ & G'). rewrite Et' in Eo. injection Eo as <-.
    destruct G' as (_ & m' & x' & F1 & F2 & F3). rewrite Forall_forall in RC.
    assert (HG : has_grad (sweep w2) t' <-> mem m' (flat_map cto cs) = true \/ m' = m \/ mgrad x' = true).
    { destruct (KM _ _ F2) as (x1 & F4 & F5). destruct (after_root w s m x order HI E2 m' x1 F4) as (x0 & F6 & _ & F7). rewrite F2 in F6. injection F6 as <-. rewrite <- F7.
      assert (K : obj (metas (sweep w2)) m' = Some (if mem m' (flat_map cto cs) then graded x1 else x1)).
      { rewrite (S4 v' t' m'); auto; [|rewrite A2; auto]. rewrite A4, F4. auto. }
      split.
      - intros (m'' & z & G1 & G2 & G3). rewrite F1 in G1. injection G1 as <-. rewrite K in G2. injection G2 as <-. destruct (mem m' (flat_map cto cs)); auto.
      - intros G1. exists m', (if mem m' (flat_map cto cs) then graded x1 else x1). split; auto. split; auto. destruct (mem m' (flat_map cto cs)); auto. destruct G1; [discriminate|auto]. }
    rewrite HG. clear HG. assert (HG0 : has_grad w t' <-> mgrad x' = true).
    { split; [intros (m'' & z & G1 & G2 & G3); congruence|]. intros. exists m', x'. auto. }
    rewrite HG0. split.
    + intros [H|[H|H]]; auto; right.
      * apply mem_in, in_flat_map in H as (c & Hc & H). destruct (RC c Hc) as (_ & _ & r & fs & R1 & R2).
        assert (exists n z, In n fs /\ obj (metas w1) m' = Some z /\ mfn z = n) as (n & z & Hn & Ez & En).
        { clear - R2 H. induction R2 as [|n m0 ns ms (z & Ez & En) R2 IH]; [easy|]. destruct H as [->|H]; [exists n, z; cbn; auto|]. destruct (IH H) as (n' & z' & ? & ?). exists n', z'. cbn. tauto. }
        destruct (KM _ _ F2) as (x1 & F4 & F5). assert (Hu : In u fs) by congruence. eapply reach_edge; [|exact R1|exact Hu]. apply HR. rewrite <- Ecs. apply in_map. auto.
      * subst m'. rewrite E2 in F2. injection F2 as <-. subst u. constructor.
    + intros [H|H]; auto. assert (Hu : In u order) by (apply HR; auto).
      destruct (live_func w s u HI) as (y & Ey); [exists m', x'; auto|]. destruct (i_func _ _ HI _ _ Ey) as (Eops & _). pose proof (NR _ _ _ Hu Eops) as Hr.
      assert (K : u = mfn x \/ exists c r fs, reach (graph_of s) (mfn x) c /\ nth_error (ops s) c = Some (r, fs) /\ In u fs) by (clear - H; revert u H; apply reach_ind'; [auto|]; intros v0 u r fs Hv _ Ev0 Hu; right; exists v0, r, fs; auto).
      destruct K as [K|(c & r & fs & Hc & Ec & Huf)].
      * right. left. destruct (owner_unique w s m' m x' x y HI F2 E2) as (-> & _); auto; congruence.
      * left. apply mem_true, in_flat_map. apply HR in Hc. rewrite <- Ecs in Hc. apply in_map_iff in Hc as (c' & Ec' & Hc'). exists c'. split; auto.
        destruct (RC c' Hc') as (_ & _ & r' & fs' & R1 & R2). rewrite Ec', Ec in R1. injection R1 as <- <-.
        assert (exists m'' z, In m'' (cto c') /\ obj (metas w1) m'' = Some z /\ mfn z = u) as (m'' & z & Hm & Ez & En).
        { clear - R2 Huf. induction R2 as [|n m0 ns ms (z & Ez & En) R2 IH]; [easy|]. destruct Huf as [->|H]; [exists m0, z; cbn; auto|]. destruct (IH H) as (n' & z' & ? & ?). exists n', z'. cbn. tauto. }
        destruct (KM _ _ F2) as (x1 & F4 & F5). destruct (owner_unique w1 s m' m'' x1 z y HI1 F4 Ez) as (-> & _); auto; try congruence. replace (mfn x1) with u by congruence. exact Ey.
Qed.
Lemma backward_refused w s v f t : Inv w s -> result_of w s v f t -> ~ can_run w s f -> step w (SBackward v) = None.
Proof.
  intros HI (Ev & Et) HC. destruct (step w (SBackward v)) as [w'|] eqn:E; auto. exfalso. apply HC. intros u r fs Hu Eu.
  destruct (i_var _ _ HI v t Ev) as (o & Eo & G). rewrite Et in Eo. injection Eo as <-.
  pose proof G as (_ & _ & m & x & E1 & E2 & E3). destruct (backward_starts w s t f m x HI G E1 E2) as (order & HO & _ & Eb). subst f.
  pose proof (Inv_root w s m x order HI E2 HO) as HI1. set (w1 := setMetas w _) in *. apply consumers_def in HO as (ND & HR & _).
  unfold step in E. cbn [perform] in E. rewrite Ev, Eb in E. fold w1 in E. destruct (runFuncs w1 order) as [w2|] eqn:E4; [|discriminate].
  apply HR in Hu. apply in_split in Hu as (before & after & ->). rewrite runFuncs_app in E4. destruct (runFuncs w1 before) as [w3|] eqn:E5; [|discriminate].
  destruct (runFuncs_inv _ _ _ _ HI1 E5) as (HI3 & cs & Ecs & A & _). cbn in E4. destruct (runFunc w3 u) as [w4|] eqn:E6; [|discriminate].
  destruct (runFunc_inv _ _ _ _ HI3 E6) as (_ & (y & Ey & Hr & Hs) & _). destruct (i_func _ _ HI3 u y Ey) as (K & _). rewrite Eu in K. injection K as -> ->. split; auto.
  intros Er Hin. assert (Hsp : fspent y = true); [|congruence]. apply (i_spent _ _ HI3 u y Ey). split; auto. destruct A as (_ & _ & -> & _). rewrite map_app. apply in_app_iff. auto.
Qed.
