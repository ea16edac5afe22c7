(** Gentle programs: every gradient is the derivative. *)
From Coq Require Import ZArith List Bool Arith Lia Permutation Reals Lra.
From Verif Require Import AutogradModel AutogradSpec AutogradProofs AutogradProofs2 AutogradProofs3 AutogradProps GradModel ProgModel ProgSpec ProgProofs ProgProofs2 ProgProofs3.
Import ListNotations.
Close Scope R_scope.
Open Scope nat_scope.

Lemma at_snoc : forall ps q v, at_ (ps ++ [q]) v = if v =? length ps then q else at_ ps v.
Proof.
  intros ps q v. destruct (Nat.eqb_spec v (length ps)) as [->|H]; [apply at_app2|]. destruct (Nat.lt_ge_cases v (length ps)); [apply at_app1; auto|].
  rewrite !at_beyond; auto. rewrite app_length. cbn. lia.
Qed.
Lemma derivable_const : forall (c a : R), derivable_pt_lim (fun _ => c) a 0%R.
Proof. intros. apply (derivable_pt_lim_const c a). Qed.

Section Leaf.
Variables (theta : nat -> R) (l : nat).
Record DInv (st : hstate) (ps : list point) (P : R -> list point) : Prop := {
  d_len : forall t, length (P t) = length ps;
  d_same : forall t v, base (at_ (P t) v) = base (at_ ps v) /\ needs (at_ (P t) v) = needs (at_ ps v)
    /\ (needs (at_ ps v) = false -> moved (at_ (P t) v) = base (at_ ps v));
  d_at : forall v, moved (at_ (P (theta l)) v) = base (at_ ps v);
  d_before : length ps <= l -> forall t v, moved (at_ (P t) v) = base (at_ ps v);
  d_after : l < length ps -> exists fl, gradFnOf st l = Some fl
    /\ forall v, derivable_pt_lim (fun t => moved (at_ (P t) v)) (theta l) (slope st fl v) }.

Section Step.
Variables (st : hstate) (ps : list point) (used : list nat) (P : R -> list point).
Hypothesis I : Inv st ps used.
Hypothesis D : DInv st ps P.

Lemma d_append_const : forall st' b m P', (forall w, gradFnOf st' w = gradFnOf st w) -> plain st' = plain st -> length ps <> l ->
  (forall t, P' t = P t ++ [Point b b false]) -> DInv st' (ps ++ [Point b m false]) P'.
Proof using D I.
  intros st' b m P' HG HP Hl HP'. assert (AT : forall t v, at_ (P' t) v = if v =? length ps then Point b b false else at_ (P t) v).
  { intros. rewrite HP', at_snoc, (d_len _ _ _ D). auto. }
  constructor.
  - intros t. rewrite HP', !app_length, (d_len _ _ _ D). auto.
  - intros t v. rewrite AT, at_snoc. destruct (v =? length ps); cbn; auto. apply (d_same _ _ _ D).
  - intros v. rewrite AT, at_snoc. destruct (v =? length ps); cbn; auto. apply (d_at _ _ _ D).
  - intros H t v. rewrite app_length in H. cbn in H. rewrite AT, at_snoc. destruct (v =? length ps); cbn; auto. apply (d_before _ _ _ D). lia.
  - intros H. rewrite app_length in H. cbn in H. destruct (d_after _ _ _ D) as (fl & Hfl & HD); [lia|]. exists fl. rewrite HG. split; auto.
    intros v. unfold slope. rewrite HG, HP. destruct (Nat.eqb_spec v (length ps)) as [->|Hv].
    + assert (HN : gradFnOf st (length ps) = None).
      { unfold gradFnOf. rewrite (proj2 (nth_error_None _ _)); auto. rewrite (i_len _ _ _ I). auto. }
      rewrite HN. eapply derivable_lim_ext; [|apply (derivable_const b)]. intros t. cbn. rewrite AT, Nat.eqb_refl. auto.
    + eapply derivable_lim_ext; [|apply (HD v)]. intros t. cbn. rewrite AT. destruct (Nat.eqb_spec v (length ps)); [lia|auto].
Qed.
Lemma d_set : forall st' x b m P' M, (forall w, gradFnOf st' w = gradFnOf st w) -> plain st' = plain st -> x < length ps ->
  (forall t, P' t = set_at (P t) x (Point b (M t) (needs (at_ ps x)))) ->
  (needs (at_ ps x) = false -> forall t, M t = b) -> M (theta l) = b -> (length ps <= l -> forall t, M t = b) ->
  (forall d, derivable_pt_lim (fun t => moved (at_ (P t) x)) (theta l) d -> derivable_pt_lim M (theta l) d) ->
  DInv st' (set_at ps x (Point b m (needs (at_ ps x)))) P'.
Proof using D.
  intros st' x b m P' M HG HP Hx HP' H1 H2 H3 H4.
  assert (AT : forall t v, at_ (P' t) v = if v =? x then Point b (M t) (needs (at_ ps x)) else at_ (P t) v).
  { intros. rewrite HP', at_set; auto. rewrite (d_len _ _ _ D). auto. }
  constructor.
  - intros t. rewrite HP', !set_at_length, (d_len _ _ _ D). auto.
  - intros t v. rewrite AT, at_set by auto. destruct (v =? x); cbn; auto. apply (d_same _ _ _ D).
  - intros v. rewrite AT, at_set by auto. destruct (v =? x); cbn; auto. apply (d_at _ _ _ D).
  - intros H t v. rewrite set_at_length in H. rewrite AT, at_set by auto. destruct (v =? x); cbn; auto. apply (d_before _ _ _ D). lia.
  - intros H. rewrite set_at_length in H. destruct (d_after _ _ _ D) as (fl & Hfl & HD); [lia|]. exists fl. rewrite HG. split; auto.
    intros v. unfold slope. rewrite HG, HP. fold (slope st fl v). destruct (Nat.eqb_spec v x) as [->|Hv].
    + eapply derivable_lim_ext; [|apply H4, HD]. intros t. cbn. rewrite AT, Nat.eqb_refl. auto.
    + eapply derivable_lim_ext; [|apply (HD v)]. intros t. cbn. rewrite AT. destruct (Nat.eqb_spec v x); [lia|auto].
Qed.
Lemma d_rec : forall v m pre k fs P' M, pre = [] \/ pre = [Func KLeaf []] -> (forall h, In h (savedOf k) -> himpl h < length (impls st)) ->
  (forall t, In t fs -> exists w, gradFnOf st w = Some t) -> length fs = length (rules st k) ->
  (forall t, P' t = P t ++ [Point v (M t) true]) -> M (theta l) = v -> (length ps < l -> forall t, M t = v) ->
  (length ps = l /\ k = KLeaf /\ (forall t, M t = t)
   \/ length ps <> l /\ forall fl, l < length ps -> gradFnOf st l = Some fl -> derivable_pt_lim M (theta l) (if match k with KLeaf => true | _ => false end then 0%R else edgeSum st fl (combine fs (rules st k)))) ->
  DInv (stRec st v pre k fs) (ps ++ [Point v m true]) P'.
Proof using D I.
  intros v m pre k fs P' M Hpre Hk Hfs HL HP' H1 H2 H3. set (st' := stRec st v pre k fs).
  assert (AT : forall t w, at_ (P' t) w = if w =? length ps then Point v (M t) true else at_ (P t) w).
  { intros. rewrite HP', at_snoc, (d_len _ _ _ D). auto. }
  assert (GFO : forall w f, gradFnOf st w = Some f -> gradFnOf st' w = Some f) by (intros; eapply gradFn_app; eauto; reflexivity).
  assert (GFN : gradFnOf st' (length ps) = Some (length (funcs st ++ pre))).
  { unfold gradFnOf. cbn [st' stRec vars metas]. rewrite <- (i_len _ _ _ I), nth_error_app2, Nat.sub_diag by auto. cbn [nth_error hmeta]. rewrite nth_error_app2, Nat.sub_diag by auto. auto. }
  assert (GFX : forall w, w <> length ps -> gradFnOf st' w = gradFnOf st w).
  { intros w Hw. destruct (gradFnOf st w) as [f|] eqn:E; [auto|]. destruct (gradFnOf st' w) as [f|] eqn:E'; auto. apply (stRec_gradFn st ps used I) in E'. destruct E' as [E'|[-> _]]; [congruence|tauto]. }
  constructor.
  - intros t. rewrite HP', !app_length, (d_len _ _ _ D). auto.
  - intros t w. rewrite AT, at_snoc. destruct (w =? length ps); cbn; [repeat split; auto; discriminate|]. apply (d_same _ _ _ D).
  - intros w. rewrite AT, at_snoc. destruct (w =? length ps); cbn; auto. apply (d_at _ _ _ D).
  - intros H t w. rewrite app_length in H. cbn in H. rewrite AT, at_snoc. destruct (w =? length ps); cbn; [apply H2; lia|]. apply (d_before _ _ _ D). lia.
  - intros H. rewrite app_length in H. cbn in H. destruct H3 as [(El & -> & HM)|(Hl & H3)].
    + exists (length (funcs st ++ pre)). rewrite <- El. split; auto. intros w. unfold slope. destruct (Nat.eqb_spec w (length ps)) as [->|Hw].
      * rewrite GFN. unfold st'. rewrite (slope_self st ps used I v pre KLeaf fs) by auto. eapply derivable_lim_ext; [|apply derivable_pt_lim_id].
        intros t. cbn. rewrite AT, Nat.eqb_refl. cbn. rewrite HM. auto.
      * rewrite GFX by auto. assert (E0 : match gradFnOf st w with Some f => total (plain st') f (length (funcs st ++ pre)) (1%R : Rg) | None => 0%R end = 0%R).
        { destruct (gradFnOf st w) as [f|] eqn:E; auto. apply (gradFn_lt _ _ _ _ _ I) in E. apply (slope_beyond st ps used I v pre KLeaf fs); auto. lia. }
        eapply derivable_lim_ext; [|eapply derivable_lim_eq; [apply (derivable_const (base (at_ ps w)))|symmetry; exact E0]]. intros t. cbn. rewrite AT. destruct (Nat.eqb_spec w (length ps)); [lia|].
        symmetry. apply (d_before _ _ _ D). lia.
    + destruct (d_after _ _ _ D) as (fl & Hfl & HD); [lia|]. exists fl. split; [auto|]. pose proof (gradFn_lt _ _ _ _ _ I Hfl) as (Hf & _).
      intros w. unfold slope. destruct (Nat.eqb_spec w (length ps)) as [->|Hw].
      * rewrite GFN. eapply derivable_lim_ext; [intros t; cbn; rewrite AT, Nat.eqb_refl; reflexivity|]. cbn [moved].
        eapply derivable_lim_eq; [apply (H3 fl); auto; lia|]. unfold st'. destruct k as [|u h|b h1 h2|h]; [|symmetry; apply (slope_new st ps used I); auto; discriminate..].
        (* a leaf that is not [l] *)
        symmetry. rewrite (plain' st ps used I v pre KLeaf fs Hpre Hk).
        rewrite <- (g1_length st pre). rewrite total_new.
        -- reflexivity.
        -- exact (g1_ac st ps used I v pre KLeaf fs Hpre).
        -- apply scaling_linear, g1_sc.
        -- intros t [].
        -- intros t d [].
        -- rewrite g1_length, app_length. lia.
      * rewrite GFX by auto. eapply derivable_lim_ext; [|eapply derivable_lim_eq; [apply (HD w)|]].
        -- intros t. cbn. rewrite AT. destruct (Nat.eqb_spec w (length ps)); [lia|auto].
        -- unfold slope. destruct (gradFnOf st w) as [f|] eqn:E; auto. apply (gradFn_lt _ _ _ _ _ I) in E. symmetry. apply (slope_old st ps used I); auto. lia.
Qed.
End Step.

(** * Which functions receive what *)
Variable adds : nat -> Prop.
Record EInv (st : hstate) (cnt : nat -> nat) : Prop := {
  e_cnt : forall v f, gradFnOf st v = Some f -> count_occ Nat.eq_dec (flat_map nextFns (funcs st)) f <= cnt v;
  e_pass : forall f t, In f (funcs st) -> In (t, Pass) (combine (nextFns f) (rules st (kept f))) -> exists v, gradFnOf st v = Some t /\ adds v }.
Lemma e_same : forall st st' cnt cnt', EInv st cnt -> (forall v, cnt v <= cnt' v) -> funcs st' = funcs st -> (forall w, gradFnOf st' w = gradFnOf st w) ->
  (forall f, In f (funcs st) -> rules st' (kept f) = rules st (kept f)) -> EInv st' cnt'.
Proof.
  intros st st' cnt cnt' E HC HF HG HR. constructor.
  - intros v f. rewrite HG, HF. intros H. specialize (HC v). pose proof (e_cnt _ _ E v f H). lia.
  - intros f t Hf. rewrite HF in Hf. rewrite HR by auto. intros H. destruct (e_pass _ _ E f t Hf H) as (v & A & B). exists v. rewrite HG. auto.
Qed.
Lemma count_fns : forall st ps used xs v f, Inv st ps used -> gradFnOf st v = Some f -> count_occ Nat.eq_dec (fnsOf st xs) f = count_occ Nat.eq_dec xs v.
Proof.
  intros st ps used xs v f I H. induction xs as [|x xs IH]; auto. unfold fnsOf. cbn [flat_map]. fold (fnsOf st xs). rewrite count_occ_app, IH. cbn [count_occ].
  destruct (Nat.eq_dec x v) as [->|Hx].
  - rewrite H. cbn. destruct (Nat.eq_dec f f); [auto|tauto].
  - destruct (gradFnOf st x) as [f'|] eqn:E; auto. cbn. destruct (Nat.eq_dec f' f) as [->|]; auto. exfalso. apply Hx. eapply i_inj; eauto.
Qed.
Lemma e_rec : forall st ps used cnt cnt' v pre k xs, Inv st ps used -> EInv st cnt ->
  pre = [] \/ pre = [Func KLeaf []] -> (forall h, In h (savedOf k) -> himpl h < length (impls st)) ->
  (forall w, cnt w + count_occ Nat.eq_dec xs w <= cnt' w) ->
  (forall t, In (t, Pass) (combine (fnsOf st xs) (rules st k)) -> exists w, gradFnOf st w = Some t /\ adds w) ->
  EInv (stRec st v pre k (fnsOf st xs)) cnt'.
Proof.
  intros st ps used cnt cnt' v pre k xs I E Hpre Hk HC HPass. set (st' := stRec st v pre k (fnsOf st xs)).
  assert (GI : forall h, himpl h < length (impls st) -> getImpl st' h = getImpl st h) by (intros; eapply getImpl_app; [reflexivity|auto]).
  assert (GFO : forall w f, gradFnOf st w = Some f -> gradFnOf st' w = Some f) by (intros; eapply gradFn_app; eauto; reflexivity).
  assert (FM : flat_map nextFns (funcs st') = flat_map nextFns (funcs st) ++ fnsOf st xs).
  { cbn [st' stRec funcs]. rewrite !flat_map_app. f_equal. destruct Hpre as [->| ->]; cbn; rewrite app_nil_r; auto. }
  constructor.
  - intros w f H. rewrite FM, count_occ_app. apply (stRec_gradFn st ps used I) in H. destruct H as [H|[-> ->]].
    + rewrite (count_fns _ _ _ xs w f I H). pose proof (e_cnt _ _ E w f H). specialize (HC w). lia.
    + rewrite !(proj1 (count_occ_not_In Nat.eq_dec _ _)); [lia| |].
      * intros H. unfold fnsOf in H. apply in_flat_map in H. destruct H as (x & _ & H). destruct (gradFnOf st x) as [f|] eqn:Ex; [|inversion H]. destruct H as [->|[]]. apply (gradFn_lt _ _ _ _ _ I) in Ex. rewrite app_length in Ex. lia.
      * intros H. apply in_flat_map in H. destruct H as (f & Hf & Ht). apply In_nth_error in Hf. destruct Hf as (i & Hi). destruct (i_next _ _ _ I i f _ Hi Ht) as (A & _).
        assert (i < length (funcs st)) by (apply nth_error_Some; congruence). rewrite app_length in A. lia.
  - intros f t Hf H. cbn [st' stRec funcs] in Hf. rewrite !in_app_iff in Hf. destruct Hf as [Hf|[Hf|[<-|[]]]].
    + rewrite (rules_ext st st') in H by (intros h Hh; apply GI; eapply i_saved; eauto). destruct (e_pass _ _ E f t Hf H) as (w & A & B). eauto.
    + destruct Hpre as [->| ->]; [inversion Hf|destruct Hf as [<-|[]]]. inversion H.
    + cbn [kept nextFns] in H. rewrite (rules_ext st st') in H by (intros h Hh; apply GI; auto). destruct (HPass t H) as (w & A & B). eauto.
Qed.
Lemma pass_un : forall st u h (t : nat) (fs : list nat), ~ In (t, Pass) (combine fs (rules st (KUn u h))).
Proof. intros st u h t fs H. apply in_combine_r in H. cbn [rules] in H. unfold toInput in H. destruct (getReq st h); [|inversion H]. destruct H as [H|[]]. destruct u; discriminate. Qed.
Lemma in_fns : forall st xs t, In t (fnsOf st xs) -> exists x, In x xs /\ gradFnOf st x = Some t.
Proof. intros st xs t H. unfold fnsOf in H. apply in_flat_map in H. destruct H as (x & Hx & H). exists x. split; auto. destruct (gradFnOf st x); [destruct H as [->|[]]; auto|inversion H]. Qed.
Lemma pass_bin : forall st ps used b x y h1 h2 t, Inv st ps used -> nth_error (vars st) x = Some h1 -> nth_error (vars st) y = Some h2 ->
  (b = BAdd -> adds x /\ adds y) -> (b = BSub -> adds x) ->
  In (t, Pass) (combine (fnsOf st [x; y]) (rules st (KBin b h1 h2))) -> exists w, gradFnOf st w = Some t /\ adds w.
Proof.
  intros st ps used b x y h1 h2 t I E1 E2 HA HS H.
  assert (HT : forall h d e, In d (toInput st h e) -> d = e).
  { intros h d e He. unfold toInput in He. destruct (getReq st h); [destruct He as [<-|[]]; auto|inversion He]. }
  assert (HF : fnsOf st [x; y] = fnsOf st [x] ++ fnsOf st [y]) by (unfold fnsOf; cbn [flat_map]; rewrite !app_nil_r; auto).
  destruct b; cbn [rules] in H.
  - apply in_combine_l, in_fns in H. destruct H as (w & Hw & E). exists w. split; auto. destruct (HA eq_refl). destruct Hw as [<-|[<-|[]]]; auto.
  - rewrite HF in H. rewrite combine_app' in H by (apply (edge_one st ps used x h1 Pass 0 I E1)). apply in_app_iff in H. destruct H as [H|H].
    + apply in_combine_l, in_fns in H. destruct H as (w & [<-|[]] & E). exists x. auto.
    + apply in_combine_r, HT in H. discriminate.
  - apply in_combine_r, in_app_iff in H. destruct H as [H|H]; apply HT in H; discriminate.
  - apply in_combine_r, in_app_iff in H. destruct H as [H|H]; apply HT in H; discriminate.
  - apply in_combine_r, in_app_iff in H. destruct H as [H|H]; apply HT in H; discriminate.
Qed.

(** * One statement *)
Definition creates (s : stmt) : bool := match s with SIn _ _ _ | SFill _ _ => false | _ => true end.
Definition adds_ok (s : stmt) : Prop := match s with SBin b x y => (b = BAdd -> adds x /\ adds y) /\ (b = BSub -> adds x) | _ => True end.
Lemma var_of : forall st ps used x, Inv st ps used -> x < length ps -> exists h, nth_error (vars st) x = Some h.
Proof. intros st ps used x I H. rewrite <- (i_len _ _ _ I) in H. destruct (nth_error (vars st) x) eqn:E; eauto. apply nth_error_None in E. lia. Qed.
Lemma fns_vars : forall st xs t, In t (fnsOf st xs) -> exists w, gradFnOf st w = Some t.
Proof. intros st xs t H. apply in_fns in H. destruct H as (x & _ & H). eauto. Qed.
Lemma needs_before : forall st ps used P, Inv st ps used -> DInv st ps P -> length ps <= l -> forall t v, moved (at_ (P t) v) = base (at_ ps v).
Proof. intros. eapply d_before; eauto. Qed.

Lemma step : forall st ps used P cnt en s, Inv st ps used -> DInv st ps P -> EInv st cnt ->
  domain1 s ps -> gentle1 en s used ps -> adds_ok s -> (creates s = true -> length ps = l -> s = SLeaf true) ->
  exists st', exec1 theta en s st = Some st'
  /\ Inv st' (run1 theta theta en s ps) (used1 s used ps)
  /\ DInv st' (run1 theta theta en s ps) (fun t => run1 theta (move theta l t) en s (P t))
  /\ EInv st' (fun v => cnt v + count_occ Nat.eq_dec (operands s) v).
Proof.
  intros st ps used P cnt en s I D E HD HG HA HC.
  pose proof (d_len _ _ _ D) as PL.
  assert (PB : forall t v, base (at_ (P t) v) = base (at_ ps v)) by (intros t v; apply (d_same _ _ _ D t v)).
  assert (PN : forall t v, needs (at_ (P t) v) = needs (at_ ps v)) by (intros t v; apply (d_same _ _ _ D t v)).
  assert (PM : forall t v, needs (at_ ps v) = false -> moved (at_ (P t) v) = base (at_ ps v)) by (intros t v; apply (d_same _ _ _ D t v)).
  pose proof (d_at _ _ _ D) as PA.
  assert (MA : move theta l (theta l) = theta \/ True) by auto. clear MA.
  assert (SV : forall v h, nth_error (vars st) v = Some h -> himpl h < length (impls st)) by (intros v h Hv; apply (i_var _ _ _ I v h Hv)).
  destruct s as [r|u x|b x y|x|b x y|x v].
  - (* SLeaf *) rewrite (exec_leaf st ps used I). eexists. split; [reflexivity|]. destruct r.
    + split; [|split].
      * apply (inv_rec st ps used I); [intros f []|intros t []|auto|intros h []|cbn; intros w Hw; auto].
      * cbn [run1]. apply (d_rec st ps used P I D _ _ [] KLeaf [] _ (fun t => move theta l t (length ps))); auto; [intros h []|intros t []| | | |].
        -- intros t. rewrite PL. auto.
        -- unfold move. destruct (Nat.eqb_spec (length ps) l) as [->|]; auto.
        -- intros H t. unfold move. destruct (Nat.eqb_spec (length ps) l); [lia|auto].
        -- destruct (Nat.eq_dec (length ps) l) as [El|El]; [left|right].
           ++ repeat split; auto. intros t. unfold move. rewrite El, Nat.eqb_refl. auto.
           ++ split; auto. intros fl Hl Hfl. eapply derivable_lim_ext; [|apply (derivable_const (theta (length ps)))]. intros t. cbn. unfold move. destruct (Nat.eqb_spec (length ps) l); [lia|auto].
      * apply (e_rec st ps used cnt _ _ [] KLeaf [] I E); [auto|intros h []|cbn; intros; lia|intros t []].
    + cbn [run1 used1 operands app count_occ]. split; [apply (inv_const st ps used I); auto; intros w; auto|]. split.
      * eapply (d_append_const st ps used P I D); auto.
        -- apply (same_gradFn_app st _ (Handle (length (impls st)) None)); auto.
        -- apply (plain_same st); auto. intros f h Hf Hh. eapply getImpl_app; [reflexivity|]. eapply i_saved; eauto.
        -- intros El. specialize (HC eq_refl El). discriminate.
        -- intros t. cbn. rewrite PL. auto.
      * eapply e_same; eauto; [intros; lia| |].
        -- apply (same_gradFn_app st _ (Handle (length (impls st)) None)); auto.
        -- intros f Hf. apply rules_ext. intros h Hh. eapply getImpl_app; [reflexivity|]. eapply i_saved; eauto.
  - (* SUn *) cbn [domain1] in HD. destruct (var_of st ps used x I HD) as (h & Eh).
    assert (EX : exec1 theta en (SUn u x) st = Some (if en && needs (at_ ps x)
      then stRec st (un_math u (base (at_ ps x))) (match u with UReshape => [Func KLeaf []] | _ => [] end) (KUn u h) (fnsOf st [x]) else stConst st (un_math u (base (at_ ps x))))).
    { destruct u; [apply (exec_un st ps used I); auto; discriminate|apply (exec_un st ps used I); auto; discriminate|]. apply (exec_reshape st ps used I); auto. }
    rewrite EX. eexists. split; [reflexivity|]. clear EX. cbn [run1]. assert (Hl : length ps <> l) by (intros El; specialize (HC eq_refl El); discriminate).
    destruct (en && needs (at_ ps x)) eqn:En.
    + set (pre := match u with UReshape => _ | _ => _ end). assert (Hpre : pre = [] \/ pre = [Func KLeaf []]) by (unfold pre; destruct u; auto).
      destruct (un_edges st ps used u x h 0 I Eh) as [HL _].
      split; [|split].
      * apply (inv_rec st ps used I); [intros f Hf; destruct Hpre as [Hp|Hp]; rewrite Hp in Hf; [inversion Hf|destruct Hf as [<-|[]]; auto]|apply fns_vars|exact HL| |].
        -- intros h' [<-|[]]. exists x. split; auto. cbn. auto.
        -- intros w Hw. cbn. auto.
      * apply (d_rec st ps used P I D _ _ pre _ _ _ (fun t => un_math u (moved (at_ (P t) x)))); auto.
        -- intros h' [<-|[]]. eauto.
        -- apply fns_vars.
        -- intros t. rewrite PB, PN, En. auto.
        -- rewrite PA. auto.
        -- intros H t. rewrite (needs_before _ _ _ _ I D) by lia. auto.
        -- right. split; auto. intros fl H Hfl. destruct (d_after _ _ _ D H) as (fl' & Hfl' & HDv). assert (fl' = fl) by congruence. subst fl'.
           destruct (un_edges st ps used u x h fl I Eh) as [_ HS]. rewrite HS. cbn.
           eapply derivable_lim_eq; [apply un_derivative; apply (HDv x)|]. cbn beta. rewrite PA. auto.
      * eapply e_rec; eauto; [intros h' [<-|[]]; eauto|]. intros t Ht. exfalso. eapply pass_un; eauto.
    + split; [|split].
      * apply (inv_const st ps used I); auto. intros w Hw. cbn. auto.
      * eapply (d_append_const st ps used P I D); auto.
        -- apply (same_gradFn_app st _ (Handle (length (impls st)) None)); auto.
        -- apply (plain_same st); auto. intros f h' Hf Hh. eapply getImpl_app; [reflexivity|]. eapply i_saved; eauto.
        -- intros t. cbn. rewrite PB, PN, En. auto.
      * eapply e_same; eauto; [intros; lia| |].
        -- apply (same_gradFn_app st _ (Handle (length (impls st)) None)); auto.
        -- intros f Hf. apply rules_ext. intros h' Hh. eapply getImpl_app; [reflexivity|]. eapply i_saved; eauto.
  - (* SBin *) cbn [domain1] in HD. destruct HD as (Hx & Hy & HD). destruct (var_of st ps used x I Hx) as (h1 & E1). destruct (var_of st ps used y I Hy) as (h2 & E2).
    rewrite (exec_bin st ps used I theta en b x y h1 h2) by auto. eexists. split; [reflexivity|]. cbn [run1]. cbn zeta.
    assert (Hl : length ps <> l) by (intros El; specialize (HC eq_refl El); discriminate).
    destruct (en && (needs (at_ ps x) || needs (at_ ps y))) eqn:En.
    + destruct (bin_edges st ps used b x y h1 h2 0 I E1 E2 HD) as [HL _].
      split; [|split].
      * apply (inv_rec st ps used I); [intros f []|apply fns_vars|exact HL| |].
        -- intros h' [<-|[<-|[]]]; [exists x|exists y]; split; auto; cbn; auto.
        -- intros w Hw. cbn. auto.
      * apply (d_rec st ps used P I D _ _ [] _ _ _ (fun t => bin_math b (moved (at_ (P t) x)) (moved (at_ (P t) y)))); auto.
        -- intros h' [<-|[<-|[]]]; eauto.
        -- apply fns_vars.
        -- intros t. rewrite !PB, !PN, En. auto.
        -- rewrite !PA. auto.
        -- intros H t. rewrite !(needs_before _ _ _ _ I D) by lia. auto.
        -- right. split; auto. intros fl H Hfl. destruct (d_after _ _ _ D H) as (fl' & Hfl' & HDv). assert (fl' = fl) by congruence. subst fl'.
           destruct (bin_edges st ps used b x y h1 h2 fl I E1 E2 HD) as [_ HS]. rewrite HS. cbn iota.
           eapply derivable_lim_eq; [apply bin_derivative; [apply (HDv x)|apply (HDv y)|cbn beta; rewrite !PA; auto]|]. cbn beta. rewrite !PA. auto.
      * destruct HA as [HA1 HA2]. eapply e_rec; eauto; [intros h' [<-|[<-|[]]]; eauto|]. intros t Ht. exact (pass_bin st ps used b x y h1 h2 t I E1 E2 HA1 HA2 Ht).
    + split; [|split].
      * apply (inv_const st ps used I); auto. intros w Hw. cbn. auto.
      * eapply (d_append_const st ps used P I D); auto.
        -- apply (same_gradFn_app st _ (Handle (length (impls st)) None)); auto.
        -- apply (plain_same st); auto. intros f h' Hf Hh. eapply getImpl_app; [reflexivity|]. eapply i_saved; eauto.
        -- intros t. cbn. rewrite !PB, !PN, En. auto.
      * eapply e_same; eauto; [intros; lia| |].
        -- apply (same_gradFn_app st _ (Handle (length (impls st)) None)); auto.
        -- intros f Hf. apply rules_ext. intros h' Hh. eapply getImpl_app; [reflexivity|]. eapply i_saved; eauto.
  - (* SSum *) cbn [domain1 gentle1] in *. destruct (var_of st ps used x I HD) as (h & Eh). rewrite (exec_sum st ps used I theta en x h) by auto. eexists. split; [reflexivity|].
    assert (HM : hmeta h = None) by (apply (i_var _ _ _ I x h Eh); auto). cbn [run1]. rewrite HG, andb_false_r. split; [|split].
    + apply (inv_alias st ps used I x); auto; cbn; auto. intros w Hw. cbn. auto.
    + eapply (d_append_const st ps used P I D); auto.
      * apply (same_gradFn_app st _ h); auto.
      * intros El. specialize (HC eq_refl El). discriminate.
      * intros t. cbn. rewrite PB, PN, HG, andb_false_r. auto.
    + eapply e_same; eauto; [intros; lia|]. apply (same_gradFn_app st _ h); auto.
  - (* SIn *) cbn [domain1 gentle1] in *. destruct HD as (Hx & Hy & HD). destruct (var_of st ps used x I Hx) as (h1 & E1). destruct (var_of st ps used y I Hy) as (h2 & E2).
    rewrite (exec_in st ps used I theta en b x y h1 h2) by auto. eexists. split; [reflexivity|].
    set (v := bin_math b (base (at_ ps x)) (base (at_ ps y))).
    assert (ER : forall phi (ps' : list point) , base (at_ ps' x) = base (at_ ps x) -> base (at_ ps' y) = base (at_ ps y) -> needs (at_ ps' x) = needs (at_ ps x) -> needs (at_ ps' y) = needs (at_ ps y) ->
      run1 theta phi en (SIn b x y) ps' = set_at ps' x (Point v (if en then bin_math b (moved (at_ ps' x)) (moved (at_ ps' y)) else v + (moved (at_ ps' x) - base (at_ ps x)))%R (needs (at_ ps x)))).
    { intros phi ps' B1 B2 N1 N2. cbn [run1]. rewrite B1, B2, N1, N2. destruct en; auto. destruct HG as [HG|[HG _]]; [discriminate|]. rewrite HG, orb_false_r. auto. }
    rewrite ER by auto.
    assert (GF : forall w, gradFnOf (stIn st x h1 v) w = gradFnOf st w) by (eapply same_gradFn_set; [exact E1|reflexivity|reflexivity|reflexivity]).
    split; [|split].
    + apply (inv_in st ps used I); auto.
    + eapply (d_set st ps P D _ x v _ _ (fun t => if en then bin_math b (moved (at_ (P t) x)) (moved (at_ (P t) y)) else (v + (moved (at_ (P t) x) - base (at_ ps x)))%R)); auto.
      * apply (plain_same st); auto. intros f h' Hf Hh. eapply getImpl_app; [reflexivity|]. eapply i_saved; eauto.
      * intros Hn t. destruct en; [destruct HG as [|[HG _]]; [discriminate|]; rewrite !PM by auto; auto|]. rewrite PM by auto. ring.
      * destruct en; rewrite ?PA; auto. ring.
      * intros H t. rewrite !(needs_before _ _ _ _ I D) by lia. destruct en; auto. ring.
      * intros d Hd. destruct en.
        -- destruct HG as [|[HG1 HG2]]; [discriminate|]. destruct HG2 as [HG2|[->| ->]].
           ++ eapply derivable_lim_ext; [|eapply derivable_lim_eq; [apply (derivable_const v)|]].
              ** intros t. cbn. rewrite !PM by auto. auto.
              ** eapply uniqueness_limite; [|exact Hd]. eapply derivable_lim_ext; [|apply (derivable_const (base (at_ ps x)))]. intros t. cbn. rewrite PM by auto. auto.
           ++ eapply derivable_lim_ext; [|eapply derivable_lim_eq; [apply (derivable_pt_lim_plus _ (fun _ => base (at_ ps y)) _ _ _ Hd (derivable_const _ _))|ring]].
              intros t. unfold plus_fct. cbn. rewrite (PM t y) by auto. auto.
           ++ eapply derivable_lim_ext; [|eapply derivable_lim_eq; [apply (derivable_pt_lim_minus _ (fun _ => base (at_ ps y)) _ _ _ Hd (derivable_const _ _))|ring]].
              intros t. unfold minus_fct. cbn. rewrite (PM t y) by auto. auto.
        -- eapply derivable_lim_ext; [|eapply derivable_lim_eq; [apply (derivable_pt_lim_plus (fun _ => (v - base (at_ ps x))%R) _ _ _ _ (derivable_const _ _) Hd)|ring]].
           intros t. unfold plus_fct. cbn. ring.
    + eapply e_same; eauto; [intros; lia|]. intros f Hf. apply rules_ext. intros h' Hh. eapply getImpl_app; [reflexivity|]. eapply i_saved; eauto.
  - (* SFill *) cbn [domain1 gentle1] in *. destruct HG as [HU HG]. destruct (var_of st ps used x I HD) as (h & Eh).
    rewrite (exec_fill st theta en x h v) by auto. eexists. split; [reflexivity|].
    assert (ER : forall phi (ps' : list point) , base (at_ ps' x) = base (at_ ps x) -> needs (at_ ps' x) = needs (at_ ps x) ->
      run1 theta phi en (SFill x v) ps' = set_at ps' x (Point v (if en then v else v + (moved (at_ ps' x) - base (at_ ps x)))%R (needs (at_ ps x)))).
    { intros phi ps' B1 N1. cbn [run1]. rewrite B1, N1. destruct en; auto. }
    rewrite ER by auto. destruct (i_unused _ _ _ I x h Eh HU) as (U1 & _).
    split; [|split].
    + apply (inv_fill st ps used I); auto.
    + eapply (d_set st ps P D _ x v _ _ (fun t => if en then v else (v + (moved (at_ (P t) x) - base (at_ ps x)))%R)); auto.
      * apply (plain_same st); auto. intros f h' Hf Hh. apply fill_impl; eauto.
      * intros Hn t. destruct en; auto. rewrite PM by auto. ring.
      * destruct en; rewrite ?PA; auto. ring.
      * intros H t. destruct en; auto. rewrite !(needs_before _ _ _ _ I D) by lia. ring.
      * intros d Hd. destruct en.
        -- destruct HG as [|HG]; [discriminate|]. eapply derivable_lim_eq; [apply (derivable_const v)|].
           eapply uniqueness_limite; [|exact Hd]. eapply derivable_lim_ext; [|apply (derivable_const (base (at_ ps x)))]. intros t. cbn. rewrite PM by auto. auto.
        -- eapply derivable_lim_ext; [|eapply derivable_lim_eq; [apply (derivable_pt_lim_plus (fun _ => (v - base (at_ ps x))%R) _ _ _ _ (derivable_const _ _) Hd)|ring]].
           intros t. unfold plus_fct. cbn. ring.
    + eapply e_same; eauto; [intros; lia|]. intros f Hf. apply rules_ext. intros h' Hh. apply fill_impl; eauto.
Qed.
End Leaf.
