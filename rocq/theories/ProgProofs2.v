(** What a gentle program leaves in memory. *)
From Coq Require Import ZArith List Bool Arith Lia Permutation Reals Lra.
From Verif Require Import AutogradModel AutogradSpec AutogradProofs AutogradProofs2 AutogradProofs3 GradModel ProgModel ProgSpec ProgProofs.
Import ListNotations.
Close Scope R_scope.
Open Scope nat_scope.

(** * Lists *)
Lemma nth_error_setNth : forall {A} (l : list A) i j x, i < length l -> nth_error (setNth l i x) j = if j =? i then Some x else nth_error l j.
Proof.
  induction l as [|y l IH]; intros i j x H; [cbn in H; lia|]. destruct i as [|i], j as [|j]; cbn [setNth nth_error Nat.eqb]; auto. apply IH. cbn in H. lia.
Qed.
Lemma setNth_last : forall {A} (l : list A) x y, setNth (l ++ [x]) (length l) y = l ++ [y].
Proof. induction l as [|z l IH]; intros x y; cbn; auto. rewrite IH. auto. Qed.
Lemma setNth_app : forall {A} (l m : list A) i x, i < length l -> setNth (l ++ m) i x = setNth l i x ++ m.
Proof. induction l as [|z l IH]; intros m i x H; [cbn in H; lia|]. destruct i; cbn; auto. rewrite IH by (cbn in H; lia). auto. Qed.
Lemma at_set : forall ps v q w, v < length ps -> at_ (set_at ps v q) w = if w =? v then q else at_ ps w.
Proof.
  induction ps as [|p ps IH]; intros v q w H; [cbn in H; lia|]. destruct v as [|v], w as [|w]; cbn [set_at Nat.eqb]; auto. unfold at_ in *. cbn [nth]. apply IH. cbn in H. lia.
Qed.
Lemma set_at_length : forall ps v q, length (set_at ps v q) = length ps.
Proof. induction ps as [|p ps IH]; intros [|v] q; cbn; auto. Qed.
Lemma at_app1 : forall ps q v, v < length ps -> at_ (ps ++ [q]) v = at_ ps v.
Proof. intros. unfold at_. apply app_nth1. auto. Qed.
Lemma at_app2 : forall ps q, at_ (ps ++ [q]) (length ps) = q.
Proof. intros. unfold at_. rewrite app_nth2, Nat.sub_diag; auto. Qed.
Lemma at_beyond : forall ps v, length ps <= v -> at_ ps v = no_point.
Proof. intros. unfold at_. apply nth_overflow. auto. Qed.
Lemma nth_error_snoc : forall {A} (l : list A) x v y, nth_error (l ++ [x]) v = Some y -> nth_error l v = Some y /\ v < length l \/ v = length l /\ y = x.
Proof.
  intros A l x v y E. destruct (Nat.lt_ge_cases v (length l)) as [H|H].
  - rewrite nth_error_app1 in E by auto. auto.
  - rewrite nth_error_app2 in E by auto. destruct (v - length l) as [|k] eqn:Ek; [|destruct k; discriminate]. injection E as <-. right. split; auto. lia.
Qed.

(** * The objects a recorded function refers to *)
Definition savedOf (k : saved) : list handle := match k with KLeaf => [] | KUn _ h | KSum h => [h] | KBin _ h1 h2 => [h1; h2] end.
Lemma rules_ext : forall st st' k, (forall h, In h (savedOf k) -> getImpl st' h = getImpl st h) -> rules st' k = rules st k.
Proof.
  intros st st' k H. unfold rules, toInput, getReq, getVal. destruct k as [|u h|b h1 h2|h]; cbn [savedOf In] in H; auto;
    repeat match goal with |- context [getImpl st' ?h] => rewrite (H h) by auto end; auto.
Qed.
Definition node (st : hstate) (f : func) : fn Rg := match kept f with KLeaf => FLeaf | k => FOp (combine (nextFns f) (rules st k)) end.
Definition plain (st : hstate) : graph Rg := map (node st) (funcs st).

Record Inv (st : hstate) (ps : list point) (used : list nat) : Prop := {
  i_len : length (vars st) = length ps;
  i_var : forall v h, nth_error (vars st) v = Some h ->
    himpl h < length (impls st) /\ getVal st h = base (at_ ps v) /\ getReq st h = needs (at_ ps v)
    /\ (needs (at_ ps v) = false -> hmeta h = None)
    /\ (needs (at_ ps v) = true -> exists m f, hmeta h = Some m /\ nth_error (metas st) m = Some f);
  i_inj : forall v w f, gradFnOf st v = Some f -> gradFnOf st w = Some f -> v = w;
  i_metas : forall f, In f (metas st) -> f < length (funcs st);
  i_next : forall i f t, nth_error (funcs st) i = Some f -> In t (nextFns f) -> t < i /\ exists v, gradFnOf st v = Some t;
  i_rules : forall f, In f (funcs st) -> length (nextFns f) = length (rules st (kept f));
  i_saved : forall f h, In f (funcs st) -> In h (savedOf (kept f)) -> himpl h < length (impls st);
  i_unused : forall v h, nth_error (vars st) v = Some h -> ~ In v used ->
    (forall f h', In f (funcs st) -> In h' (savedOf (kept f)) -> himpl h' <> himpl h)
    /\ (forall w h', w <> v -> nth_error (vars st) w = Some h' -> himpl h' <> himpl h) }.

Lemma gradFn_meta : forall st v f, gradFnOf st v = Some f -> In f (metas st).
Proof.
  intros st v f H. unfold gradFnOf in H. destruct (nth_error (vars st) v) as [h|]; [|discriminate]. destruct (hmeta h) as [m|]; [|discriminate]. eapply nth_error_In; eauto.
Qed.
Lemma gradFn_lt : forall st ps used v f, Inv st ps used -> gradFnOf st v = Some f -> f < length (funcs st) /\ v < length ps /\ needs (at_ ps v) = true.
Proof.
  intros st ps used v f I H. split; [eapply i_metas; eauto; eapply gradFn_meta; eauto|]. unfold gradFnOf in H. destruct (nth_error (vars st) v) as [h|] eqn:E; [|discriminate].
  split; [rewrite <- (i_len _ _ _ I); apply nth_error_Some; congruence|].
  destruct (i_var _ _ _ I v h E) as (_ & _ & _ & H0 & _). destruct (needs (at_ ps v)); auto. rewrite H0 in H by auto. discriminate.
Qed.
Lemma needs_gradFn : forall st ps used v, Inv st ps used -> needs (at_ ps v) = true -> exists f, gradFnOf st v = Some f.
Proof.
  intros st ps used v I H. destruct (nth_error (vars st) v) as [h|] eqn:E.
  - destruct (i_var _ _ _ I v h E) as (_ & _ & _ & _ & H1). destruct (H1 H) as (m & f & Em & Ef). exists f. unfold gradFnOf. rewrite E, Em. auto.
  - apply nth_error_None in E. rewrite (i_len _ _ _ I) in E. rewrite at_beyond in H by auto. discriminate.
Qed.
Lemma observe_plain : forall st ps used, Inv st ps used -> observe st = plain st.
Proof.
  intros st ps used I. unfold observe, plain. apply map_ext_in. intros f Hf. unfold node.
  assert (E : map (resolve st) (nextFns f) = nextFns f).
  { rewrite <- (map_id (nextFns f)) at 2. apply map_ext_in. intros t Ht. apply In_nth_error in Hf. destruct Hf as (i & Hi).
    destruct (i_next _ _ _ I i f t Hi Ht) as (_ & v & Hv). apply gradFn_meta in Hv. unfold resolve, mem. rewrite (proj2 (existsb_exists _ _)); auto. exists t. split; auto. apply Nat.eqb_refl. }
  rewrite E. destruct (kept f); auto.
Qed.

(** * The kinds of steps *)
(** A new tensor with a recorded function, after [pre] other new functions. *)
Definition stRec (st : hstate) (v : R) (pre : list func) (k : saved) (fs : list nat) : hstate :=
  HState (impls st ++ [Impl v true]) (metas st ++ [length (funcs st ++ pre)]) (funcs st ++ pre ++ [Func k fs])
    (vars st ++ [Handle (length (impls st)) (Some (length (metas st)))]).
Definition stConst (st : hstate) (v : R) : hstate :=
  HState (impls st ++ [Impl v false]) (metas st) (funcs st) (vars st ++ [Handle (length (impls st)) None]).
Definition stAlias (st : hstate) (h : handle) : hstate := HState (impls st) (metas st) (funcs st) (vars st ++ [h]).
Definition stIn (st : hstate) (x : nat) (h : handle) (v : R) : hstate :=
  HState (impls st ++ [Impl v (getReq st h)]) (metas st) (funcs st) (setNth (vars st) x (Handle (length (impls st)) (hmeta h))).
Definition stFill (st : hstate) (h : handle) (v : R) : hstate :=
  HState (setNth (impls st) (himpl h) (Impl v (getReq st h))) (metas st) (funcs st) (vars st).

Lemma getImpl_app : forall st st' h x, impls st' = impls st ++ x -> himpl h < length (impls st) -> getImpl st' h = getImpl st h.
Proof. intros st st' h x E H. unfold getImpl. rewrite E. apply app_nth1. auto. Qed.
Lemma gradFn_app : forall st st' h x v, vars st' = vars st ++ h -> metas st' = metas st ++ x -> forall f, gradFnOf st v = Some f -> gradFnOf st' v = Some f.
Proof.
  intros st st' h x v Ev Em f H. unfold gradFnOf in *. rewrite Ev, Em. destruct (nth_error (vars st) v) as [h0|] eqn:E; [|discriminate].
  rewrite nth_error_app1 by (apply nth_error_Some; congruence). rewrite E. destruct (hmeta h0) as [m|]; [|discriminate].
  rewrite nth_error_app1; auto. apply nth_error_Some. congruence.
Qed.

Section Steps.
Variables (st : hstate) (ps : list point) (used : list nat).
Hypothesis I : Inv st ps used.

Lemma stRec_gradFn : forall v pre k fs w f, gradFnOf (stRec st v pre k fs) w = Some f ->
  gradFnOf st w = Some f \/ w = length ps /\ f = length (funcs st ++ pre).
Proof using I.
  intros v pre k fs w f H. unfold gradFnOf in H. cbn [stRec vars metas] in H. destruct (nth_error (vars st ++ _) w) as [h|] eqn:E; [|discriminate].
  apply nth_error_snoc in E. rewrite (i_len _ _ _ I) in E. destruct E as [[E Hw]|[-> ->]].
  - left. destruct (i_var _ _ _ I w h E) as (_ & _ & _ & H0 & H1). unfold gradFnOf. rewrite E. destruct (needs (at_ ps w)).
    + destruct (H1 eq_refl) as (m & f0 & Em & Ef). rewrite Em in *. rewrite nth_error_app1 in H by (apply nth_error_Some; congruence). auto.
    + rewrite H0 in H by auto. discriminate.
  - right. split; auto. cbn [hmeta] in H. rewrite nth_error_app2, Nat.sub_diag in H by auto. injection H as <-. auto.
Qed.
Lemma inv_rec : forall (v m : R) pre k fs used',
  (forall f, In f pre -> f = Func KLeaf []) ->
  (forall t, In t fs -> exists w, gradFnOf st w = Some t) -> length fs = length (rules st k) ->
  (forall h, In h (savedOf k) -> exists w, In w used' /\ nth_error (vars st) w = Some h) ->
  incl used used' ->
  Inv (stRec st v pre k fs) (ps ++ [Point v m true]) used'.
Proof using I.
  intros v m pre k fs used' Hpre Hfs Hlen Hk Hu. set (st' := stRec st v pre k fs).
  assert (GI : forall h, himpl h < length (impls st) -> getImpl st' h = getImpl st h) by (intros; eapply getImpl_app; [reflexivity|auto]).
  assert (SV : forall f h, In f (funcs st') -> In h (savedOf (kept f)) -> himpl h < length (impls st)).
  { intros f h Hf Hh. cbn [st' stRec funcs] in Hf. rewrite !in_app_iff in Hf. destruct Hf as [Hf|[Hf|[<-|[]]]].
    - eapply i_saved; eauto.
    - apply Hpre in Hf. subst f. inversion Hh.
    - cbn [kept] in Hh. destruct (Hk h Hh) as (w & _ & Hw). apply (i_var _ _ _ I w h Hw). }
  assert (RU : forall f, In f (funcs st') -> rules st' (kept f) = rules st (kept f)).
  { intros f Hf. apply rules_ext. intros h Hh. apply GI. eapply SV; eauto. }
  assert (GF : forall w f, gradFnOf st w = Some f -> gradFnOf st' w = Some f) by (intros; eapply gradFn_app; eauto; reflexivity).
  constructor.
  - cbn. rewrite !app_length, (i_len _ _ _ I). auto.
  - intros w h E. cbn [st' stRec vars] in E. apply nth_error_snoc in E. rewrite (i_len _ _ _ I) in E. destruct E as [[E Hw]|[-> ->]].
    + rewrite at_app1 by auto. destruct (i_var _ _ _ I w h E) as (A & B & C & D & F). unfold getVal, getReq. rewrite GI by auto. cbn [st' stRec impls metas]. rewrite app_length.
      repeat split; auto; [lia|]. intros Hn. destruct (F Hn) as (mm & f & Em & Ef). exists mm, f. split; auto. rewrite nth_error_app1; auto. apply nth_error_Some. congruence.
    + rewrite at_app2. cbn [base needs]. unfold getVal, getReq, getImpl. cbn [himpl hmeta st' stRec impls metas]. rewrite app_nth2, Nat.sub_diag, app_length by auto. cbn.
      repeat split; auto; [lia|discriminate|]. intros _. exists (length (metas st)), (length (funcs st ++ pre)). split; auto. rewrite nth_error_app2, Nat.sub_diag by auto. auto.
  - intros a b f Ha Hb. apply stRec_gradFn in Ha. apply stRec_gradFn in Hb.
    destruct Ha as [Ha|[-> ->]], Hb as [Hb|[-> Eb]]; auto.
    + eapply i_inj; eauto.
    + subst f. apply (gradFn_lt _ _ _ _ _ I) in Ha. rewrite app_length in Ha. lia.
    + apply (gradFn_lt _ _ _ _ _ I) in Hb. rewrite app_length in Hb. lia.
  - intros f Hf. cbn [st' stRec metas funcs] in *. rewrite !app_length in *. cbn. apply in_app_iff in Hf. destruct Hf as [Hf|[<-|[]]]; [apply (i_metas _ _ _ I) in Hf|]; lia.
  - intros i f t E Ht. cbn [st' stRec funcs] in E. rewrite app_assoc in E. apply nth_error_snoc in E. destruct E as [[E Hi]|[-> ->]].
    + destruct (Nat.lt_ge_cases i (length (funcs st))) as [Hl|Hl].
      * rewrite nth_error_app1 in E by auto. destruct (i_next _ _ _ I i f t E Ht) as (A & w & B). split; auto. eauto.
      * rewrite nth_error_app2 in E by auto. apply nth_error_In, Hpre in E. subst f. inversion Ht.
    + cbn [nextFns] in Ht. destruct (Hfs t Ht) as (w & Hw). split; [|eauto]. rewrite app_length. apply (gradFn_lt _ _ _ _ _ I) in Hw. lia.
  - intros f Hf. rewrite RU by auto. cbn [st' stRec funcs] in Hf. rewrite !in_app_iff in Hf. destruct Hf as [Hf|[Hf|[<-|[]]]]; cbn [kept nextFns]; auto.
    + apply (i_rules _ _ _ I); auto.
    + apply Hpre in Hf. subst f. auto.
  - intros f h Hf Hh. cbn [st' stRec impls]. rewrite app_length. specialize (SV f h Hf Hh). lia.
  - intros w h E Hw. cbn [st' stRec vars] in E. apply nth_error_snoc in E. rewrite (i_len _ _ _ I) in E. destruct E as [[E Hl]|[-> ->]].
    + assert (Hw' : ~ In w used) by auto. destruct (i_unused _ _ _ I w h E Hw') as (A & B). destruct (i_var _ _ _ I w h E) as (C & _). split.
      * intros f h' Hf Hh. cbn [st' stRec funcs] in Hf. rewrite !in_app_iff in Hf. destruct Hf as [Hf|[Hf|[<-|[]]]]; eauto.
        -- apply Hpre in Hf. subst f. inversion Hh.
        -- cbn [kept] in Hh. destruct (Hk h' Hh) as (x & Hx & Ex). apply (B x); auto. intros ->. auto.
      * intros x h' Hx Ex. cbn [st' stRec vars] in Ex. apply nth_error_snoc in Ex. destruct Ex as [[Ex _]|[_ ->]]; eauto. cbn. lia.
    + cbn [himpl]. split.
      * intros f h' Hf Hh. specialize (SV f h' Hf Hh). lia.
      * intros x h' Hx Ex. cbn [st' stRec vars] in Ex. apply nth_error_snoc in Ex. rewrite (i_len _ _ _ I) in Ex. destruct Ex as [[Ex _]|[-> _]]; [|lia]. apply (i_var _ _ _ I) in Ex. lia.
Qed.

(** Steps that record nothing: same functions, old tensors keep their gradient
    function. *)
Lemma same_gradFn_app : forall st' h, vars st' = vars st ++ [h] -> metas st' = metas st -> hmeta h = None -> forall w, gradFnOf st' w = gradFnOf st w.
Proof using.
  intros st' h Ev Em Hh w. unfold gradFnOf. rewrite Ev, Em. destruct (Nat.lt_ge_cases w (length (vars st))) as [H|H].
  - rewrite nth_error_app1 by auto. auto.
  - rewrite nth_error_app2 by auto. rewrite (proj2 (nth_error_None _ _) H). destruct (w - length (vars st)) as [|k]; cbn; [rewrite Hh; auto|destruct k; auto].
Qed.
Lemma inv_const : forall (v m : R) used', incl used used' -> Inv (stConst st v) (ps ++ [Point v m false]) used'.
Proof using I.
  intros v m used' Hu. set (st' := stConst st v).
  assert (GI : forall h, himpl h < length (impls st) -> getImpl st' h = getImpl st h) by (intros; eapply getImpl_app; [reflexivity|auto]).
  assert (GF : forall w, gradFnOf st' w = gradFnOf st w) by (apply (same_gradFn_app st' (Handle (length (impls st)) None)); auto).
  constructor.
  - cbn. rewrite !app_length, (i_len _ _ _ I). auto.
  - intros w h E. cbn [st' stConst vars] in E. apply nth_error_snoc in E. rewrite (i_len _ _ _ I) in E. destruct E as [[E Hw]|[-> ->]].
    + rewrite at_app1 by auto. destruct (i_var _ _ _ I w h E) as (A & B & C & D & F). unfold getVal, getReq. rewrite GI by auto. cbn [st' stConst impls metas]. rewrite app_length.
      repeat split; auto. lia.
    + rewrite at_app2. cbn [base needs]. unfold getVal, getReq, getImpl. cbn [himpl hmeta st' stConst impls metas]. rewrite app_nth2, Nat.sub_diag, app_length by auto. cbn.
      repeat split; auto; [lia|discriminate].
  - intros a b f. rewrite !GF. apply (i_inj _ _ _ I).
  - apply (i_metas _ _ _ I).
  - intros i f t E Ht. destruct (i_next _ _ _ I i f t E Ht) as (A & w & B). split; auto. exists w. rewrite GF. auto.
  - intros f Hf. rewrite (rules_ext st). { apply (i_rules _ _ _ I); auto. } intros h Hh. apply GI. eapply i_saved; eauto.
  - intros f h Hf Hh. cbn [st' stConst impls]. rewrite app_length. pose proof (i_saved _ _ _ I f h Hf Hh). lia.
  - intros w h E Hw. cbn [st' stConst vars] in E. apply nth_error_snoc in E. rewrite (i_len _ _ _ I) in E. destruct E as [[E Hl]|[-> ->]].
    + assert (Hw' : ~ In w used) by auto. destruct (i_unused _ _ _ I w h E Hw') as (A & B). destruct (i_var _ _ _ I w h E) as (C & _). split; [apply A|].
      intros x h' Hx Ex. cbn [st' stConst vars] in Ex. apply nth_error_snoc in Ex. destruct Ex as [[Ex _]|[_ ->]]; eauto. cbn. lia.
    + cbn [himpl]. split.
      * intros f h' Hf Hh. pose proof (i_saved _ _ _ I f h' Hf Hh). lia.
      * intros x h' Hx Ex. cbn [st' stConst vars] in Ex. apply nth_error_snoc in Ex. rewrite (i_len _ _ _ I) in Ex. destruct Ex as [[Ex _]|[-> _]]; [|lia]. apply (i_var _ _ _ I) in Ex. lia.
Qed.
Lemma inv_alias : forall x h used', nth_error (vars st) x = Some h -> needs (at_ ps x) = false -> incl used used' -> In x used' -> In (length ps) used' ->
  forall m, Inv (stAlias st h) (ps ++ [Point (base (at_ ps x)) m false]) used'.
Proof using I.
  intros x h used' Ex Hn Hu Hx Hl m. set (st' := stAlias st h).
  destruct (i_var _ _ _ I x h Ex) as (A0 & B0 & C0 & D0 & F0). specialize (D0 Hn). rewrite Hn in C0.
  assert (GF : forall w, gradFnOf st' w = gradFnOf st w) by (apply (same_gradFn_app st' h); auto).
  constructor.
  - cbn. rewrite !app_length, (i_len _ _ _ I). auto.
  - intros w h' E. cbn [st' stAlias vars] in E. apply nth_error_snoc in E. rewrite (i_len _ _ _ I) in E. destruct E as [[E Hw]|[-> ->]].
    + rewrite at_app1 by auto. apply (i_var _ _ _ I w h' E).
    + rewrite at_app2. cbn [base needs]. repeat split; auto. discriminate.
  - intros a b f. rewrite !GF. apply (i_inj _ _ _ I).
  - apply (i_metas _ _ _ I).
  - intros i f t E Ht. destruct (i_next _ _ _ I i f t E Ht) as (A & w & B). split; auto. exists w. rewrite GF. auto.
  - intros f Hf. rewrite (rules_ext st); auto. apply (i_rules _ _ _ I); auto.
  - apply (i_saved _ _ _ I).
  - intros w h' E Hw. cbn [st' stAlias vars] in E. apply nth_error_snoc in E. rewrite (i_len _ _ _ I) in E. destruct E as [[E Hl']|[-> ->]]; [|tauto].
    assert (Hw' : ~ In w used) by auto. destruct (i_unused _ _ _ I w h' E Hw') as (A & B). split; [apply A|].
    intros y h2 Hy Ey. cbn [st' stAlias vars] in Ey. apply nth_error_snoc in Ey. destruct Ey as [[Ey _]|[_ ->]]; eauto. apply (B x); auto. intros ->. auto.
Qed.
Lemma same_gradFn_set : forall st' x h h', nth_error (vars st) x = Some h -> vars st' = setNth (vars st) x h' -> metas st' = metas st -> hmeta h' = hmeta h ->
  forall w, gradFnOf st' w = gradFnOf st w.
Proof using.
  intros st' x h h' E Ev Em Hh w. unfold gradFnOf. rewrite Ev, Em. assert (Hx : x < length (vars st)) by (apply nth_error_Some; congruence).
  rewrite nth_error_setNth by auto. destruct (Nat.eqb_spec w x) as [->|]; auto. rewrite E, Hh. auto.
Qed.
Lemma inv_in : forall x h v m, nth_error (vars st) x = Some h -> Inv (stIn st x h v) (set_at ps x (Point v m (needs (at_ ps x)))) used.
Proof using I.
  intros x h v m Ex. set (st' := stIn st x h v).
  assert (Hx : x < length (vars st)) by (apply nth_error_Some; congruence). assert (Hx' : x < length ps) by (rewrite <- (i_len _ _ _ I); auto).
  destruct (i_var _ _ _ I x h Ex) as (A0 & B0 & C0 & D0 & F0).
  assert (GI : forall h, himpl h < length (impls st) -> getImpl st' h = getImpl st h) by (intros; eapply getImpl_app; [reflexivity|auto]).
  assert (GF : forall w, gradFnOf st' w = gradFnOf st w) by (eapply same_gradFn_set; [exact Ex|reflexivity|reflexivity|reflexivity]).
  constructor.
  - cbn. rewrite length_setNth, set_at_length. apply (i_len _ _ _ I).
  - intros w h' E. cbn [st' stIn vars] in E. rewrite nth_error_setNth in E by auto. rewrite at_set by auto. destruct (Nat.eqb_spec w x) as [->|].
    + injection E as <-. cbn [base needs]. unfold getVal, getReq, getImpl. cbn [himpl hmeta st' stIn impls metas]. rewrite app_nth2, Nat.sub_diag, app_length by auto. cbn [nth ival ireq length].
      repeat split; auto; [lia]. 
    + destruct (i_var _ _ _ I w h' E) as (A & B & C & D & F). unfold getVal, getReq. rewrite GI by auto. cbn [st' stIn impls metas]. rewrite app_length. repeat split; auto. lia.
  - intros a b f. rewrite !GF. apply (i_inj _ _ _ I).
  - apply (i_metas _ _ _ I).
  - intros i f t E Ht. destruct (i_next _ _ _ I i f t E Ht) as (A & w & B). split; auto. exists w. rewrite GF. auto.
  - intros f Hf. rewrite (rules_ext st). { apply (i_rules _ _ _ I); auto. } intros h' Hh. apply GI. eapply i_saved; eauto.
  - intros f h' Hf Hh. cbn [st' stIn impls]. rewrite app_length. pose proof (i_saved _ _ _ I f h' Hf Hh). lia.
  - intros w h' E Hw. cbn [st' stIn vars] in E. rewrite nth_error_setNth in E by auto. destruct (Nat.eqb_spec w x) as [->|].
    + injection E as <-. cbn [himpl]. split.
      * intros f h' Hf Hh. pose proof (i_saved _ _ _ I f h' Hf Hh). lia.
      * intros y h' Hy Ey. cbn [st' stIn vars] in Ey. rewrite nth_error_setNth in Ey by auto. destruct (Nat.eqb_spec y x); [tauto|]. apply (i_var _ _ _ I) in Ey. lia.
    + destruct (i_unused _ _ _ I w h' E Hw) as (A & B). split; [apply A|]. destruct (i_var _ _ _ I w h' E) as (C & _).
      intros y h2 Hy Ey. cbn [st' stIn vars] in Ey. rewrite nth_error_setNth in Ey by auto. destruct (Nat.eqb_spec y x); [injection Ey as <-; cbn; lia|eauto].
Qed.
Lemma fill_impl : forall h v h', himpl h < length (impls st) -> himpl h' <> himpl h -> getImpl (stFill st h v) h' = getImpl st h'.
Proof using. intros h v h' H Hh. unfold getImpl. cbn [stFill impls]. rewrite nth_setNth by auto. destruct (Nat.eqb_spec (himpl h') (himpl h)); [lia|auto]. Qed.
Lemma inv_fill : forall x h v m, nth_error (vars st) x = Some h -> ~ In x used -> Inv (stFill st h v) (set_at ps x (Point v m (needs (at_ ps x)))) used.
Proof using I.
  intros x h v m Ex Hu. set (st' := stFill st h v).
  assert (Hx' : x < length ps) by (rewrite <- (i_len _ _ _ I); apply nth_error_Some; congruence).
  destruct (i_var _ _ _ I x h Ex) as (A0 & B0 & C0 & D0 & F0). destruct (i_unused _ _ _ I x h Ex Hu) as (U1 & U2).
  constructor.
  - cbn. rewrite set_at_length. apply (i_len _ _ _ I).
  - intros w h' E. rewrite at_set by auto. cbn [st' stFill vars] in E. destruct (Nat.eqb_spec w x) as [->|].
    + assert (h' = h) by congruence. subst h'. cbn [base needs]. unfold getVal, getReq, getImpl. cbn [st' stFill impls metas]. rewrite nth_setNth, Nat.eqb_refl, length_setNth by auto. cbn [ival ireq].
      repeat split; auto.
    + destruct (i_var _ _ _ I w h' E) as (A & B & C & D & F). unfold getVal, getReq. unfold st'. rewrite fill_impl by eauto. cbn [stFill impls metas]. rewrite length_setNth. repeat split; auto.
  - apply (i_inj _ _ _ I).
  - apply (i_metas _ _ _ I).
  - apply (i_next _ _ _ I).
  - intros f Hf. rewrite (rules_ext st). { apply (i_rules _ _ _ I); auto. } intros h' Hh. apply fill_impl; eauto.
  - intros f h' Hf Hh. cbn [st' stFill impls]. rewrite length_setNth. eapply i_saved; eauto.
  - apply (i_unused _ _ _ I).
Qed.

(** The graph after each kind of step. *)
Lemma plain_same : forall st', funcs st' = funcs st -> (forall f h, In f (funcs st) -> In h (savedOf (kept f)) -> getImpl st' h = getImpl st h) -> plain st' = plain st.
Proof using.
  intros st' E H. unfold plain. rewrite E. apply map_ext_in. intros f Hf. unfold node.
  assert (ER : rules st' (kept f) = rules st (kept f)) by (apply rules_ext; intros; eauto). destruct (kept f); auto; rewrite ER; auto.
Qed.
Lemma plain_rec : forall v pre k fs, (forall h, In h (savedOf k) -> himpl h < length (impls st)) -> (forall f, In f pre -> f = Func KLeaf []) ->
  plain (stRec st v pre k fs) = plain st ++ map (fun _ => FLeaf) pre ++ [node st (Func k fs)].
Proof using I.
  intros v pre k fs Hk Hpre. set (st' := stRec st v pre k fs).
  assert (GI : forall h, himpl h < length (impls st) -> getImpl st' h = getImpl st h) by (intros; eapply getImpl_app; [reflexivity|auto]).
  unfold plain at 1. cbn [st' stRec funcs]. rewrite !map_app. cbn [map].
  assert (NE : forall f, (forall h, In h (savedOf (kept f)) -> himpl h < length (impls st)) -> node st' f = node st f).
  { intros f Hf. unfold node. assert (ER : rules st' (kept f) = rules st (kept f)) by (apply rules_ext; auto). destruct (kept f); auto; rewrite ER; auto. }
  f_equal; [|f_equal].
  - unfold plain. apply map_ext_in. intros f Hf. apply NE. intros h. eapply i_saved; eauto.
  - apply map_ext_in. intros f Hf. apply Hpre in Hf. subst f. reflexivity.
  - f_equal. apply NE. auto.
Qed.
Lemma plain_length : length (plain st) = length (funcs st).
Proof using. unfold plain. apply map_length. Qed.
Lemma nexts_node : forall f, In f (funcs st) -> incl (nexts (node st f)) (nextFns f).
Proof using.
  intros f Hf t Ht. unfold nexts, node in Ht. destruct (kept f) eqn:Ek; [inversion Ht| | |]; cbn [deliveries] in Ht; apply in_map_iff in Ht; destruct Ht as ([t' d] & <- & Ht); apply in_combine_l in Ht; auto.
Qed.
Lemma plain_acyclic : acyclic (plain st).
Proof using I.
  intros u f t E Ht. unfold plain in E. rewrite nth_error_map in E. destruct (nth_error (funcs st) u) as [f0|] eqn:E0; [|discriminate]. injection E as <-.
  apply (i_next _ _ _ I u f0 t E0). apply nexts_node; auto. eapply nth_error_In; eauto.
Qed.
Lemma rules_scale : forall k d, In d (rules st k) -> scales d.
Proof using.
  intros k d H. assert (HT : forall h e, In d (toInput st h e) -> d = e).
  { intros h e He. unfold toInput in He. destruct (getReq st h); [destruct He as [<-|[]]; auto|inversion He]. }
  assert (S0 : forall c : R, scales (Fresh (V := Rg) (fun g : R => (c * g)%R))) by (intros c x; cbn; ring).
  destruct k as [|u h|b h1 h2|h]; cbn [rules] in H; [inversion H| | |]; [apply HT in H; subst d| |apply HT in H; subst d].
  - destruct u; intros x; cbn; unfold opSinBackwardP1, opCosBackwardP1; ring.
  - destruct b; apply in_app_iff in H; destruct H as [H|H]; apply HT in H; subst d; intros x; cbn; unfold opMul, opDiv, opDivBackwardP2, opPowBackwardP1, opPowBackwardP2, Rdiv; ring.
  - intros x; cbn; unfold opMul; ring.
Qed.
Lemma node_deliveries : forall f t d, In (t, d) (deliveries (node st f)) -> In (t, d) (combine (nextFns f) (rules st (kept f))).
Proof using. intros f t d H. unfold node in H. destruct (kept f); auto; inversion H. Qed.
Lemma plain_scaling : scaling (plain st).
Proof using.
  intros u f t d E Hd. unfold plain in E. rewrite nth_error_map in E. destruct (nth_error (funcs st) u) as [f0|]; [|discriminate]. injection E as <-.
  apply node_deliveries in Hd. apply in_combine_r in Hd. eapply rules_scale; eauto.
Qed.
End Steps.
