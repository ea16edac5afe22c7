(** Proofs: what is destroyed and what stays. *)
From Coq Require Import List Bool Arith Lia.
From Verif Require Import AutogradModel AutogradSpec AutogradProofs LifeModel LifeSpec LifeProofs LifeProofs2 LifeProofs3.
Import ListNotations.

(** * Sweeping destroys everything unreferenced *)
Definition Tight (w : world) : Prop :=
  (forall m x, obj (metas w) m = Some x -> In m (metaRefs w)) /\ (forall f x, obj (funcs w) f = Some x -> In f (funcRefs w)).
Definition count (w : world) : nat := length (existing (metas w)) + length (existing (funcs w)).
Lemma existing_keep {A} refs : forall (l : list (option A)) i, length (existing (keep refs i l)) <= length (existing l)
  /\ (length (existing (keep refs i l)) = length (existing l) -> keep refs i l = l /\ forall j x, obj l j = Some x -> In (i + j) refs).
Proof.
  induction l as [|o l IH]; intros i; cbn [keep].
  - split; auto. intros _. split; auto. intros [|j] x E; discriminate.
  - destruct (IH (S i)) as (H1 & H2). unfold existing in *. cbn [flat_map]. rewrite !app_length. destruct (mem i refs) eqn:Em.
    + split; [lia|]. intros E. destruct H2 as (H2 & H3); [lia|]. split; [congruence|]. intros [|j] x Ex.
      * rewrite Nat.add_0_r. apply mem_in. auto.
      * replace (i + S j) with (S i + j) by lia. eapply H3. exact Ex.
    + destruct o as [a|]; cbn [length]; [split; lia|]. split; [lia|]. intros E. destruct H2 as (H2 & H3); [lia|]. split; [congruence|]. intros [|j] x Ex; [discriminate|].
      replace (i + S j) with (S i + j) by lia. eapply H3. exact Ex.
Qed.
Lemma sweepOnce_count w : count (sweepOnce w) < count w \/ (sweepOnce w = w /\ Tight w).
Proof.
  unfold count. cbn [metas funcs sweepOnce setFuncs setMetas]. destruct (existing_keep (metaRefs w) (metas w) 0) as (H1 & H2). destruct (existing_keep (funcRefs w) (funcs w) 0) as (H3 & H4).
  destruct (lt_dec (length (existing (keep (metaRefs w) 0 (metas w))) + length (existing (keep (funcRefs w) 0 (funcs w)))) (length (existing (metas w)) + length (existing (funcs w)))) as [H|H]; auto.
  right. destruct H2 as (H2 & H5); [lia|]. destruct H4 as (H4 & H6); [lia|]. split; [|split; auto].
  unfold sweepOnce. rewrite H2, H4. destruct w. reflexivity.
Qed.
Lemma times_tight : forall n w, count w <= n -> Tight (times n sweepOnce w).
Proof.
  induction n as [|n IH]; intros w H; cbn.
  - destruct (sweepOnce_count w) as [K|(_ & K)]; auto. lia.
  - destruct (sweepOnce_count w) as [K|(E & K)]; [apply IH; lia|]. rewrite E. clear - E K. induction n; cbn; auto. rewrite E. auto.
Qed.
Lemma existing_length {A} (l : list (option A)) : length (existing l) <= length l.
Proof. induction l as [|[a|] l IH]; unfold existing in *; cbn; auto; lia. Qed.
Lemma sweep_tight w : Tight (sweep w).
Proof.
  apply times_tight. unfold count. pose proof (existing_length (metas w)). pose proof (existing_length (funcs w)). lia.
Qed.
Lemma run_tight : forall p w w', Tight w -> run w p = Some w' -> Tight w'.
Proof.
  induction p as [|c p IH]; intros w w' H E; cbn in E; [congruence|]. unfold step in E. destruct (perform w c) as [w1|]; [|discriminate]. cbn in E. eapply IH; [apply sweep_tight|eauto].
Qed.
Lemma tight_start : Tight start.
Proof. split; intros [|i] x E; discriminate. Qed.
Lemma live_edge_lt w s m y g z t : Inv w s -> obj (metas w) m = Some y -> obj (funcs w) g = Some z -> In t (fsaved z) -> tmeta t = Some m -> mfn y < g.
Proof.
  intros HI Em Eg Ht Et. destruct (i_func _ _ HI g z Eg) as (Eo & os & H1 & H2).
  assert (Hin : In (mfn y) (fnexts z)).
  { rewrite H2. clear - H1 Ht Et Em. induction H1 as [|t' o ts os G H1 IH]; [easy|]. cbn. apply in_app_iff. destruct Ht as [->|Ht]; [|auto]. left.
    destruct G as (_ & G). destruct o as [f|]; [|destruct G; congruence]. destruct G as (_ & m' & x' & E1 & E2 & E3). rewrite Et in E1. injection E1 as <-. rewrite Em in E2. injection E2 as <-. cbn. auto. }
  exact (edge_lt s g _ _ _ (i_acyclic _ _ HI) Eo Hin).
Qed.
(** So in a plain program everything that exists is needed. *)
Lemma tight_needed w s : Inv w s -> Tight w -> forall n f x, length (funcs w) - f <= n -> obj (funcs w) f = Some x -> needs_func w f.
Proof.
  intros HI (T1 & T2). induction n as [|n IH]; intros f x Hn E; pose proof (obj_lt _ _ _ E) as Hl; [lia|].
  pose proof (T2 f x E) as Hf. apply in_funcRefs in Hf as (m & y & Em & Hf).
  assert (Hle : f <= mfn y).
  { destruct Hf as [->|Hf]; auto. destruct (i_meta _ _ HI m y Em) as (_ & [K|K]); [rewrite K in Hf; easy|]. apply consumers_def in K as (_ & K & _). apply K in Hf. eapply reach_lt; eauto. apply HI. }
  assert (HM : needs_meta w m).
  { pose proof (T1 m y Em) as Hm. apply in_metaRefs in Hm as [(v & t & Ev & Et)|(g & z & t & Eg & Ht & Et)].
    - eapply needs_var; eauto.
    - eapply needs_saved; eauto. apply (IH g z); auto. pose proof (live_edge_lt w s m y g z t HI Em Eg Ht Et). pose proof (obj_lt _ _ _ Eg). lia. }
  destruct Hf as [->|Hf]; [eapply needs_fn; eauto|eapply needs_order; eauto].
Qed.
Lemma tight_needed_meta w s m x : Inv w s -> Tight w -> obj (metas w) m = Some x -> needs_meta w m.
Proof.
  intros HI HT Em. pose proof (proj1 HT m x Em) as Hm. apply in_metaRefs in Hm as [(v & t & Ev & Et)|(g & z & t & Eg & Ht & Et)].
  - eapply needs_var; eauto.
  - eapply needs_saved; eauto. eapply tight_needed; eauto.
Qed.

Lemma tight_empty w s : Inv w s -> Tight w -> (forall v, obj (vars w) v = None) -> (forall m, obj (metas w) m = None) /\ (forall f, obj (funcs w) f = None).
Proof.
  intros HI (T1 & T2) HV.
  assert (KF : forall n f x, length (funcs w) - f <= n -> obj (funcs w) f = Some x -> False).
  { induction n as [|n IH]; intros f x Hn Ef; pose proof (obj_lt _ _ _ Ef) as Hl; [lia|].
    pose proof (T2 f x Ef) as Hf. apply in_funcRefs in Hf as (m & y & Em & Hf).
    assert (Hle : f <= mfn y).
    { destruct Hf as [->|Hf]; auto. destruct (i_meta _ _ HI m y Em) as (_ & [K|K]); [rewrite K in Hf; easy|]. apply consumers_def in K as (_ & K & _). apply K in Hf. eapply reach_lt; eauto. apply HI. }
    pose proof (T1 m y Em) as Hm. apply in_metaRefs in Hm as [(v & t & Ev & Et)|(g & z & t & Eg & Ht & Et)]; [rewrite HV in Ev; discriminate|].
    pose proof (live_edge_lt w _ m y g z t HI Em Eg Ht Et). pose proof (obj_lt _ _ _ Eg). apply (IH g z); auto. lia. }
  split.
  - intros m. destruct (obj (metas w) m) as [x|] eqn:Em; auto. exfalso. pose proof (T1 m x Em) as Hm.
    apply in_metaRefs in Hm as [(v & t & Ev & Et)|(g & z & t & Eg & Ht & Et)]; [rewrite HV in Ev; discriminate|]. eapply KF; eauto.
  - intros f. destruct (obj (funcs w) f) as [x|] eqn:Ef; auto. exfalso. eapply KF; eauto.
Qed.

(** * Shared pointers always point to existing objects *)
Definition has {A} (l : list (option A)) (i : nat) : Prop := exists x, obj l i = Some x.
Definition NoDangle (w : world) : Prop := (forall m, In m (metaRefs w) -> has (metas w) m) /\ (forall f, In f (funcRefs w) -> has (funcs w) f).
Lemma nodangle_def w : NoDangle w <->
  (forall v t m, obj (vars w) v = Some t -> tmeta t = Some m -> has (metas w) m)
  /\ (forall f x t m, obj (funcs w) f = Some x -> In t (fsaved x) -> tmeta t = Some m -> has (metas w) m)
  /\ (forall m x f, obj (metas w) m = Some x -> f = mfn x \/ In f (morder x) -> has (funcs w) f).
Proof.
  split.
  - intros (H1 & H2). split; [|split].
    + intros. apply H1, in_metaRefs. eauto.
    + intros. apply H1, in_metaRefs. right. eauto 6.
    + intros. apply H2, in_funcRefs. eauto.
  - intros (H1 & H2 & H3). split.
    + intros m Hm. apply in_metaRefs in Hm as [(v & t & ? & ?)|(f & x & t & ? & ? & ?)]; eauto.
    + intros f Hf. apply in_funcRefs in Hf as (m & x & ? & ?). eauto.
Qed.
Lemma nodangle_sweep w : NoDangle w -> NoDangle (sweep w).
Proof.
  apply (times_inv NoDangle). clear w. intros w H. pose proof H as (G1 & G2). apply nodangle_def in H as (H1 & H2 & H3). apply nodangle_def. unfold has in *. split; [|split].
  - intros v t m Ev Et. rewrite obj_metas_sweepOnce, mem_true; [|apply in_metaRefs; left; eauto]. eapply (H1 v t); eauto.
  - intros f x t m Ef Ht Et. rewrite obj_funcs_sweepOnce in Ef. destruct (mem f (funcRefs w)); [|discriminate]. rewrite obj_metas_sweepOnce, mem_true; [|apply in_metaRefs; right; eauto 6]. eapply H2; eauto.
  - intros m x f Em Hf. rewrite obj_metas_sweepOnce in Em. destruct (mem m (metaRefs w)); [|discriminate]. rewrite obj_funcs_sweepOnce, mem_true; [|apply in_funcRefs; eauto]. eapply H3; eauto.
Qed.
Lemma has_app {A} (l : list (option A)) o i : has l i -> has (l ++ [o]) i.
Proof. intros (x & E). exists x. rewrite obj_app. destruct (i =? length l) eqn:Ei; auto. apply Nat.eqb_eq in Ei. apply obj_lt in E. lia. Qed.
Lemma has_new {A} (l : list (option A)) x : has (l ++ [Some x]) (length l).
Proof. exists x. rewrite obj_app, Nat.eqb_refl. auto. Qed.
Lemma has_modify {A} (l : list (option A)) i f j : has (modify l i f) j <-> has l j.
Proof.
  unfold has. rewrite obj_modify. destruct (j =? i) eqn:E; [|easy]. apply Nat.eqb_eq in E. subst. destruct (obj l i); cbn; split; intros (? & ?); eauto; discriminate.
Qed.
Lemma nd_addFunc w r fs ts : NoDangle w -> (forall t m, In t ts -> tmeta t = Some m -> has (metas w) m) -> NoDangle (setFuncs w (funcs w ++ [Some (Func r fs ts 0 false)])).
Proof.
  intros H HT. apply nodangle_def in H as (H1 & H2 & H3). apply nodangle_def. cbn [vars metas funcs setFuncs]. split; auto. split.
  - intros f x t m E Ht Et. rewrite obj_app in E. destruct (f =? length (funcs w)); [injection E as <-; eauto|eauto].
  - intros m x f E Hf. apply has_app. eauto.
Qed.
Lemma nd_initMeta w t fn w' t' : NoDangle w -> (forall m, tmeta t = Some m -> has (metas w) m) -> (forall f, fn = Some f -> has (funcs w) f) -> initMeta w t fn = (w', t') ->
  NoDangle w' /\ (forall m, tmeta t' = Some m -> has (metas w') m) /\ (forall f, has (funcs w) f -> has (funcs w') f) /\ vars w' = vars w.
Proof.
  intros HN HT HF E. unfold initMeta in E.
  assert (K : forall w f, NoDangle w -> (forall m, tmeta t = Some m -> has (metas w) m) -> has (funcs w) f -> 
    (let '(w, m) := match tmeta t with
     | Some m => (setMetas w (modify (metas w) m (fun x => Meta f (morder x) (mgrad x))), m)
     | None => (setMetas w (metas w ++ [Some (Meta f [] false)]), length (metas w)) end in
     (setFuncs w (modify (funcs w) f (fun x => Func (frule x) (fnexts x) (fsaved x) m (fspent x))), Tensor (timpl t) (Some m))) = (w', t') ->
    NoDangle w' /\ (forall m, tmeta t' = Some m -> has (metas w') m) /\ (forall f, has (funcs w) f -> has (funcs w') f) /\ vars w' = vars w).
  { clear. intros w f HN HT HF E. apply nodangle_def in HN as (H1 & H2 & H3). destruct (tmeta t) as [m|] eqn:Et; injection E as <- <-; (split; [|split; [|split]]); auto.
    - apply nodangle_def. cbn [vars metas funcs setFuncs setMetas]. split; [|split].
      + intros v t' m' Ev Et'. apply has_modify. eauto.
      + intros g x t' m' Eg Ht' Et'. apply has_modify. rewrite obj_modify in Eg. destruct (g =? f) eqn:Ef; [|eauto]. destruct (obj (funcs w) f) eqn:Eo; [|discriminate]. injection Eg as <-. cbn in Ht'. eauto.
      + intros m' x g Em Hg. apply has_modify. rewrite obj_modify in Em. destruct (m' =? m) eqn:Ee; [|eauto]. destruct (obj (metas w) m) eqn:Eo; [|discriminate]. injection Em as <-. cbn in Hg. destruct Hg as [->|Hg]; eauto.
    - cbn. intros m' Em. injection Em as <-. apply has_modify. auto.
    - intros g Hg. cbn. apply has_modify. auto.
    - apply nodangle_def. cbn [vars metas funcs setFuncs setMetas]. split; [|split].
      + intros v t' m' Ev Et'. apply has_app. eauto.
      + intros g x t' m' Eg Ht' Et'. apply has_app. rewrite obj_modify in Eg. destruct (g =? f) eqn:Ef; [|eauto]. destruct (obj (funcs w) f) eqn:Eo; [|discriminate]. injection Eg as <-. cbn in Ht'. eauto.
      + intros m' x g Em Hg. apply has_modify. rewrite obj_app in Em. destruct (m' =? length (metas w)) eqn:Ee; [|eauto]. injection Em as <-. cbn in Hg. destruct Hg as [->|[]]; eauto.
    - cbn. intros m' Em. injection Em as <-. apply has_new.
    - intros g Hg. cbn. apply has_modify. auto. }
  destruct fn as [f|].
  - apply (K w f) in E; auto.
  - apply (K (setFuncs w (funcs w ++ [Some (Func None [] [] 0 false)])) (length (funcs w))) in E; auto.
    + destruct E as (E1 & E2 & E3 & E4). split; auto. split; auto. split; auto. intros g Hg. apply E3. cbn. apply has_app. auto.
    + apply nd_addFunc; auto. easy.
    + apply has_new.
Qed.
Lemma nd_newVar w t : NoDangle w -> (forall m, tmeta t = Some m -> has (metas w) m) -> NoDangle (newVar w t).
Proof.
  intros H HT. apply nodangle_def in H as (H1 & H2 & H3). apply nodangle_def. cbn [vars metas funcs setVars newVar]. split; auto.
  intros v t' m E Et. rewrite obj_app in E. destruct (v =? length (vars w)); [injection E as <-; auto|eauto].
Qed.
Lemma nd_setVar w v t : NoDangle w -> (forall t', t = Some t' -> forall m, tmeta t' = Some m -> has (metas w) m) -> NoDangle (setVars w (setNth (vars w) v t)).
Proof.
  intros H HT. apply nodangle_def in H as (H1 & H2 & H3). apply nodangle_def. cbn [vars metas funcs setVars]. split; auto.
  intros v' t' m E Et. unfold obj in E. rewrite nth_error_setNth in E. destruct ((v' =? v) && (v <? length (vars w))); [eapply HT; eauto|]. eapply (H1 v'); eauto.
Qed.
Lemma nd_flags w x : NoDangle w -> NoDangle (setFlags w x).
Proof. intros H. apply nodangle_def in H. apply nodangle_def. auto. Qed.
Lemma nd_outputs : forall k w f, NoDangle w -> (forall g, f = Some g -> has (funcs w) g) -> NoDangle (outputs w k f).
Proof.
  induction k as [|k IH]; intros w f HN HF; auto. cbn [outputs]. set (w1 := setFlags w _). assert (HN1 : NoDangle w1) by (apply nd_flags; auto). destruct f as [f|].
  - destruct (initMeta w1 (Tensor (length (flags w)) None) (Some f)) as [w2 t2] eqn:E. destruct (nd_initMeta w1 (Tensor (length (flags w)) None) (Some f) w2 t2 HN1) as (G1 & G2 & G3 & _); auto; [easy|].
    apply IH; [apply nd_newVar; auto|]. intros g Eg. apply G3. apply HF. auto.
  - apply IH; [apply nd_newVar; auto; easy|easy].
Qed.
Lemma nd_held w : NoDangle w -> forall ins ts t m, held w ins = Some ts -> In t ts -> tmeta t = Some m -> has (metas w) m.
Proof.
  intros HN. apply nodangle_def in HN as (H1 & _). induction ins as [|v ins IH]; intros ts t m E Ht Et; cbn in E; [injection E as <-; easy|].
  destruct (obj (vars w) v) eqn:Ev; [|discriminate]. destruct (held w ins) eqn:Eh; [|discriminate]. injection E as <-. destruct Ht as [->|Ht]; eauto.
Qed.
Lemma nd_metas w ms' : NoDangle w -> (forall m, has ms' m <-> has (metas w) m) ->
  (forall m x f, obj ms' m = Some x -> f = mfn x \/ In f (morder x) -> has (funcs w) f) -> NoDangle (setMetas w ms').
Proof.
  intros H K1 K2. apply nodangle_def in H as (H1 & H2 & H3). apply nodangle_def. cbn [vars metas funcs setMetas]. split; [|split]; auto.
  - intros. apply K1. eauto.
  - intros. apply K1. eauto.
Qed.
Lemma nd_modify w m g : NoDangle w -> (forall x f, obj (metas w) m = Some x -> f = mfn (g x) \/ In f (morder (g x)) -> has (funcs w) f) -> NoDangle (setMetas w (modify (metas w) m g)).
Proof.
  intros H K. apply nd_metas; auto; [intros; apply has_modify|]. apply nodangle_def in H as (_ & _ & H3). intros m' x f E Hf. rewrite obj_modify in E. destruct (m' =? m); [|eauto].
  destruct (obj (metas w) m) as [y|]; [|discriminate]. injection E as <-. eauto.
Qed.
Lemma nd_addGrads : forall ts w w' ms, NoDangle w -> addGrads w ts = Some (w', ms) -> NoDangle w'.
Proof.
  induction ts as [|t ts IH]; intros w w' ms H E; cbn in E; [injection E as <- <-; auto|]. destruct (flag w t); [|eauto]. destruct (tmeta t) as [m|]; [|discriminate].
  destruct (addGrads (setMetas w _) ts) as [[w1 ms1]|] eqn:E1; [|discriminate]. injection E as <- <-. eapply IH; [|exact E1]. apply nd_modify; auto. cbn. intros x f Ex Hf. apply nodangle_def in H as (_ & _ & H). eauto.
Qed.
Lemma nd_runFunc w f w' : NoDangle w -> runFunc w f = Some w' -> NoDangle w'.
Proof.
  intros H E. unfold runFunc in E. destruct (obj (funcs w) f) as [x|] eqn:Ex; [|discriminate]. destruct (obj (metas w) (fowner x)) as [o|]; [|discriminate].
  assert (K : forall w once c, NoDangle w -> NoDangle (addCall (setFuncs w (modify (funcs w) f (fun x => Func (frule x) (fnexts x) (fsaved x) (fowner x) once))) c)).
  { clear. intros w once c H. apply nodangle_def in H as (H1 & H2 & H3). apply nodangle_def. cbn [vars metas funcs setFuncs addCall]. split; auto. split.
    - intros g x t m Eg Ht Et. rewrite obj_modify in Eg. destruct (g =? f); [|eauto]. destruct (obj (funcs w) f) eqn:Ef; [|discriminate]. injection Eg as <-. cbn in Ht. eauto.
    - intros. apply has_modify. eauto. }
  assert (KA : forall c, NoDangle (addCall w c)) by (intros c; apply nodangle_def; apply nodangle_def in H; auto).
  destruct (frule x) as [[]|]; try discriminate.
  - destruct (negb (mgrad o)); [discriminate|]. destruct (fspent x); [discriminate|]. destruct (addGrads w (fsaved x)) as [[w1 ms]|] eqn:E1; [|discriminate]. injection E as <-. apply K. eapply nd_addGrads; eauto.
  - destruct (negb (mgrad o)); [discriminate|]. destruct (fspent x); [discriminate|]. destruct (addGrads w (fsaved x)) as [[w1 ms]|] eqn:E1; [|discriminate]. injection E as <-. apply K. eapply nd_addGrads; eauto.
  - injection E as <-. auto.
Qed.
Lemma nd_runFuncs : forall fs w w', NoDangle w -> runFuncs w fs = Some w' -> NoDangle w'.
Proof.
  induction fs as [|f fs IH]; intros w w' H E; cbn in E; [congruence|]. destruct (runFunc w f) eqn:E1; [|discriminate]. eapply IH; [|exact E]. eapply nd_runFunc; eauto.
Qed.
Lemma releaseEdges_in : forall ns q deps q' deps', releaseEdges ns q deps = (q', deps') -> forall u, In u q' -> In u q \/ In u ns.
Proof.
  induction ns as [|n ns IH]; intros q deps q' deps' E u Hu; cbn [releaseEdges] in E; [injection E as <- <-; auto|]. apply (IH _ _ _ _ E) in Hu as [Hu|Hu]; [|cbn; auto].
  match type of Hu with In u (if ?b then _ else _) => destruct b end; auto. apply in_app_iff in Hu as [Hu|[<-|[]]]; cbn; auto.
Qed.
Lemma emit_in {V} (g : graph V) (P : nat -> Prop) : (forall u f, nth_error g u = Some f -> P u -> Forall P (nexts f)) ->
  forall fuel q deps order, emit g fuel q deps = Some order -> Forall P q -> Forall (fun u => P u /\ exists f, nth_error g u = Some f) order.
Proof.
  intros HP. induction fuel as [|fuel IH]; intros q deps order E HQ; (destruct q as [|c q]; cbn in E; [injection E as <-; constructor|]); [discriminate|].
  destruct (nth_error g c) as [f|] eqn:Ec; [|discriminate]. destruct (releaseEdges (nexts f) q deps) as [q' deps'] eqn:Er. destruct (emit g fuel q' deps') as [o|] eqn:Eo; [|discriminate].
  injection E as <-. inversion HQ; subst. constructor; eauto. eapply IH; eauto. apply Forall_forall. intros u Hu. apply (releaseEdges_in _ _ _ _ _ Er) in Hu as [Hu|Hu].
  - rewrite Forall_forall in H2. auto.
  - pose proof (HP c f Ec H1) as K. rewrite Forall_forall in K. auto.
Qed.
Lemma build_exists w root order : has (funcs w) root -> buildBackwardGraph (seen w) root = Some order -> forall f, In f order -> has (funcs w) f.
Proof.
  intros Hr E f Hf. unfold buildBackwardGraph in E. destruct (countDeps _ _ _ _ _) as [deps|]; [|discriminate].
  apply (emit_in _ (fun u => has (funcs w) u \/ u = length (funcs w))) in E.
  - rewrite Forall_forall in E. destruct (E f Hf) as ([H|H] & g & Eg); auto. exfalso. assert (K : f < length (seen w)) by (apply nth_error_Some; congruence). unfold seen in K. rewrite map_length in K. lia.
  - intros u g Eg _. rewrite seen_node in Eg. destruct (nth_error (funcs w) u) as [[x|]|]; [| |discriminate]; injection Eg as <-; [|constructor].
    unfold nexts. cbn. rewrite map_map. cbn. apply Forall_forall. intros n Hn. apply in_map_iff in Hn as (n' & <- & _). unfold lock. destruct (obj (funcs w) n') eqn:En; auto. left. exists f0. auto.
  - constructor; auto.
Qed.
Lemma nd_perform w c w' : NoDangle w -> perform w c = Some w' -> NoDangle w'.
Proof.
  intros H E. pose proof H as H'. apply nodangle_def in H' as (H1 & H2 & H3).
  destruct c as [r|en r k ins|en v|v|v|v b|v]; cbn [perform] in E.
  - injection E as <-. unfold create. set (w1 := setFlags w _). assert (HN1 : NoDangle w1) by (apply nd_flags; auto). destruct r; [|apply nd_newVar; auto; easy].
    destruct (initMeta w1 (Tensor (length (flags w)) None) None) as [w2 t2] eqn:E. destruct (nd_initMeta w1 (Tensor (length (flags w)) None) None w2 t2 HN1) as (G1 & G2 & _); auto; [easy|easy|]. apply nd_newVar; auto.
  - destruct (held w ins) as [ts|] eqn:Eh; [|discriminate]. unfold apply in E. destruct en; [|injection E as <-; apply nd_outputs; auto; easy].
    destruct (gradFns w ts) as [[|f fs]|]; [| |discriminate]; injection E as <-; [apply nd_outputs; auto; easy|]. apply nd_outputs.
    + apply nd_addFunc; auto. intros. eapply nd_held; eauto.
    + intros g Eg. injection Eg as <-. apply has_new.
  - destruct (obj (vars w) v) as [t|] eqn:Ev; [|discriminate]. unfold sumScalar in E. destruct (if en then gradFns w [t] else Some []) as [[|f fs]|]; [| |discriminate].
    + destruct (flag w t); [discriminate|]. injection E as <-. apply nd_newVar; eauto.
    + set (w1 := setFuncs w _) in E. destruct (initMeta w1 t (Some (length (funcs w)))) as [w2 t2] eqn:E1. injection E as <-.
      assert (HN1 : NoDangle w1) by (apply nd_addFunc; auto; intros t' m [<-|[]] Em; eauto).
      destruct (nd_initMeta w1 t (Some (length (funcs w))) w2 t2 HN1) as (G1 & G2 & _); auto.
      * intros m Em. apply (H1 v t m); auto.
      * intros g Eg. injection Eg as <-. apply has_new.
      * apply nd_newVar; auto.
  - destruct (obj (vars w) v) as [t|] eqn:Ev; [|discriminate]. injection E as <-. apply nd_newVar; eauto.
  - destruct (obj (vars w) v) as [t|] eqn:Ev; [|discriminate]. injection E as <-. apply nd_setVar; auto. easy.
  - destruct (obj (vars w) v) as [t|] eqn:Ev; [|discriminate]. injection E as <-. unfold setRequiresGrad. set (w1 := setFlags w _). assert (HN1 : NoDangle w1) by (apply nd_flags; auto). destruct b.
    + destruct (initMeta w1 t None) as [w2 t2] eqn:E1. destruct (nd_initMeta w1 t None w2 t2 HN1) as (G1 & G2 & _ & G4); auto; [intros m Em; apply (H1 v t m); auto|easy|].
      apply nd_setVar; auto. intros t' Et. injection Et as <-. auto.
    + apply nd_setVar; auto. intros t' Et. injection Et as <-. easy.
  - destruct (obj (vars w) v) as [t|] eqn:Ev; [|discriminate]. unfold backward in E. destruct (negb (flag w t)); [congruence|]. destruct (tmeta t) as [m|]; [|discriminate].
    destruct (obj (metas w) m) as [x|] eqn:Em; [|discriminate]. destruct (match morder x with [] => _ | _ => _ end) as [order|] eqn:Eo; [|discriminate].
    eapply nd_runFuncs; [|exact E]. apply nd_modify; auto. intros x' f Ex Hf. rewrite Em in Ex. injection Ex as <-. cbn in Hf. destruct Hf as [->|Hf]; [eauto|].
    destruct (morder x) as [|g fs] eqn:Emo; [|injection Eo as <-; eapply H3; [exact Em|rewrite Emo; auto]]. eapply build_exists; [|exact Eo|exact Hf]. eauto.
Qed.
Lemma nd_run : forall p w w', NoDangle w -> run w p = Some w' -> NoDangle w'.
Proof.
  induction p as [|c p IH]; intros w w' H E; cbn in E; [congruence|]. unfold step in E. destruct (perform w c) as [w1|] eqn:E1; [|discriminate]. cbn in E.
  eapply IH; [|exact E]. apply nodangle_sweep. eapply nd_perform; eauto.
Qed.
Lemma nd_start : NoDangle start.
Proof. split; intros i []. Qed.
Lemma nd_needs w : NoDangle w -> (forall m, needs_meta w m -> has (metas w) m) /\ (forall f, needs_func w f -> has (funcs w) f).
Proof.
  intros H. apply nodangle_def in H as (H1 & H2 & H3). split; intros i Hi; destruct Hi; eauto.
Qed.
(** The other statements of plain programs. *)
Lemma plain_progress w s c : Inv w s -> match c with
  | SApply _ _ _ ins => forall v, In v ins -> obj (vars w) v <> None
  | SCopy v | SDrop v => obj (vars w) v <> None
  | SNew _ => True
  | _ => False end -> exists w', step w c = Some w'.
Proof.
  intros HI H. unfold step. destruct c as [r|en r k ins|en v|v|v|v b|v]; cbn [perform]; try easy; cbn; eauto.
  - assert (exists ts, held w ins = Some ts) as (ts & E).
    { induction ins as [|v ins IH]; cbn; eauto. destruct IH as (ts & E); [intros; apply H; cbn; auto|]. specialize (H v (or_introl eq_refl)). destruct (obj (vars w) v); [|easy]. rewrite E. eauto. }
    rewrite E. unfold apply. destruct en; cbn; eauto. destruct (held_good w s HI ins ts E) as (os & H1 & _). rewrite (gradFns_good _ _ _ H1). destruct (flat_map opt_list os); cbn; eauto.
  - destruct (obj (vars w) v); [|easy]. cbn. eauto.
  - destruct (obj (vars w) v); [|easy]. cbn. eauto.
Qed.
