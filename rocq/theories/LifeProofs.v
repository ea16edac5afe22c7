(** Proofs: memory operations and the invariant of plain programs. *)
From Coq Require Import List Bool Arith Lia.
From Verif Require Import AutogradModel AutogradSpec AutogradProofs LifeModel LifeSpec.
Import ListNotations.

Lemma length_setNth {A} : forall (l : list A) i x, length (setNth l i x) = length l.
Proof. induction l as [|y l IH]; intros [|i] x; cbn; auto. Qed.
Lemma nth_error_setNth {A} : forall (l : list A) i j x,
  nth_error (setNth l i x) j = if (j =? i) && (i <? length l) then Some x else nth_error l j.
Proof.
  induction l as [|y l IH]; intros [|i] [|j] x; cbn [setNth nth_error length]; rewrite ?andb_false_r; auto.
  rewrite IH. reflexivity.
Qed.
Lemma obj_lt {A} (l : list (option A)) i x : obj l i = Some x -> i < length l.
Proof.
  unfold obj. intros H. destruct (nth_error l i) eqn:E; [|discriminate]. apply nth_error_Some. congruence.
Qed.
Lemma obj_setNth {A} (l : list (option A)) i j o : i < length l -> obj (setNth l i o) j = if j =? i then o else obj l j.
Proof.
  intros H. unfold obj. rewrite nth_error_setNth. rewrite (proj2 (Nat.ltb_lt _ _) H), andb_true_r. destruct (j =? i); auto.
Qed.
Lemma obj_modify {A} (l : list (option A)) i j f : obj (modify l i f) j = if j =? i then option_map f (obj l i) else obj l j.
Proof.
  unfold modify. destruct (obj l i) as [x|] eqn:E.
  - rewrite obj_setNth by (eapply obj_lt; eauto). destruct (j =? i); auto.
  - destruct (j =? i) eqn:Ej; auto. apply Nat.eqb_eq in Ej. subst. rewrite E. auto.
Qed.
Lemma length_modify {A} (l : list (option A)) i f : length (modify l i f) = length l.
Proof. unfold modify. destruct (obj l i); auto. apply length_setNth. Qed.
Lemma obj_app {A} (l : list (option A)) o j : obj (l ++ [o]) j = if j =? length l then o else obj l j.
Proof.
  unfold obj. destruct (j =? length l) eqn:E.
  - apply Nat.eqb_eq in E. subst. rewrite nth_error_app2 by lia. rewrite Nat.sub_diag. reflexivity.
  - apply Nat.eqb_neq in E. destruct (lt_dec j (length l)) as [H|H]; [rewrite nth_error_app1; auto|].
    rewrite nth_error_app2 by lia. replace (nth_error l j) with (@None (option A)) by (symmetry; apply nth_error_None; lia).
    destruct (j - length l) eqn:Ej; [lia|]. cbn. destruct n; auto.
Qed.
Lemma obj_keep {A} refs : forall (l : list (option A)) i j, obj (keep refs i l) j = if mem (i + j) refs then obj l j else None.
Proof.
  induction l as [|o l IH]; intros i [|j]; cbn [keep].
  - cbn. destruct (mem (i + 0) refs); auto.
  - cbn. destruct (mem (i + S j) refs); auto.
  - rewrite Nat.add_0_r. cbn. destruct (mem i refs); auto.
  - replace (i + S j) with (S i + j) by lia. rewrite <- IH. reflexivity.
Qed.
Lemma length_keep {A} refs : forall (l : list (option A)) i, length (keep refs i l) = length l.
Proof. induction l; intros; cbn; auto. Qed.
Lemma in_existing {A} (l : list (option A)) x : In x (existing l) <-> exists i, obj l i = Some x.
Proof.
  unfold existing. rewrite in_flat_map. split.
  - intros (o & H & Hx). destruct o as [y|]; [|easy]. destruct Hx as [->|[]]. apply In_nth_error in H as (i & H). exists i. unfold obj. rewrite H. auto.
  - intros (i & H). unfold obj in H. destruct (nth_error l i) as [o|] eqn:E; [|discriminate]. subst. exists (Some x). split; [eapply nth_error_In; eauto|cbn; auto].
Qed.
Lemma in_metasOf ts m : In m (metasOf ts) <-> exists t, In t ts /\ tmeta t = Some m.
Proof.
  unfold metasOf. rewrite in_flat_map. split.
  - intros (t & H & Hm). destruct (tmeta t) eqn:E; [|easy]. destruct Hm as [->|[]]. eauto.
  - intros (t & H & E). exists t. rewrite E. cbn. auto.
Qed.
Lemma in_metaRefs w m : In m (metaRefs w) <->
  (exists v t, obj (vars w) v = Some t /\ tmeta t = Some m) \/ (exists f x t, obj (funcs w) f = Some x /\ In t (fsaved x) /\ tmeta t = Some m).
Proof.
  unfold metaRefs. rewrite in_app_iff, in_metasOf, in_flat_map. split.
  - intros [(t & H & E)|(x & H & E)]; apply in_existing in H as (i & H).
    + left. eauto.
    + right. apply in_metasOf in E as (t & ? & ?). exists i, x, t. auto.
  - intros [(v & t & H & E)|(f & x & t & H & Ht & E)].
    + left. exists t. split; auto. apply in_existing. eauto.
    + right. exists x. split; [apply in_existing; eauto|]. apply in_metasOf. eauto.
Qed.
Lemma in_funcRefs w f : In f (funcRefs w) <-> exists m x, obj (metas w) m = Some x /\ (f = mfn x \/ In f (morder x)).
Proof.
  unfold funcRefs. rewrite in_flat_map. split.
  - intros (x & H & E). apply in_existing in H as (m & H). exists m, x. split; auto. destruct E; auto.
  - intros (m & x & H & E). exists x. split; [apply in_existing; eauto|]. destruct E as [->|E]; cbn; auto.
Qed.

(** * The invariant *)
Definition goodT (fl : list bool) (ms : list (option meta)) (t : tensor) (o : option nat) : Prop :=
  timpl t < length fl /\
  match o with
  | None => nth (timpl t) fl false = false /\ tmeta t = None
  | Some f => nth (timpl t) fl false = true /\ exists m x, tmeta t = Some m /\ obj ms m = Some x /\ mfn x = f
  end.
Record Inv (w : world) (s : story) : Prop := {
  i_vars : length (vars w) = length (tens s);
  i_var : forall v t, obj (vars w) v = Some t -> exists o, nth_error (tens s) v = Some o /\ goodT (flags w) (metas w) t o;
  i_funcs : length (funcs w) = length (ops s);
  i_func : forall f x, obj (funcs w) f = Some x -> nth_error (ops s) f = Some (frule x, fnexts x)
    /\ exists os, Forall2 (goodT (flags w) (metas w)) (fsaved x) os /\ fnexts x = flat_map opt_list os;
  i_meta : forall m x, obj (metas w) m = Some x ->
    (exists y, obj (funcs w) (mfn x) = Some y /\ (frule y <> Some NoRule -> fowner y = m))
    /\ (morder x = [] \/ consumers_first (graph_of s) (mfn x) (morder x));
  i_spent : forall f x, obj (funcs w) f = Some x -> (fspent x = true <-> frule x = Some Once /\ In f (map cfn (calls w)));
  i_calls : forall c, In c (calls w) -> cfn c < length (ops s);
  i_acyclic : acyclic (graph_of s);
  i_leaf : forall f x, obj (funcs w) f = Some x -> frule x = None -> fsaved x = [];
  i_tens : forall v f, nth_error (tens s) v = Some (Some f) -> f < length (ops s) }.

Lemma goodT_mono fl ms fl' ms' t o :
  (forall i, i < length fl -> nth i fl' false = nth i fl false) -> length fl <= length fl' ->
  (forall m x, tmeta t = Some m -> obj ms m = Some x -> exists x', obj ms' m = Some x' /\ mfn x' = mfn x) ->
  goodT fl ms t o -> goodT fl' ms' t o.
Proof.
  intros Hf Hl Hm (H1 & H2). split; [lia|]. rewrite Hf by auto. destruct o as [f|]; auto.
  destruct H2 as (H2 & m & x & E1 & E2 & E3). split; auto. destruct (Hm m x E1 E2) as (x' & E4 & E5). exists m, x'. rewrite E5. auto.
Qed.
Lemma Forall2_goodT_mono fl ms fl' ms' ts os :
  (forall i, i < length fl -> nth i fl' false = nth i fl false) -> length fl <= length fl' ->
  (forall t m x, In t ts -> tmeta t = Some m -> obj ms m = Some x -> exists x', obj ms' m = Some x' /\ mfn x' = mfn x) ->
  Forall2 (goodT fl ms) ts os -> Forall2 (goodT fl' ms') ts os.
Proof.
  intros Hf Hl Hm H. induction H as [|t o ts os Ht H IH]; constructor.
  - apply (goodT_mono fl ms); auto. intros m x. apply (Hm t m x). cbn; auto.
  - apply IH. intros t' m x Ht'. apply (Hm t' m x). cbn; auto.
Qed.

(** Sweeping keeps the invariant. *)
Lemma mem_true x l : In x l -> mem x l = true.
Proof. apply mem_in. Qed.
Lemma obj_metas_sweepOnce w m : obj (metas (sweepOnce w)) m = if mem m (metaRefs w) then obj (metas w) m else None.
Proof. unfold sweepOnce. cbn. apply obj_keep. Qed.
Lemma obj_funcs_sweepOnce w f : obj (funcs (sweepOnce w)) f = if mem f (funcRefs w) then obj (funcs w) f else None.
Proof. unfold sweepOnce. cbn. apply obj_keep. Qed.
Lemma Inv_sweepOnce w s : Inv w s -> Inv (sweepOnce w) s.
Proof.
  intros [H1 H2 H3 H4 H5 H6 H7 H8 HL H9].
  assert (KM : forall m x, In m (metaRefs w) -> obj (metas w) m = Some x -> exists x', obj (metas (sweepOnce w)) m = Some x' /\ mfn x' = mfn x).
  { intros m x Hm E. exists x. split; auto. rewrite obj_metas_sweepOnce, mem_true; auto. }
  constructor; auto.
  - intros v t E. destruct (H2 v t E) as (o & Eo & G). exists o. split; auto. eapply goodT_mono; [..|exact G]; auto.
    intros m x Em Ex. apply KM; auto. apply in_metaRefs. left. eauto.
  - cbn. rewrite length_keep. auto.
  - intros f x E. rewrite obj_funcs_sweepOnce in E. destruct (mem f (funcRefs w)); [|discriminate].
    destruct (H4 f x E) as (G1 & os & G2 & G3). split; auto. exists os. split; auto. eapply Forall2_goodT_mono; [..|exact G2]; auto.
    intros t m y Ht Em Ey. apply KM; auto. apply in_metaRefs. right. eauto 6.
  - intros m x E. rewrite obj_metas_sweepOnce in E. destruct (mem m (metaRefs w)); [|discriminate].
    destruct (H5 m x E) as ((y & G1 & G2) & G3). split; auto. exists y. split; auto.
    rewrite obj_funcs_sweepOnce, mem_true; auto. apply in_funcRefs. eauto.
  - intros f x E. rewrite obj_funcs_sweepOnce in E. destruct (mem f (funcRefs w)); [|discriminate]. apply (H6 f x E).
  - intros f x E. rewrite obj_funcs_sweepOnce in E. destruct (mem f (funcRefs w)); [|discriminate]. eauto.
Qed.
Lemma times_inv {A} (P : A -> Prop) f : (forall x, P x -> P (f x)) -> forall n x, P x -> P (times n f x).
Proof. intros H n. induction n; cbn; auto. Qed.
Lemma Inv_sweep w s : Inv w s -> Inv (sweep w) s.
Proof. unfold sweep. apply (times_inv (fun w => Inv w s)). intros; apply Inv_sweepOnce; auto. Qed.

(** * Graphs that grow *)
Lemma nth_graph s u : nth_error (graph_of s) u = option_map node_of (nth_error (ops s) u).
Proof. unfold graph_of. apply nth_error_map. Qed.
Lemma nexts_node o : nexts (node_of o) = snd o.
Proof. unfold nexts, node_of. cbn. rewrite map_map. cbn. apply map_id. Qed.
Lemma length_graph s : length (graph_of s) = length (ops s).
Proof. apply map_length. Qed.
Lemma reach_edge s u v w : reach (graph_of s) u v -> forall r fs, nth_error (ops s) v = Some (r, fs) -> In w fs -> reach (graph_of s) u w.
Proof.
  intros H r fs E Hw. eapply reach_step; [exact H|rewrite nth_graph, E; reflexivity|]. rewrite nexts_node. auto.
Qed.
Lemma reach_ind' s u (P : nat -> Prop) : P u ->
  (forall v w r fs, reach (graph_of s) u v -> P v -> nth_error (ops s) v = Some (r, fs) -> In w fs -> P w) -> forall v, reach (graph_of s) u v -> P v.
Proof.
  intros H0 HS v H. induction H as [|v w f H IH E Hw]; auto. rewrite nth_graph in E. destruct (nth_error (ops s) v) as [[r fs]|] eqn:Eo; [|discriminate].
  injection E as <-. rewrite nexts_node in Hw. eauto.
Qed.
Lemma edge_lt s u r fs v : acyclic (graph_of s) -> nth_error (ops s) u = Some (r, fs) -> In v fs -> v < u.
Proof.
  intros AC E Hv. eapply AC; [rewrite nth_graph, E; reflexivity|]. rewrite nexts_node. auto.
Qed.
Lemma reach_lt s u v : acyclic (graph_of s) -> reach (graph_of s) u v -> v <= u.
Proof.
  intros AC H. revert v H. apply reach_ind'; auto. intros v w r fs _ IH E Hw. pose proof (edge_lt _ _ _ _ _ AC E Hw). lia.
Qed.
Definition grows (s s' : story) : Prop := acyclic (graph_of s) /\ exists l, ops s' = ops s ++ l.
Lemma grows_reach s s' u v : grows s s' -> u < length (ops s) -> (reach (graph_of s) u v <-> reach (graph_of s') u v).
Proof.
  intros (AC & l & El) Hu. split; intros H.
  - revert v H. apply reach_ind'; [constructor|]. intros v w r fs _ IH E Hw. eapply reach_edge; eauto. rewrite El, nth_error_app1; eauto. apply nth_error_Some. congruence.
  - assert (K : reach (graph_of s) u v /\ v <= u); [|tauto]. revert v H. apply reach_ind'; [split; [constructor|auto]|].
    intros v w r fs _ (IH & Hle) E Hw. rewrite El, nth_error_app1 in E by lia. split; [eapply reach_edge; eauto|]. pose proof (edge_lt _ _ _ _ _ AC E Hw). lia.
Qed.
Lemma consumers_def s root order : consumers_first (graph_of s) root order <->
  NoDup order /\ (forall v, In v order <-> reach (graph_of s) root v) /\
  forall before u after, order = before ++ u :: after -> forall c r fs, reach (graph_of s) root c -> nth_error (ops s) c = Some (r, fs) -> In u fs -> In c before.
Proof.
  unfold consumers_first. split; intros (H1 & H2 & H3); split; auto; split; auto; intros before u after E c.
  - intros r fs Hc Ec Hu. eapply H3; eauto; [rewrite nth_graph, Ec; reflexivity|]. rewrite nexts_node. auto.
  - intros f Hc Ec Hu. rewrite nth_graph in Ec. destruct (nth_error (ops s) c) as [[r fs]|] eqn:Eo; [|discriminate]. injection Ec as <-.
    rewrite nexts_node in Hu. eauto.
Qed.
Lemma grows_consumers s s' u order : grows s s' -> u < length (ops s) -> consumers_first (graph_of s) u order -> consumers_first (graph_of s') u order.
Proof.
  intros G Hu H. apply consumers_def in H as (H1 & H2 & H3). apply consumers_def. split; auto. split.
  - intros v. rewrite H2. apply grows_reach; auto.
  - intros before x after E c r fs Hc Ec Hx. apply (grows_reach s s' u c G Hu) in Hc. eapply H3; eauto. destruct G as (AC & l & El).
    pose proof (reach_lt _ _ _ AC Hc). rewrite El, nth_error_app1 in Ec by lia. eauto.
Qed.
Lemma acyclic_snoc s r fs tn : acyclic (graph_of s) -> (forall n, In n fs -> n < length (ops s)) -> acyclic (graph_of (Story (ops s ++ [(r, fs)]) tn)).
Proof.
  intros AC Hf u f t E Ht. rewrite nth_graph in E. cbn [ops] in E.
  destruct (lt_dec u (length (ops s))) as [H|H].
  - rewrite nth_error_app1 in E by auto. rewrite <- nth_graph in E. eapply AC; eauto.
  - rewrite nth_error_app2 in E by lia. destruct (u - length (ops s)) eqn:Eu; [|cbn in E; destruct n; discriminate]. cbn in E. injection E as <-.
    rewrite nexts_node in Ht. specialize (Hf _ Ht). lia.
Qed.

(** * Making tensors *)
Lemma Inv_addFunc w s r fs ts os : Inv w s -> Forall2 (goodT (flags w) (metas w)) ts os -> fs = flat_map opt_list os -> (r = None -> ts = []) ->
  Inv (setFuncs w (funcs w ++ [Some (Func r fs ts 0 false)])) (Story (ops s ++ [(r, fs)]) (tens s)).
Proof.
  intros [H1 H2 H3 H4 H5 H6 H7 H8 HL H9] HT -> Hr.
  assert (Hlt : forall n, In n (flat_map opt_list os) -> n < length (ops s)).
  { intros n Hn. apply in_flat_map in Hn as (o & Ho & Hn). destruct o as [f|]; [|easy]. destruct Hn as [->|[]].
    clear - HT Ho H5 H3. induction HT as [|t o ts os Ht HT IH]; [easy|]. destruct Ho as [->|Ho]; auto.
    destruct Ht as (_ & _ & m & x & _ & Ex & <-). destruct (H5 m x Ex) as ((y & Ey & _) & _). rewrite <- H3. eapply obj_lt; eauto. }
  assert (G : grows s (Story (ops s ++ [(r, flat_map opt_list os)]) (tens s))) by (split; auto; cbn; eauto).
  constructor; cbn [flags metas funcs vars calls setFuncs ops tens]; auto.
  - rewrite !app_length. cbn. lia.
  - intros f x E. rewrite obj_app in E. destruct (f =? length (funcs w)) eqn:Ef.
    + apply Nat.eqb_eq in Ef. injection E as <-. subst f. rewrite nth_error_app2 by lia. rewrite H3, Nat.sub_diag. cbn. split; auto. eauto.
    + rewrite nth_error_app1; [apply H4; auto|]. rewrite <- H3. eapply obj_lt; eauto.
  - intros m x E. destruct (H5 m x E) as ((y & G1 & G2) & G3). split.
    + exists y. split; auto. rewrite obj_app. destruct (mfn x =? length (funcs w)) eqn:Ef; auto. apply Nat.eqb_eq in Ef. apply obj_lt in G1. lia.
    + destruct G3 as [G3|G3]; auto. right. eapply grows_consumers; eauto. rewrite <- H3. eapply obj_lt; eauto.
  - intros f x E. rewrite obj_app in E. destruct (f =? length (funcs w)) eqn:Ef; [|auto].
    apply Nat.eqb_eq in Ef. injection E as <-. subst f. cbn. split; [discriminate|]. intros (_ & Hin). apply in_map_iff in Hin as (c & Ec & Hin). apply H7 in Hin. lia.
  - intros c Hc. apply H7 in Hc. rewrite app_length. lia.
  - apply acyclic_snoc; auto.
  - intros f x E Er. rewrite obj_app in E. destruct (f =? length (funcs w)); [|eauto]. injection E as <-. auto.
  - intros v f E. apply H9 in E. rewrite app_length. lia.
Qed.
Lemma nth_error_snoc {A} (l : list A) x v : nth_error (l ++ [x]) v = if v =? length l then Some x else nth_error l v.
Proof.
  destruct (v =? length l) eqn:E.
  - apply Nat.eqb_eq in E. subst. rewrite nth_error_app2, Nat.sub_diag; auto.
  - apply Nat.eqb_neq in E. destruct (lt_dec v (length l)); [apply nth_error_app1; auto|]. rewrite nth_error_app2 by lia.
    destruct (v - length l) eqn:Ev; [lia|]. cbn. replace (nth_error l v) with (@None A) by (symmetry; apply nth_error_None; lia). destruct n0; auto.
Qed.
Lemma Inv_newVar w s t o : Inv w s -> goodT (flags w) (metas w) t o -> (forall f, o = Some f -> f < length (ops s)) -> Inv (newVar w t) (Story (ops s) (tens s ++ [o])).
Proof.
  intros [H1 H2 H3 H4 H5 H6 H7 H8 HL H9] HT HO. constructor; auto; cbn [flags metas funcs vars calls setVars newVar ops tens].
  - rewrite !app_length, H1. auto.
  - intros v t' E. rewrite obj_app, H1 in E. rewrite nth_error_snoc. destruct (v =? length (tens s)); [|auto]. injection E as <-. eauto.
  - intros v f E. rewrite nth_error_snoc in E. destruct (v =? length (tens s)); [|eauto]. injection E as E. auto.
Qed.
Lemma Inv_addFlag w s b : Inv w s -> Inv (setFlags w (flags w ++ [b])) s.
Proof.
  intros [H1 H2 H3 H4 H5 H6 H7 H8 HL H9].
  assert (K1 : forall i, i < length (flags w) -> nth i (flags w ++ [b]) false = nth i (flags w) false) by (intros; rewrite app_nth1; auto).
  assert (K2 : length (flags w) <= length (flags w ++ [b])) by (rewrite app_length; lia).
  constructor; auto; cbn [flags metas funcs vars calls setFlags].
  - intros v t E. destruct (H2 v t E) as (o & E1 & E2). exists o. split; auto. eapply goodT_mono; [..|exact E2]; eauto.
  - intros f x E. destruct (H4 f x E) as (E1 & os & E2 & E3). split; auto. exists os. split; auto. eapply Forall2_goodT_mono; [..|exact E2]; eauto.
Qed.
Lemma Inv_newMeta w s f y : Inv w s -> obj (funcs w) f = Some y -> (frule y = Some NoRule \/ forall m x, obj (metas w) m = Some x -> mfn x <> f) ->
  Inv (setFuncs (setMetas w (metas w ++ [Some (Meta f [] false)])) (modify (funcs w) f (fun x => Func (frule x) (fnexts x) (fsaved x) (length (metas w)) (fspent x)))) s.
Proof.
  intros [H1 H2 H3 H4 H5 H6 H7 H8 HL H9] Ey HN.
  assert (KM : forall m x, obj (metas w) m = Some x -> exists x', obj (metas w ++ [Some (Meta f [] false)]) m = Some x' /\ mfn x' = mfn x).
  { intros m x E. exists x. split; auto. rewrite obj_app. destruct (m =? length (metas w)) eqn:Em; auto. apply Nat.eqb_eq in Em. apply obj_lt in E. lia. }
  constructor; auto; cbn [flags metas funcs vars calls setFuncs setMetas].
  - intros v t E. destruct (H2 v t E) as (o & E1 & E2). exists o. split; auto. eapply goodT_mono; [..|exact E2]; eauto.
  - rewrite length_modify. auto.
  - assert (K : forall f' x, obj (funcs w) f' = Some x -> nth_error (ops s) f' = Some (frule x, fnexts x) /\
      exists os, Forall2 (goodT (flags w) (metas w ++ [Some (Meta f [] false)])) (fsaved x) os /\ fnexts x = flat_map opt_list os).
    { intros f' x E. destruct (H4 f' x E) as (E1 & os & E2 & E3). split; auto. exists os. split; auto. eapply Forall2_goodT_mono; [..|exact E2]; eauto. }
    intros f' x E. rewrite obj_modify in E. destruct (f' =? f) eqn:Ef; [|auto]. apply Nat.eqb_eq in Ef. subst f'. rewrite Ey in E. injection E as <-. cbn. apply K. auto.
  - intros m x E. rewrite obj_app in E. destruct (m =? length (metas w)) eqn:Em.
    + apply Nat.eqb_eq in Em. injection E as <-. cbn. split; auto. rewrite obj_modify, Nat.eqb_refl, Ey. cbn. eexists. split; [reflexivity|]. cbn. auto.
    + destruct (H5 m x E) as ((z & E1 & E2) & E3). split; auto. rewrite obj_modify. destruct (mfn x =? f) eqn:Ef.
      * apply Nat.eqb_eq in Ef. rewrite Ey. cbn. eexists. split; [reflexivity|]. cbn. destruct HN as [HN|HN]; [congruence|]. exfalso. apply (HN m x); auto.
      * eauto.
  - intros f' x E. rewrite obj_modify in E. destruct (f' =? f) eqn:Ef; [|auto]. apply Nat.eqb_eq in Ef. subst f'. rewrite Ey in E. injection E as <-. cbn. auto.
  - intros f' x E. rewrite obj_modify in E. destruct (f' =? f) eqn:Ef; [|eauto]. apply Nat.eqb_eq in Ef. subst f'. rewrite Ey in E. injection E as <-. cbn. eauto.
Qed.
(** One result of operation [f]. *)
Lemma Inv_output w s f y : Inv w s -> obj (funcs w) f = Some y -> (frule y = Some NoRule \/ forall m x, obj (metas w) m = Some x -> mfn x <> f) ->
  exists y', obj (funcs (outputs w 1 (Some f))) f = Some y' /\ frule y' = frule y /\ Inv (outputs w 1 (Some f)) (Story (ops s) (tens s ++ [Some f])).
Proof.
  intros HI Ey HN. cbn [outputs]. unfold initMeta. cbn [tmeta timpl fst snd]. pose proof (Inv_addFlag _ _ true HI) as HI1.
  pose proof (Inv_newMeta _ _ f y HI1 Ey HN) as HI2. eexists. split; [|split].
  - cbn. rewrite obj_modify, Nat.eqb_refl, Ey. reflexivity.
  - reflexivity.
  - refine (Inv_newVar _ _ (Tensor (length (flags w)) (Some (length (metas w)))) (Some f) HI2 _ _).
    + split; cbn; [rewrite app_length; cbn; lia|]. split; [rewrite app_nth2, Nat.sub_diag; auto|]. exists (length (metas w)), (Meta f [] false).
      split; auto. split; auto. rewrite obj_app, Nat.eqb_refl. auto.
    + intros f' E. injection E as <-. rewrite <- (i_funcs _ _ HI). eapply obj_lt; eauto.
Qed.
Lemma outputs_S w k f : outputs w (S k) f = outputs (outputs w 1 f) k f.
Proof. cbn [outputs]. destruct f as [f|]; [|reflexivity]. unfold initMeta. cbn [tmeta timpl]. reflexivity. Qed.
Lemma Inv_outputs_some : forall k w s f y, Inv w s -> obj (funcs w) f = Some y ->
  (frule y = Some NoRule \/ (k = 1 /\ forall m x, obj (metas w) m = Some x -> mfn x <> f)) ->
  Inv (outputs w k (Some f)) (Story (ops s) (tens s ++ repeat (Some f) k)).
Proof.
  induction k as [|k IH]; intros w s f y HI Ey HN.
  - cbn. rewrite app_nil_r. destruct s. auto.
  - rewrite outputs_S. destruct (Inv_output w s f y HI Ey) as (y' & E1 & E2 & HI').
    { destruct HN as [HN|(_ & HN)]; auto. }
    destruct HN as [HN|(Hk & _)].
    + specialize (IH _ _ f y' HI' E1). cbn [ops tens] in IH. rewrite <- app_assoc in IH. cbn [repeat app] in *. apply IH. left. congruence.
    + injection Hk as ->. cbn [repeat outputs]. auto.
Qed.
Lemma Inv_outputs_none : forall k w s, Inv w s -> Inv (outputs w k None) (Story (ops s) (tens s ++ repeat None k)).
Proof.
  induction k as [|k IH]; intros w s HI.
  - cbn. rewrite app_nil_r. destruct s. auto.
  - rewrite outputs_S. assert (HI' : Inv (outputs w 1 None) (Story (ops s) (tens s ++ [None]))).
    { cbn [outputs]. refine (Inv_newVar _ _ (Tensor (length (flags w)) None) None (Inv_addFlag _ _ false HI) _ _); [|discriminate].
      split; cbn; [rewrite app_length; cbn; lia|]. split; auto. rewrite app_nth2, Nat.sub_diag; auto. }
    apply IH in HI'. cbn [ops tens] in HI'. rewrite <- app_assoc in HI'. exact HI'.
Qed.
Lemma fresh_func w s : Inv w s -> forall m x, obj (metas w) m = Some x -> mfn x <> length (funcs w).
Proof. intros HI m x E. destruct (i_meta _ _ HI m x E) as ((y & Ey & _) & _). apply obj_lt in Ey. lia. Qed.
Lemma held_good w s : Inv w s -> forall ins ts, held w ins = Some ts ->
  exists os, Forall2 (goodT (flags w) (metas w)) ts os /\ flat_map (fun v => opt_list (nth v (tens s) None)) ins = flat_map opt_list os.
Proof.
  intros HI. induction ins as [|v ins IH]; intros ts E; cbn in E.
  - injection E as <-. exists []. auto.
  - destruct (obj (vars w) v) as [t|] eqn:Ev; [|discriminate]. destruct (held w ins) as [ts'|]; [|discriminate]. injection E as <-.
    destruct (IH _ eq_refl) as (os & H1 & H2). destruct (i_var _ _ HI v t Ev) as (o & Eo & G). exists (o :: os). split; auto.
    cbn. rewrite H2. rewrite (nth_error_nth _ _ None Eo). reflexivity.
Qed.
Lemma gradFns_good w ts os : Forall2 (goodT (flags w) (metas w)) ts os -> gradFns w ts = Some (flat_map opt_list os).
Proof.
  intros H. induction H as [|t o ts os Ht H IH]; cbn [gradFns flat_map]; auto. unfold flag. destruct Ht as (_ & Ht). destruct o as [f|].
  - destruct Ht as (-> & m & x & -> & -> & <-). rewrite IH. reflexivity.
  - destruct Ht as (-> & _). rewrite IH. reflexivity.
Qed.
