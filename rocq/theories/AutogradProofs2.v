(** The values of the gradients after a backward pass. *)
From Coq Require Import ZArith List Bool Arith Lia Permutation ZifyBool ZifyNat.
From Verif Require Import AutogradModel AutogradSpec AutogradProofs.
Import ListNotations.

Section Values.
Context {V : gvalues}.

Lemma gadd_0r : forall x : V, gadd x gzero = x.
Proof. intros x. rewrite gadd_comm. apply gadd_0. Qed.
Lemma gsum_cons : forall (x : V) l, gsum (x :: l) = gadd x (gsum l).
Proof. reflexivity. Qed.
Lemma gsum_app : forall a b : list V, gsum (a ++ b) = gadd (gsum a) (gsum b).
Proof. induction a as [|x a IH]; intros b; cbn [app]; [symmetry; apply gadd_0|]. rewrite !gsum_cons, IH, gadd_assoc. auto. Qed.
Lemma gsum_flat : forall {A B} (h : B -> V) (F : A -> list B) l, gsum (map h (flat_map F l)) = gsum (map (fun e => gsum (map h (F e))) l).
Proof. intros A B h F l. induction l as [|x l IH]; auto. cbn [flat_map map]. rewrite map_app, gsum_app, gsum_cons, IH. auto. Qed.
Lemma gsum_zero : forall {A} (F : A -> V) l, (forall x, In x l -> F x = gzero) -> gsum (map F l) = gzero.
Proof. intros A F l H. induction l as [|x l IH]; auto. cbn [map]. rewrite gsum_cons, H, IH by (cbn; auto; intros; apply H; cbn; auto). apply gadd_0. Qed.
Lemma gsum_perm : forall a b : list V, Permutation a b -> gsum a = gsum b.
Proof. induction 1; rewrite ?gsum_cons; auto; [congruence| |congruence]. rewrite !gadd_assoc, (gadd_comm _ y x). auto. Qed.
Lemma gsum_linear : forall (f : V -> V) l, linear f -> gsum (map f l) = f (gsum l).
Proof. intros f l [H0 HA]. induction l as [|x l IH]; cbn [map]; [auto|]. rewrite !gsum_cons, HA, IH. auto. Qed.

Lemma nth_setNth : forall {A} (l : list A) i j x d, i < length l -> nth j (setNth l i x) d = if j =? i then x else nth j l d.
Proof.
  induction l as [|y l IH]; intros i j x d H; [cbn in H; lia|]. destruct i as [|i], j as [|j]; cbn [setNth nth Nat.eqb]; auto. apply IH. cbn in H. lia.
Qed.
Lemma length_setNth : forall {A} (l : list A) i x, length (setNth l i x) = length l.
Proof. induction l as [|y l IH]; intros [|i] x; cbn; auto. Qed.

Variable g : graph V.
Hypothesis AC : acyclic g.
Hypothesis LR : linear_rules g.

(** * The spec, one edge at a time *)
Lemma edges_to_gt : forall v e, In e (edges_to g v) -> v < fst e.
Proof.
  intros v e H. unfold edges_to in H. apply in_flat_map in H. destruct H as (u & Hu & H). destruct (nth_error g u) as [f|] eqn:E; [|inversion H].
  apply in_map_iff in H. destruct H as ([t d] & <- & H). cbn. apply filter_In in H. destruct H as [H Ht]. cbn in Ht. apply Nat.eqb_eq in Ht. subst t.
  apply (AC _ _ _ E). unfold nexts. apply in_map_iff. exists (v, d). auto.
Qed.
Lemma edges_to_linear : forall v e, In e (edges_to g v) -> linear (factor (snd e)).
Proof.
  intros v e H. unfold edges_to in H. apply in_flat_map in H. destruct H as (u & Hu & H). destruct (nth_error g u) as [f|] eqn:E; [|inversion H].
  apply in_map_iff in H. destruct H as ([t d] & <- & H). cbn. apply filter_In in H. destruct H as [H Ht]. apply (LR _ _ _ _ E H).
Qed.
Lemma paths_beyond : forall n root v, root < v -> pathsN g n root v = [].
Proof.
  induction n as [|n IH]; intros root v H; auto. cbn [pathsN]. destruct (Nat.eqb_spec v root); [lia|]. cbn [app].
  assert (HE : forall l, (forall e, In e l -> v < fst e) -> flat_map (fun e : nat * delivery V => map (fun p => p ++ [factor (snd e)]) (pathsN g n root (fst e))) l = []).
  { induction l as [|e l IHl]; intros He; auto. cbn [flat_map]. rewrite IH, IHl; auto; intros; [apply He; cbn; auto|]. specialize (He e (or_introl eq_refl)). lia. }
  apply HE. apply edges_to_gt.
Qed.
Lemma paths_stable : forall n m root v, root < n + v -> root < m + v -> pathsN g n root v = pathsN g m root v.
Proof.
  induction n as [|n IH]; intros m root v H1 H2.
  - rewrite !paths_beyond by lia. auto.
  - destruct m as [|m]; [rewrite !paths_beyond by lia; auto|]. cbn [pathsN]. f_equal. rewrite !flat_map_concat_map. f_equal. apply map_ext_in.
    intros e He. apply edges_to_gt in He. rewrite (IH m); auto; lia.
Qed.
Lemma total_eq : forall root v s, root < length g ->
  total g root v s = gadd (if v =? root then s else gzero) (gsum (map (fun e => factor (snd e) (total g root (fst e) s)) (edges_to g v))).
Proof.
  intros root v s Hr. unfold total, paths at 1. cbn [pathsN]. rewrite map_app, gsum_app. f_equal.
  - destruct (v =? root); cbn; auto. apply gadd_0r.
  - rewrite gsum_flat. f_equal. apply map_ext_in. intros e He. rewrite map_map. rewrite <- (gsum_linear (factor (snd e))) by (eapply edges_to_linear; eauto).
    rewrite map_map. unfold paths. rewrite (paths_stable (S (length g)) (length g)) by (apply edges_to_gt in He; lia).
    f_equal. apply map_ext. intros p. unfold along. rewrite fold_left_app. auto.
Qed.
Lemma paths_unreachable : forall n root v, ~ reach g root v -> pathsN g n root v = [].
Proof.
  induction n as [|n IH]; intros root v H; auto. cbn [pathsN]. destruct (Nat.eqb_spec v root) as [->|_]; [exfalso; apply H; constructor|]. cbn [app].
  assert (HE : forall e, In e (edges_to g v) -> ~ reach g root (fst e)).
  { intros e He HR. apply H. unfold edges_to in He. apply in_flat_map in He. destruct He as (u & Hu & He). destruct (nth_error g u) as [f|] eqn:E; [|inversion He].
    apply in_map_iff in He. destruct He as ([t d] & <- & He). cbn in HR. apply filter_In in He. destruct He as [He Ht]. cbn in Ht. apply Nat.eqb_eq in Ht. subst t.
    econstructor; eauto. unfold nexts. apply in_map_iff. exists (v, d). auto. }
  induction (edges_to g v) as [|e l IHl]; auto. cbn [flat_map]. rewrite IH by (apply HE; cbn; auto). rewrite IHl; auto. intros; apply HE; cbn; auto.
Qed.
Lemma total_unreachable : forall root v s, ~ reach g root v -> total g root v s = gzero.
Proof. intros root v s H. unfold total, paths. rewrite paths_unreachable; auto. Qed.

(** * One addition *)
Lemma own_heap : forall (st st' : state V) n, gradOf st' = gradOf st -> own st n -> own st' n.
Proof. intros st st' n E. unfold own. rewrite E. auto. Qed.

Lemma addGrad_ok : forall (st : state V) t buf, good_heap st -> gradOf st t = None \/ own st t -> buf < length (heap st) ->
  gradOf st t <> Some buf ->
  exists st', addGrad st t buf = Some st' /\ good_heap st' /\ ran st' = ran st
  /\ gradient st' t = gadd (gradient st t) (nth buf (heap st) gzero)
  /\ (forall w, w <> t -> gradient st' w = gradient st w /\ gradOf st' w = gradOf st w)
  /\ gradOf st' t = (match gradOf st t with None => Some buf | Some b => Some b end).
Proof.
  intros st t buf GH HO Hb Hne. unfold addGrad. destruct (gradOf st t) as [b|] eqn:E.
  - destruct HO as [HO|(b' & Eb & HO)]; [discriminate|]. rewrite E in Eb. injection Eb as <-.
    pose proof (GH _ _ E) as Hlt. rewrite (nth_error_nth' _ gzero Hlt), (nth_error_nth' _ gzero Hb).
    eexists. split; [reflexivity|]. split; [|split; [reflexivity|split; [|split]]].
    + intros n c Hc. cbn in *. rewrite length_setNth. eauto.
    + unfold gradient. cbn [gradOf heap]. rewrite E. rewrite nth_setNth by auto. rewrite Nat.eqb_refl. auto.
    + intros w Hw. split; auto. unfold gradient. cbn [gradOf heap]. destruct (gradOf st w) as [c|] eqn:Ew; auto.
      rewrite nth_setNth by auto. destruct (Nat.eqb_spec c b) as [->|]; auto. exfalso. apply (HO w Hw). auto.
    + auto.
  - eexists. split; [reflexivity|]. split; [|split; [reflexivity|split; [|split]]].
    + intros n c Hc. cbn in *. unfold upd in Hc. destruct (n =? t); [injection Hc as <-; auto|eauto].
    + unfold gradient. cbn [gradOf heap]. rewrite E. unfold upd. rewrite Nat.eqb_refl. rewrite gadd_0. auto.
    + intros w Hw. unfold gradient. cbn [gradOf heap]. unfold upd. rewrite (proj2 (Nat.eqb_neq w t)) by auto. auto.
    + cbn. unfold upd. rewrite Nat.eqb_refl. auto.
Qed.
Lemma own_after : forall (st st' : state V) t buf w, gradOf st t = None \/ own st t ->
  (forall w, w <> t -> gradOf st' w = gradOf st w) ->
  gradOf st' t = (match gradOf st t with None => Some buf | Some b => Some b end) ->
  own st w -> (gradOf st t = None -> gradOf st w <> Some buf) -> own st' w.
Proof.
  intros st st' t buf w HO HW HT (b & E & HB) Hb.
  destruct (Nat.eq_dec w t) as [->|Hne].
  - exists b. rewrite HT, E. split; auto. intros m Hm. rewrite HW; auto.
  - exists b. rewrite HW by auto. split; auto. intros m Hm. destruct (Nat.eq_dec m t) as [->|Hmt]; [|rewrite HW by auto; auto].
    rewrite HT. specialize (HB t Hm). destruct (gradOf st t) as [c|] eqn:Et; [auto|]. rewrite E in Hb. intros H. apply (Hb eq_refl). auto.
Qed.

(** * The invariant *)
Variable root : nat.
Hypothesis Hroot : root < length g.
Variable s : V.
Variable st1 : state V.   (* the state after seeding *)
Definition G (u : nat) : V := total g root u s.
Local Notation edge := (nat * (nat * delivery V))%type.
Definition dels (u : nat) : list (nat * delivery V) := match nth_error g u with Some f => deliveries f | None => [] end.
Definition allE (l : list nat) : list edge := flat_map (fun u => map (pair u) (dels u)) l.
Definition targets (l : list edge) : list nat := map (fun e => fst (snd e)) l.
Definition inc (l : list edge) (v : nat) : V := gsum (map (fun e => factor (snd (snd e)) (G (fst e))) (filter (fun e => fst (snd e) =? v) l)).

Lemma inc_app : forall a b v, inc (a ++ b) v = gadd (inc a v) (inc b v).
Proof. intros a b v. unfold inc. rewrite filter_app, map_app, gsum_app. auto. Qed.
Lemma inc_not : forall l v, ~ In v (targets l) -> inc l v = gzero.
Proof.
  intros l v H. unfold inc. match goal with |- gsum (map _ ?L) = _ => assert (E : L = []); [|rewrite E; reflexivity] end.
  induction l as [|e l IH]; [reflexivity|]. cbn [filter]. unfold targets in *. cbn [map In] in H. destruct (Nat.eqb_spec (fst (snd e)) v); [exfalso; apply H; auto|]. apply IH. tauto.
Qed.

Definition Inv (st : state V) (done todo : list edge) : Prop :=
  good_heap st
  /\ (forall v, gradient st v = gadd (gradient st1 v) (inc done v))
  /\ (forall v, In v (targets done) -> gradOf st v <> None)
  /\ (forall v, gradOf st1 v <> None -> gradOf st v = gradOf st1 v)
  /\ (forall v, ~ In v (targets done) -> gradOf st v = gradOf st1 v)
  /\ (forall v, In v (targets todo) -> gradOf st v = None \/ own st v)
  /\ (forall v, dels v = [] -> own st1 v -> own st v).
(** A gradient tensor is passed on only to inputs that get no other one. *)
Definition passes_once (E : list edge) : Prop :=
  forall u t, In (u, (t, Pass)) E -> gradOf st1 t = None -> occ (targets E) t = 1.

Lemma step : forall st done todo u t d buf, Inv st done ((u, (t, d)) :: todo) -> passes_once (done ++ (u, (t, d)) :: todo) ->
  In (t, d) (dels u) -> gradOf st u = Some buf -> nth buf (heap st) gzero = G u -> ~ In u (targets ((u, (t, d)) :: todo)) ->
  exists st', deliver st buf (t, d) = Some st' /\ Inv st' (done ++ [(u, (t, d))]) todo /\ gradOf st' u = Some buf /\ ran st' = ran st.
Proof.
  intros st done todo u t d buf (GH & HV & HT & HS & HN & HO & HL) HP Hd Eu Gu Hu.
  assert (Hut : u <> t). { intros ->. apply Hu. cbn. auto. }
  assert (Ot : gradOf st t = None \/ own st t) by (apply HO; cbn; auto).
  assert (Hone : d = Pass -> gradOf st t = None -> ~ In t (targets todo)).
  { intros -> Et Hin. destruct (gradOf st1 t) as [b|] eqn:E1; [rewrite HS in Et; congruence|].
    specialize (HP u t ltac:(apply in_or_app; cbn; auto) E1).
    unfold targets in HP. rewrite map_app, count_occ_app in HP. cbn [map fst snd count_occ] in HP. destruct (Nat.eq_dec t t); [|congruence].
    apply (count_occ_In Nat.eq_dec) in Hin. unfold targets in Hin. lia. }
  assert (Hfin : forall (sta st' : state V) b, good_heap sta -> gradOf sta = gradOf st -> (forall w, gradient sta w = gradient st w) -> ran sta = ran st ->
    nth b (heap sta) gzero = factor d (G u) -> (forall w, gradOf st w = Some b -> w <> t /\ (dels w <> [] /\ ~ In w (targets todo) \/ ~ own st w)) ->
    b < length (heap sta) -> (gradOf st t = None -> ~ In t (targets todo) \/ forall w, gradOf st w <> Some b) ->
    exists st', addGrad sta t b = Some st' /\ Inv st' (done ++ [(u, (t, d))]) todo /\ gradOf st' u = Some buf /\ ran st' = ran st).
  { intros sta _ b GHa Ea Va Ra Vb Wb Lb Tb.
    destruct (addGrad_ok sta t b) as (st' & E1 & E2 & E3 & E4 & E5 & E6); auto.
    { rewrite Ea. destruct Ot as [Ot|Ot]; auto. right. apply (own_heap st); auto. }
    { rewrite Ea. intros H. destruct (Wb t H). auto. }
    exists st'. split; auto. split; [|split; [rewrite (proj2 (E5 u Hut)), Ea; auto|congruence]].
    assert (OW : forall w, own st w -> (gradOf st t = None -> gradOf st w <> Some b) -> own st' w).
    { intros w Hw Hb. apply (own_after st st' t b); auto.
      - intros x Hx. rewrite (proj2 (E5 x Hx)), Ea. auto.
      - rewrite E6, Ea. auto. }
    split; [auto|]. split; [|split; [|split; [|split; [|split]]]].
    - intros v. rewrite inc_app. destruct (Nat.eq_dec v t) as [->|Hvt].
      + rewrite E4, Va, HV, Vb. unfold inc at 3. cbn [filter fst snd]. rewrite Nat.eqb_refl. cbn [map fst snd gsum fold_right].
        rewrite gadd_0r, gadd_assoc. auto.
      + rewrite (proj1 (E5 v Hvt)), Va, HV. unfold inc at 3. cbn [filter fst snd]. rewrite (proj2 (Nat.eqb_neq t v)) by auto. cbn. rewrite gadd_0r. auto.
    - intros v Hv. unfold targets in Hv. rewrite map_app, in_app_iff in Hv. cbn in Hv. destruct (Nat.eq_dec v t) as [->|Hvt].
      + rewrite E6. destruct (gradOf sta t); discriminate.
      + rewrite (proj2 (E5 v Hvt)), Ea. apply HT. destruct Hv as [Hv|[Hv|[]]]; auto. congruence.
    - intros v Hv. destruct (Nat.eq_dec v t) as [->|Hvt].
      + rewrite E6, Ea, HS by auto. destruct (gradOf st1 t); congruence.
      + rewrite (proj2 (E5 v Hvt)), Ea. auto.
    - intros v Hv. unfold targets in Hv. rewrite map_app, in_app_iff in Hv. cbn in Hv.
      rewrite (proj2 (E5 v ltac:(intros ->; tauto))), Ea. apply HN. unfold targets. tauto.
    - intros v Hv. destruct (Nat.eq_dec v t) as [->|Hvt].
      + destruct (gradOf st t) as [c|] eqn:Et.
        * right. destruct Ot as [Ot|Ot]; [discriminate|]. apply OW; auto. discriminate.
        * right. destruct (Tb eq_refl) as [H|H]; [tauto|]. exists b. rewrite E6, Ea, Et. split; auto. intros m Hm.
          rewrite (proj2 (E5 m Hm)), Ea. auto.
      + destruct (HO v) as [Ov|Ov]; [cbn; auto| |].
        * left. rewrite (proj2 (E5 v Hvt)), Ea. auto.
        * right. apply OW; auto. intros _ H. destruct (Wb v H) as [_ [[_ H2]|H2]]; tauto.
    - intros v Hv Hown. specialize (HL v Hv Hown). apply OW; auto. intros _ H. destruct (Wb v H) as [_ [[H1 H2]|H2]]; tauto. }
  unfold deliver. cbn [snd fst]. destruct d as [|f].
  - apply (Hfin st st buf); auto.
    + intros w Hw. destruct (Nat.eq_dec w u) as [->|Hwu].
      * split; auto. left. split; [intros H; rewrite H in Hd; inversion Hd|]. intros H. apply Hu. cbn. auto.
      * assert (Hno : ~ own st w). { intros (c & Ec & Hc). rewrite Hw in Ec. injection Ec as <-. apply (Hc u); auto. }
        split; auto. intros ->. destruct Ot as [Ot|Ot]; [congruence|tauto].
    + apply (GH u). auto.
  - rewrite (nth_error_nth' (heap st) gzero (GH _ _ Eu)). cbn [alloc]. apply (Hfin _ st).
    + intros n c Hc. cbn in *. rewrite app_length. apply GH in Hc. cbn. lia.
    + reflexivity.
    + intros w. unfold gradient. cbn [heap gradOf]. destruct (gradOf st w) as [c|] eqn:E; auto. rewrite app_nth1; auto. apply (GH _ _ E).
    + reflexivity.
    + cbn [heap]. rewrite app_nth2, Nat.sub_diag by lia. cbn. rewrite Gu. auto.
    + intros w Hw. apply GH in Hw. lia.
    + cbn. rewrite app_length. cbn. lia.
    + intros _. right. intros w Hw. apply GH in Hw. lia.
Qed.

Lemma deliverAll_ok : forall ds st done todo u buf, Inv st done (map (pair u) ds ++ todo) -> passes_once (done ++ map (pair u) ds ++ todo) ->
  incl ds (dels u) -> gradOf st u = Some buf -> gradient st u = G u -> ~ In u (targets (map (pair u) ds ++ todo)) ->
  exists st', deliverAll st buf ds = Some st' /\ Inv st' (done ++ map (pair u) ds) todo /\ ran st' = ran st.
Proof.
  induction ds as [|[t d] ds IH]; intros st done todo u buf HI HP Hd Eu Gu Hu.
  - exists st. cbn. rewrite app_nil_r. auto.
  - cbn [map app deliverAll] in *.
    destruct (step st done (map (pair u) ds ++ todo) u t d buf) as (st' & E1 & I1 & U1 & R1); auto.
    + apply Hd. cbn. auto.
    + unfold gradient in Gu. rewrite Eu in Gu. auto.
    + rewrite E1. destruct (IH st' (done ++ [(u, (t, d))]) todo u buf) as (st'' & E2 & I2 & R2); auto.
      * rewrite <- app_assoc. auto.
      * intros x Hx. apply Hd. cbn. auto.
      * destruct I1 as (_ & V1 & _). destruct HI as (_ & V0 & _). rewrite V1, inc_app, <- Gu, V0. rewrite inc_not with (l := [(u, (t, d))]); [rewrite gadd_0r; auto|].
        cbn. intros [H|[]]. apply Hu. cbn. auto.
      * intros H. apply Hu. cbn. auto.
      * exists st''. rewrite <- app_assoc in I2. split; auto. split; auto. congruence.
Qed.

(** * The whole pass *)
Hypothesis SEED : gradOf st1 root <> None.
Variable order : list nat.
Hypothesis CF : consumers_first g root order.
Hypothesis OPS : forall u f, reach g root u -> nth_error g u = Some f -> deliveries f <> [] -> gradient st1 u = if u =? root then s else gzero.
Hypothesis PO : passes_once (allE order).

Lemma in_dels : forall c e, In e (dels c) -> exists f, nth_error g c = Some f /\ In e (deliveries f) /\ In (fst e) (nexts f).
Proof.
  intros c e H. unfold dels in H. destruct (nth_error g c) as [f|] eqn:E; [|inversion H]. exists f. split; auto. split; auto. unfold nexts. apply in_map. auto.
Qed.
Lemma targets_in : forall l v, In v (targets (allE l)) -> exists c f, In c l /\ nth_error g c = Some f /\ In v (nexts f).
Proof.
  intros l v H. unfold targets in H. apply in_map_iff in H. destruct H as ([c e] & <- & H). unfold allE in H. apply in_flat_map in H.
  destruct H as (c' & Hc & H). apply in_map_iff in H. destruct H as (e' & E & H). injection E as -> ->. destruct (in_dels _ _ H) as (f & Ef & H1 & H2). exists c, f. auto.
Qed.
Lemma inc_flat : forall l v, inc (allE l) v = gsum (map (fun u => gsum (map (fun e => factor (snd e) (G u)) (filter (fun e => fst e =? v) (dels u)))) l).
Proof.
  induction l as [|u l IH]; intros v; auto. change (allE (u :: l)) with (map (pair u) (dels u) ++ allE l). rewrite inc_app, IH. cbn [map]. rewrite gsum_cons. f_equal.
  unfold inc. induction (dels u) as [|e ds IHd]; auto. cbn [map filter fst snd]. destruct (fst e =? v); cbn [map fst snd]; rewrite ?gsum_cons, IHd; auto.
Qed.
Lemma inc_order : forall v, inc (allE order) v = gsum (map (fun e => factor (snd e) (G (fst e))) (edges_to g v)).
Proof using AC LR Hroot CF.
  clear SEED PO OPS st1.
  intros v. destruct CF as (ND & HR & _). rewrite inc_flat. unfold edges_to. rewrite gsum_flat.
  destruct (rest_of (seq 0 (length g)) order) as (rest & HP & Hrest); auto.
  - apply seq_NoDup.
  - intros x Hx. apply in_seq. apply HR in Hx. apply (reach_le g AC root Hroot) in Hx. lia.
  - rewrite (gsum_perm _ _ (Permutation_map _ HP)). rewrite map_app, gsum_app. rewrite (gsum_zero _ rest).
    + rewrite gadd_0r. f_equal. apply map_ext_in. intros u Hu. unfold dels. destruct (nth_error g u); auto. rewrite map_map. auto.
    + intros u Hu. apply Hrest in Hu. destruct Hu as [_ Hu]. apply gsum_zero. intros e He. destruct (nth_error g u) as [f|] eqn:E; [|inversion He].
      apply in_map_iff in He. destruct He as ([t d] & <- & He). cbn [fst snd]. unfold G. rewrite total_unreachable by (intros H; apply Hu, HR; auto).
      apply filter_In in He. apply (LR _ _ _ _ E (proj1 He)).
Qed.

Lemma run_ok : forall after before st, order = before ++ after -> Inv st (allE before) (allE after) ->
  exists st', runAll g st after = Some st' /\ Inv st' (allE order) [] /\ ran st' = ran st ++ after.
Proof.
  destruct CF as (ND & HR & HC).
  induction after as [|u after IH]; intros before st Eo HI.
  - rewrite app_nil_r in Eo. subst before. exists st. cbn. rewrite app_nil_r. auto.
  - assert (Hu : reach g root u) by (apply HR; rewrite Eo; apply in_or_app; cbn; auto).
    assert (Hf : exists f, nth_error g u = Some f). { destruct (nth_error g u) eqn:E; eauto. apply nth_error_None in E. apply (reach_le g AC root Hroot) in Hu. lia. }
    destruct Hf as (f & Ef).
    change (allE (u :: after)) with (map (pair u) (dels u) ++ allE after) in HI.
    assert (ED : dels u = deliveries f) by (unfold dels; rewrite Ef; auto).
    assert (Hno : ~ In u (targets (map (pair u) (dels u) ++ allE after))).
    { intros H. change (map (pair u) (dels u) ++ allE after) with (allE (u :: after)) in H. apply targets_in in H. destruct H as (c & fc & Hc & Efc & Hn).
      assert (Hcb : In c before). { apply (HC before u after Eo c fc); auto. apply HR. rewrite Eo. apply in_or_app. auto. }
      rewrite Eo in ND. apply NoDup_app_inv in ND. destruct ND as (_ & _ & ND). apply (ND c); auto. }
    assert (Hdef : gradOf st u <> None).
    { destruct HI as (_ & _ & HT & HS & _). destruct (reach_pred g root u Hu) as [->|(c & Hc & Hn)]; [rewrite HS; auto|].
      apply HT. unfold nx in Hn. destruct (nth_error g c) as [fc|] eqn:Ec; [|inversion Hn].
      assert (Hcb : In c before) by (apply (HC before u after Eo c fc); auto).
      unfold nexts in Hn. apply in_map_iff in Hn. destruct Hn as ([t d] & <- & Hn). unfold targets. apply in_map_iff. exists (c, (t, d)). split; auto.
      unfold allE. apply in_flat_map. exists c. split; auto. apply in_map. unfold dels. rewrite Ec. auto. }
    assert (Hval : dels u <> [] -> gradient st u = G u).
    { intros Hd. destruct HI as (_ & HV & _). rewrite HV. unfold G. rewrite total_eq by auto. rewrite (OPS u f) by (auto; congruence). f_equal.
      rewrite <- inc_order. rewrite Eo. unfold allE at 2. rewrite flat_map_app. fold (allE before) (allE (u :: after)).
      rewrite inc_app. rewrite (inc_not (allE (u :: after))); [rewrite gadd_0r; auto|]. exact Hno. }
    cbn [runAll]. unfold runFn. rewrite Ef. destruct (gradOf st u) as [buf|] eqn:Eb; [|congruence].
    assert (HD : exists st', deliverAll st buf (deliveries f) = Some st' /\ Inv st' (allE before ++ map (pair u) (dels u)) (allE after) /\ ran st' = ran st).
    { rewrite <- ED. destruct (dels u) as [|e ds] eqn:Ed.
      - exists st. cbn. rewrite app_nil_r. auto.
      - rewrite <- Ed in *. apply deliverAll_ok; auto.
        + replace (allE before ++ map (pair u) (dels u) ++ allE after) with (allE order); auto. rewrite Eo. unfold allE. rewrite flat_map_app. auto.
        + intros x; auto.
        + apply Hval. rewrite Ed. discriminate. }
    destruct HD as (st' & E1 & I1 & R1). rewrite E1.
    destruct (IH (before ++ [u]) (State (heap st') (gradOf st') (ran st' ++ [u]))) as (st'' & E2 & I2 & R2).
    + rewrite <- app_assoc. auto.
    + unfold allE at 1. rewrite flat_map_app. cbn [flat_map]. rewrite app_nil_r. exact I1.
    + exists st''. split; auto. split; auto. rewrite R2. cbn [ran]. rewrite R1, <- app_assoc. auto.
Qed.
End Values.
