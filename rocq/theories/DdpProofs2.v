(** Data-parallel training equals training in one process: one iteration, the
    initial broadcast, whole runs. *)
From Coq Require Import ZArith List Arith Bool Lia Reals Lra Permutation FunctionalExtensionality.
From Verif Require Import OptimModel OptimSpec OptimProofs OptimProofs2 ReducerModel ReducerSpec ReducerProofs ReducerProps DdpModel DdpSpec DdpProofs.
Import ListNotations.
Open Scope nat_scope.

Lemma mapOpt_ok : forall A B (f : A -> option B) (P : B -> Prop) l, (forall x, In x l -> exists y, f x = Some y /\ P y) ->
  exists ys, mapOpt f l = Some ys /\ length ys = length l /\ forall y, In y ys -> P y.
Proof.
  intros A B f P l. induction l as [|x l IH]; intros H; [exists []; split; [reflexivity|split; [reflexivity|intros y []]]|].
  destruct (H x (or_introl eq_refl)) as (y & E & Hy). destruct IH as (ys & Es & L & Q); [intros z Hz; apply H; right; exact Hz|].
  exists (y :: ys). cbn. rewrite E, Es. split; [reflexivity|]. split; [lia|]. intros z [<-|Hz]; [exact Hy|exact (Q z Hz)].
Qed.
Lemma in_combine3 : forall A B C (f : A -> B) (w : list A) (rs : list C) x r y, In (x, (r, y)) (combine (map f w) (combine rs w)) ->
  x = f y /\ In (x, r) (combine (map f w) rs) /\ In y w /\ In r rs.
Proof.
  intros A B C f w. induction w as [|z w IH]; intros [|c rs] x r y H; cbn in H; try contradiction.
  destruct H as [H|H]; [injection H as <- <- <-; cbn; auto|]. destruct (IH _ _ _ _ H) as (E & I & J & K). cbn. auto.
Qed.
Lemma tiled_of : forall e cap ps bs, buildBuckets e cap ps = Some bs -> Forall tiled bs.
Proof.
  intros e cap ps bs H. destruct (build_ok _ _ _ _ H) as (_ & W & _). apply Forall_forall. intros b Hb. rewrite Forall_forall in W.
  destruct (W b Hb) as (_ & S & T & _). split; [exact T|]. rewrite S. apply map_length.
Qed.
Lemma size_of : forall e cap ps bs b p bk q, buildBuckets e cap ps = Some bs -> nth_error bs b = Some bk -> nth_error (bparams bk) p = Some q ->
  psize bs b p = pnumel q.
Proof.
  intros e cap ps bs b p bk q H Hb Hq. destruct (build_ok _ _ _ _ H) as (_ & W & _). rewrite Forall_forall in W.
  destruct (W bk (nth_error_In _ _ Hb)) as (_ & S & _). unfold psize. rewrite Hb, S. apply nth_error_nth. rewrite nth_error_map, Hq. reflexivity.
Qed.
Lemma in_elements : forall bs b p, Forall tiled bs -> In (b, p) (places bs) -> forall i, In i (elements bs (b, p)) -> i < nelems bs.
Proof.
  intros bs b p T H i Hi. assert (In i (seq 0 (nelems bs))) as K by (rewrite <- (elements_places bs T); apply in_flat_map; exists (b, p); auto). apply in_seq in K. lia.
Qed.
Lemma nth_map' : forall A B (f : A -> B) l k d d', k < length l -> nth k (map f l) d = f (nth k l d').
Proof. intros A B f l. induction l as [|x l IH]; intros [|k] d d' H; cbn in *; try lia; [reflexivity|apply IH; lia]. Qed.
Lemma sum_shift : forall A (f : A -> R) c l, fold_right Rplus 0%R (map (fun x => c + f x)%R l) = (INR (length l) * c + fold_right Rplus 0 (map f l))%R.
Proof. intros A f c l. induction l as [|x l IH]; [cbn; ring|]. cbn [map fold_right length]. rewrite IH, S_INR. ring. Qed.

Section Iter.
Variables (e cap : Z) (ps : list param) (bs : list bucket) (a : algo) (lr0 : R) (th : nat -> R) (w : nat).
Hypothesis HB : buildBuckets e cap ps = Some bs.
Hypothesis HP : forall q, In q ps -> 0 < pnumel q.
Hypothesis HW : 0 < w.
Let n := nelems bs.
Definition pre (it : iter) : list event :=
  (match irate it with Some x => [ELr x] | None => [] end) ++ (if izero it then [EZero] else []).
Definition meanEvents (it : iter) (es : list event) : list event :=
  map (fun i => EGrad i (meanGrad it (map (theta (train n a lr0 th es)) (seq 0 n)) i)) (seq 0 n).
Lemma fold_grads : forall (g : nat -> R) l st, fold_left (fun st i => addGrad i (g i) st) l st = fold_left (handle n a) (map (fun i => EGrad i (g i)) l) st.
Proof. intros g l. induction l as [|i l IH]; intros st; [reflexivity|]. cbn [fold_left map handle]. apply IH. Qed.
Lemma before_events : forall it l thr er, let st := train n a lr0 thr er in
  before bs it l st = train n a lr0 thr ((er ++ pre it) ++ map (fun i => EGrad i (lgrad l (values n st) i)) (flat_map (elements bs) (lorder l))).
Proof.
  intros it l thr er st. unfold before, deliver, pre. fold n. rewrite !train_app, fold_grads. fold st. destruct (irate it), (izero it); reflexivity.
Qed.
Definition inv (es : list event) (sts : list ost) : Prop :=
  length sts = w /\ forall st, In st sts -> exists thr er, st = train n a lr0 thr er /\ (forall i, i < n -> thr i = th i) /\ forall i, i < n -> sim n a lr0 i er es.
Lemma pre_filter : forall it i, filter (concerns i) (pre it) = pre it.
Proof. intros it i. unfold pre. destruct (irate it), (izero it); reflexivity. Qed.
Definition prior (it : iter) (es : list event) (i : nat) : R := match gradientOf n i (es ++ pre it) with Some x => x | None => 0%R end.

Lemma delivered : forall it l thr er es, complete bs (lorder l) -> (forall i, i < n -> thr i = th i) -> (forall i, i < n -> sim n a lr0 i er es) ->
  let st := before bs it l (train n a lr0 thr er) in
  wf st /\ values n (train n a lr0 thr er) = map (theta (train n a lr0 th es)) (seq 0 n) /\
  forall i, i < n -> gradH st i <> None /\ gradOf st i = (prior it es i + lgrad l (map (theta (train n a lr0 th es)) (seq 0 n)) i)%R.
Proof.
  intros it l thr er es C Ht S st.
  assert (V : values n (train n a lr0 thr er) = map (theta (train n a lr0 th es)) (seq 0 n)).
  { unfold values. apply map_ext_in. intros i Hi. apply in_seq in Hi. apply sim_theta; [apply S; lia|lia|apply Ht; lia]. }
  unfold st. rewrite before_events. rewrite V. set (g := lgrad l _) in *.
  pose proof (slots_inv n a lr0 thr ((er ++ pre it) ++ map (fun i => EGrad i (g i)) (flat_map (elements bs) (lorder l)))) as (W & G & _).
  split; [exact W|]. split; [reflexivity|]. intros i Hi.
  pose proof (complete_elements bs (lorder l) (tiled_of _ _ _ _ HB) C) as Pm.
  assert (E : gradientOf n i ((er ++ pre it) ++ map (fun i => EGrad i (g i)) (flat_map (elements bs) (lorder l))) = Some (prior it es i + g i)%R).
  { rewrite <- gradientOf_filter, filter_app, filter_grads.
    - unfold gradientOf. rewrite fold_left_app. change (fold_left (gacc1 n i) (filter (concerns i) (er ++ pre it)) None) with (gradientOf n i (filter (concerns i) (er ++ pre it))).
      rewrite gradientOf_filter. cbn [fold_left gacc1]. rewrite Nat.eqb_refl. f_equal.
      unfold prior. rewrite <- (sim_grad n a lr0 i (er ++ pre it) (es ++ pre it)); [destruct (gradientOf n i (er ++ pre it)); ring|].
      apply sim_app; [apply S; exact Hi|reflexivity].
    - eapply Permutation_NoDup; [apply Permutation_sym; exact Pm|apply seq_NoDup].
    - eapply Permutation_in; [apply Permutation_sym; exact Pm|apply in_seq; fold n; lia]. }
  rewrite <- G in E. rewrite gradOf_option, E. split; [|reflexivity]. intros N. rewrite N in E. discriminate.
Qed.

Lemma iter_ok : forall it es sts, regular bs w it -> inv es sts ->
  exists sts', ddpIter bs a it sts = Some sts' /\ inv (es ++ pre it ++ meanEvents it es ++ [EStep]) sts'.
Proof.
  intros it es sts (Lw & c & Hc) (Ls & Hs). unfold ddpIter. fold n.
  set (work := map (fun ls : local * ost => (fst ls, before bs it (fst ls) (snd ls))) (combine (ilocal it) sts)).
  assert (Ew : map fst work = ilocal it).
  { unfold work. rewrite map_map. cbn [fst]. clear -Lw Ls. revert sts w Lw Ls. induction (ilocal it) as [|x l IH]; intros [|s sts] w0 L1 L2; cbn in *; try lia; [reflexivity|].
    f_equal. apply (IH sts (pred w0)); lia. }
  assert (Lk : length work = w) by (rewrite <- (map_length fst), Ew; exact Lw).
  set (V := map (theta (train n a lr0 th es)) (seq 0 n)).
  assert (Hw : forall l s, In (l, s) work -> In l (ilocal it) /\ exists thr er, s = before bs it l (train n a lr0 thr er) /\
             (forall i, i < n -> thr i = th i) /\ (forall i, i < n -> sim n a lr0 i er es)).
  { intros l s H. unfold work in H. apply in_map_iff in H. destruct H as ((l', s') & E & H). cbn [fst snd] in E. injection E as <- <-.
    split; [eapply in_combine_l; exact H|]. destruct (Hs s' (in_combine_r _ _ _ _ H)) as (thr & er & -> & A & B). exists thr, er. auto. }
  assert (Hg : forall l s, In (l, s) work -> wf s /\ forall i, i < n -> gradH s i <> None /\ gradOf s i = (prior it es i + lgrad l V i)%R).
  { intros l s H. destruct (Hw l s H) as (Hl & thr & er & -> & A & B). destruct (delivered it l thr er es (proj1 (Hc l Hl)) A B) as (W & _ & G). split; [exact W|exact G]. }
  set (ins := map (fun ls : local * ost => hookInput bs (fst ls) (snd ls)) work).
  pose proof (tiled_of _ _ _ _ HB) as T.
  assert (Li : length ins = w) by (unfold ins; rewrite map_length; exact Lk).
  destruct (ddp_average_partial e cap ps bs ins c HB HP) as (rs & Ep & Lr & Iss & Av).
  { intros E. rewrite E in Li. cbn in Li. lia. }
  { intros i Hi. unfold ins in Hi. apply in_map_iff in Hi. destruct Hi as ((l, s) & <- & Hi). cbn [fst snd].
    destruct (Hw l s Hi) as (Hl & _). destruct (Hc l Hl) as (C1 & C2 & C3). cbn [hookInput order]. split; [|auto].
    unfold fits. cbn [stale grad hookInput]. split; [rewrite <- (map_length (@length R)), C3; apply map_length|].
    intros b bk Hb. split.
    - transitivity (nth b (map (@length R) (lstale l)) (@length R [])); [symmetry; apply (map_nth (@length R))|]. rewrite C3. apply nth_error_nth. rewrite nth_error_map, Hb. reflexivity.
    - intros p q Hq. unfold elements. rewrite !map_length, seq_length. cbn [fst snd]. eapply size_of; eauto. }
  rewrite Ep.
  assert (Avg : forall i, i < n -> (fold_right Rplus 0 (map (fun ls => gradOf (snd ls) i) work) / INR w)%R = (prior it es i + meanGrad it V i)%R).
  { intros i Hi. replace (map (fun ls : local * ost => gradOf (snd ls) i) work) with (map (fun l => prior it es i + lgrad l V i)%R (ilocal it)).
    - rewrite sum_shift, Lw. unfold meanGrad. rewrite Lw. assert (INR w <> 0)%R by (apply not_0_INR; lia). field. exact H.
    - rewrite <- Ew, map_map. apply map_ext_in. intros (l, s) H. cbn [fst snd]. symmetry. apply (Hg l s H). exact Hi. }
  destruct (mapOpt_ok _ _ (fun x : input * (rank * (local * ost)) => let '(i, (r, ls)) := x in option_map (optStep n a) (copyBack bs rs r (grad i) (snd ls)))
    (fun st => exists thr er, st = train n a lr0 thr er /\ (forall i, i < n -> thr i = th i) /\ forall i, i < n -> sim n a lr0 i er (es ++ pre it ++ meanEvents it es ++ [EStep]))
    (combine ins (combine rs work))) as (sts' & Es & L' & Q).
  - intros (inp, (r, (l, s))) H. destruct (in_combine3 _ _ _ _ _ _ _ _ _ H) as (-> & Hr & Hl & Hr'). cbn [fst snd]. cbn [fst snd] in Hr.
    destruct (Hg l s Hl) as (W & G).
    set (M := fun i => (prior it es i + meanGrad it V i)%R).
    assert (Ga : forall b p, In (b, p) (places bs) -> gradAfter bs rs r (grad (hookInput bs l s)) b p = Some (map M (elements bs (b, p)))).
    { intros b p Hbp. pose proof Hbp as Hbp'. apply in_places in Hbp'. destruct Hbp' as (bk & Hb & Hp). destruct (nth_error (bparams bk) p) as [q|] eqn:Eq; [|apply nth_error_None in Eq; lia].
      destruct (Av _ _ Hr b p bk q Hb Eq) as (v & -> & Lv & Hv). f_equal.
      pose proof (size_of _ _ _ _ _ _ _ _ HB Hb Eq) as Sz.
      apply (nth_ext _ _ 0%R 0%R); [unfold elements; cbn [fst snd]; rewrite !map_length, seq_length, Sz; exact Lv|].
      intros k Hk. rewrite Lv in Hk. rewrite (Hv k Hk). unfold mean. rewrite Li.
      assert (Le : k < length (elements bs (b, p))) by (unfold elements; cbn [fst snd]; rewrite map_length, seq_length, Sz; exact Hk).
      rewrite (nth_map' _ _ M (elements bs (b, p)) k 0%R 0 Le). unfold M. rewrite <- Avg; [|eapply in_elements; [exact T|exact Hbp|apply nth_In; exact Le]].
      unfold ins. rewrite map_map. f_equal. f_equal. apply map_ext. intros (l', s'). cbn [fst snd hookInput grad]. apply nth_map'. exact Le. }
    unfold copyBack. assert (length (issued r) <? length bs = false) as ->.
    { apply Nat.ltb_ge. rewrite <- (map_length fst). rewrite (Permutation_length (Iss r Hr')), seq_length. lia. }
    rewrite (copyToGrads_all bs rs r (grad (hookInput bs l s)) M (places bs) s Ga), (elements_places bs T). fold n.
    rewrite (writes_as_events n a); [|exact W|rewrite map_map; cbn [fst]; rewrite map_id; apply seq_NoDup|intros i Hi; rewrite map_map in Hi; cbn [fst] in Hi; rewrite map_id in Hi; apply in_seq in Hi; apply G; lia].
    cbn [option_map]. eexists. split; [reflexivity|]. destruct (Hw l s Hl) as (Hl' & thr & er & Es & A & B).
    destruct (delivered it l thr er es (proj1 (Hc l Hl')) A B) as (_ & Ev & _). fold V in Ev.
    exists thr, ((((er ++ pre it) ++ map (fun i => EGrad i (lgrad l V i)) (flat_map (elements bs) (lorder l)))
      ++ map (fun x => EGrad (fst x) (snd x - gradOf s (fst x))%R) (map (fun i => (i, M i)) (seq 0 n))) ++ [EStep]).
    split; [|split; [exact A|]].
    + rewrite train_app. cbn [fold_left handle]. f_equal. rewrite train_app. f_equal. rewrite Es. etransitivity; [apply before_events|]. cbv zeta. rewrite Ev. reflexivity.
    + intros i Hi. rewrite map_map. cbn [fst snd]. rewrite <- !app_assoc. apply sim_app; [apply B; exact Hi|]. intros st0.
      rewrite !filter_app, !fold_left_app, pre_filter. cbn [filter concerns fold_left handle]. f_equal. set (s0 := fold_left (handle n a) (pre it) st0).
      pose proof (complete_elements bs (lorder l) T (proj1 (Hc l Hl'))) as Pm. fold n in Pm.
      rewrite (filter_grads (fun j => lgrad l V j) (flat_map (elements bs) (lorder l))); [|eapply Permutation_NoDup; [apply Permutation_sym; exact Pm|apply seq_NoDup]|eapply Permutation_in; [apply Permutation_sym; exact Pm|apply in_seq; lia]].
      rewrite (filter_grads (fun j => M j - gradOf s j)%R); [|apply seq_NoDup|apply in_seq; lia].
      unfold meanEvents. rewrite filter_grads; [|apply seq_NoDup|apply in_seq; lia]. cbn [fold_left handle]. rewrite add_twice. f_equal.
      rewrite (proj2 (G i Hi)). unfold M. fold V. ring.
  - exists sts'. split; [exact Es|]. split; [|exact Q]. rewrite L', !combine_length, Li, Lr, Li, Lk. lia.
Qed.

Lemma run_ok : forall its es sts, Forall (regular bs w) its -> inv es sts ->
  exists sts', ddpRun bs a its sts = Some sts' /\ inv (script n a lr0 th its es) sts'.
Proof.
  induction its as [|it its IH]; intros es sts H I; [exists sts; auto|]. inversion H as [|x y H1 H2]; subst.
  destruct (iter_ok it es sts H1 I) as (sts1 & E & I1). cbn [ddpRun script]. rewrite E. unfold pre, meanEvents in I1. rewrite <- app_assoc in I1.
  exact (IH _ _ H2 I1).
Qed.
End Iter.

(** * The initial broadcast *)
Lemma putAll_map : forall f l th, NoDup l -> forall i, putAll th (map (fun j => (j, f j)) l) i = if existsb (Nat.eqb i) l then f i else th i.
Proof.
  intros f l. induction l as [|j l IH]; intros th N i; [reflexivity|]. inversion N as [|j' l' Hj N']; subst. cbn [map putAll fold_left fst snd]. fold (putAll (set th j (f j)) (map (fun j => (j, f j)) l)).
  rewrite IH by exact N'. cbn [existsb]. destruct (Nat.eqb_spec i j) as [->|Ne]; cbn [orb].
  - destruct (existsb (Nat.eqb j) l); [reflexivity|apply set_same].
  - destruct (existsb (Nat.eqb i) l); [reflexivity|apply set_other; exact Ne].
Qed.
Lemma putAll_app : forall l l' th, putAll th (l ++ l') = putAll (putAll th l) l'.
Proof. intros. unfold putAll. apply fold_left_app. Qed.
Lemma copyToParams_all : forall bs root me f l th, (forall b p, In (b, p) l -> broadcastParam bs root me b p = Some (map f (elements bs (b, p)))) ->
  copyToParams bs root me l th = Some (putAll th (map (fun j => (j, f j)) (flat_map (elements bs) l))).
Proof.
  intros bs root me f l. induction l as [|(b, p) l IH]; intros th H; [reflexivity|]. cbn [copyToParams flat_map].
  rewrite (H b p (or_introl eq_refl)), combine_map_self, IH by (intros b' p' Hl; apply H; right; exact Hl). rewrite map_app, putAll_app. reflexivity.
Qed.
Lemma param_fits : forall e cap ps bs th j, buildBuckets e cap ps = Some bs -> map (@length R) j = map btotal bs -> fits bs (paramInput bs th j).
Proof.
  intros e cap ps bs th j HB C. unfold fits. cbn [stale grad paramInput]. split; [rewrite <- (map_length (@length R)), C; apply map_length|].
  intros b bk Hb. split.
  - transitivity (nth b (map (@length R) j) (@length R [])); [symmetry; apply (map_nth (@length R))|]. rewrite C. apply nth_error_nth. rewrite nth_error_map, Hb. reflexivity.
  - intros p q Hq. unfold elements. rewrite !map_length, seq_length. cbn [fst snd]. eapply size_of; eauto.
Qed.
Lemma start_ok : forall e cap ps bs th0 j0 th j, buildBuckets e cap ps = Some bs -> (forall q, In q ps -> 0 < pnumel q) ->
  map (@length R) j0 = map btotal bs -> map (@length R) j = map btotal bs ->
  exists th', copyToParams bs (paramInput bs th0 j0) (paramInput bs th j) (places bs) th = Some th' /\ forall i, i < nelems bs -> th' i = th0 i.
Proof.
  intros e cap ps bs th0 j0 th j HB HP C0 C. rewrite (copyToParams_all bs _ _ th0).
  - eexists. split; [reflexivity|]. intros i Hi. rewrite (elements_places bs (tiled_of _ _ _ _ HB)), putAll_map by apply seq_NoDup.
    rewrite existsb_seq. rewrite (proj2 (Nat.ltb_lt _ _) Hi). reflexivity.
  - intros b p H. apply in_places in H. destruct H as (bk & Hb & Hp).
    rewrite (broadcast_parameters_partial e cap ps bs _ _ HB HP (param_fits _ _ _ _ th0 j0 HB C0) (param_fits _ _ _ _ th j HB C) b p bk Hb Hp). reflexivity.
Qed.

Lemma train_ok : forall e cap ps bs a lr0 root ini its th0 j0,
  buildBuckets e cap ps = Some bs -> (forall q, In q ps -> 0 < pnumel q) ->
  nth_error ini root = Some (th0, j0) -> (forall x, In x ini -> map (@length R) (snd x) = map btotal bs) ->
  Forall (regular bs (length ini)) its ->
  exists sts, ddpTrain bs a lr0 root ini its = Some sts /\ length sts = length ini /\
    forall st, In st sts -> forall i, i < nelems bs ->
      theta st i = theta (singleProcess (nelems bs) a lr0 th0 its) i /\
      option_map (heap st) (gradH st i) = gradientOf (nelems bs) i (script (nelems bs) a lr0 th0 its []).
Proof.
  intros e cap ps bs a lr0 root ini its th0 j0 HB HP HR HJ HI. unfold ddpTrain. rewrite HR.
  assert (HW : 0 < length ini) by (assert (root < length ini) by (apply nth_error_Some; congruence); lia).
  destruct (mapOpt_ok _ _ (fun x : (nat -> R) * list (list R) => copyToParams bs (paramInput bs th0 j0) (paramInput bs (fst x) (snd x)) (places bs) (fst x))
    (fun th => forall i, i < nelems bs -> th i = th0 i) ini) as (ths & E & L & Q).
  { intros x Hx. apply (start_ok e cap ps); auto. apply (HJ (th0, j0)). eapply nth_error_In. exact HR. }
  rewrite E. destruct (run_ok e cap ps bs a lr0 th0 (length ini) HB HP HW its [] (map (initSt a lr0) ths) HI) as (sts & Er & Ls & Hs).
  - split; [rewrite map_length; exact L|]. intros st Hst. apply in_map_iff in Hst. destruct Hst as (th & <- & Hth).
    exists th, []. split; [reflexivity|]. split; [exact (Q th Hth)|]. intros i _ th'. reflexivity.
  - exists sts. split; [exact Er|]. split; [exact Ls|]. intros st Hst i Hi. destruct (Hs st Hst) as (thr & er & -> & A & B). split.
    + apply sim_theta; [apply B; exact Hi|exact Hi|apply A; exact Hi].
    + rewrite <- (sim_grad _ a lr0 i er _ (B i Hi)). apply (proj1 (proj2 (slots_inv (nelems bs) a lr0 thr er)) i).
Qed.
