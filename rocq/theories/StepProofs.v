(** One step of gradient descent. *)
From Coq Require Import ZArith List Bool Arith Lia Reals Lra FunctionalExtensionality.
From Verif Require Import ShapeModel ShapeSpec ShapeProofs TensorModel TensorSpec TensorLemmas BcastModel BcastSpec BcastProofs BcastProofs2 BufModel CutModel ReduceModel GradModel GradProofs AutogradModel AutogradSpec AutogradProofs AutogradProofs2 AutogradProps
  NetModel NetSpec NetProofs NetProofs2 NetLaw NetOps3 NetOps4 NetProofs3 NetProofs4 NetProofs5 NetProofs6 NetProofs7 StepModel StepSpec.
Import ListNotations.
Local Notation Rsum := (sum (K := Rring)).
Local Open Scope nat_scope.

Section All.
Variables (lo M : R) (p : list stmt) (ts : list kind).
Hypothesis HM : (0 <= M)%R.
Hypothesis HT : typed p [] ts.
Variable r : nat.
Hypothesis ER : nth_error ts r = Some ([], true).
Hypothesis NL : nll_last p r.
Hypothesis SO : sums_once p.
Variables (theta : R -> nat -> list R) (x0 : R) (dl : nat -> tens).
Hypothesis HF : forall x, filled p (theta x).
Hypothesis HL : forall l sh r, nth_error p l = Some (SLeaf sh r) -> forall i, valid sh i -> derivable_pt_lim (fun x => canon sh (theta x l) i) x0 (dl l i).
Hypothesis HZ : forall l sh, nth_error p l = Some (SLeaf sh false) -> forall i, valid sh i -> dl l i = 0%R.
Local Notation st := (outcome lo M p (theta x0)).
Hypothesis HS : smooth p st.
Local Notation shp := (shp ts).
Local Notation val := (val lo M p ts).
Local Notation seed := (GTensor (mkT [] [1%R])).
(** All leaves may move. *)
Lemma back_all : exists b, backwardFrom st r = Some b
  /\ derivable_pt_lim (fun x => val (theta x) r []) x0 (Rsum (fun l => match nth_error p l with Some (SLeaf sh _) => pair sh (gradOfTensor b l) (dl l) | _ => 0%R end) (seq 0 (length p))).
Proof.
  destruct (slopes lo M p ts HM HT theta x0 dl HF HL HZ HS) as (D & HD). destruct (graph_of lo M p ts HM HT r ER NL theta x0 dl HF HL HZ D HD) as (g & LG & DG & BG).
  assert (HZ' : forall i sh, nth_error ts i = Some (sh, false) -> forall j, valid sh j -> D i j = 0%R).
  { intros i sh E. assert (i < length p) by (rewrite <- (ts_length p ts HT); apply nth_error_Some; congruence). destruct (HD i H) as (_ & _ & R3). apply R3. auto. }
  assert (AC : acyclic g) by (eapply g_acyclic; eauto). assert (LR : linear_rules g) by (eapply g_linear; eauto).
  assert (Hrp : r < length p). { rewrite <- (ts_length p ts HT). apply nth_error_Some. congruence. }
  assert (ESH : shp r = []) by (unfold NetProofs4.shp; rewrite ER; auto).
  destruct (leaf_gradients_partial g (State [seed : Tg] (fun _ => None) []) r 0) as (b & B1 & B2 & B3); [exact AC|exact LR|lia|intros n x H; discriminate|cbn; lia|discriminate|auto|intros v ds _ _; auto|eapply g_safe; eauto|].
  exists b. split.
  { unfold backwardFrom. destruct (node_fits lo M p ts HM HT (theta x0) (HF x0) r _ ER) as ([v rq fnn] & N1 & (F1 & F2 & F3) & _). rewrite N1. cbn in F1, F3. rewrite F3, F1. cbn [length Nat.eqb]. rewrite <- BG by auto. exact B1. }
  assert (GT : forall v, gradOfTensor b v = total g r v (seed : Tg)).
  { intros v. specialize (B2 v). cbn [heap nth] in B2. change (gradient (State [seed : Tg] (fun _ => None) []) v) with (GNone : Tg) in B2. change (gadd (GNone : Tg) ?x) with x in B2. rewrite <- B2. reflexivity. }
  assert (HSd : good (shp r) (seed : Tg)). { rewrite ESH. right. exists (fun _ => 1%R). reflexivity. }
  assert (HG := g_good M p ts (val (theta x0)) D dl g LG DG). assert (HP := g_pair M p ts (val (theta x0)) D dl g LG DG HZ').
  assert (Hr : r < length g) by (rewrite LG; auto).
  assert (E : pair (shp r) (seed : Tg) (D r) = Rsum (fun l => match nth_error p l with Some (SLeaf sh _) => pair sh (gradOfTensor b l) (dl l) | _ => 0%R end) (seq 0 (length p))).
  { etransitivity; [eapply (leaves_pair g AC LR shp D); eauto|]. rewrite LG. apply (sum_ext (K := Rring)). intros v Hv. apply in_seq in Hv.
    destruct (nth_error p v) as [s|] eqn:Es; [|apply nth_error_None in Es; lia]. pose proof (DG v s Es) as Dv. pose proof (kind_of p ts HT v s Es) as Kv. destruct s as [sh rq|op xs]; cbn [described kind_at] in Dv, Kv.
    - destruct Dv as [-> Dv]. unfold P. rewrite <- GT. unfold NetProofs4.shp. rewrite Kv, Dv. auto.
    - destruct Dv as (sel & sh' & grads & dot & h & _ & _ & P3 & _ & _ & P6 & _). rewrite P6. destruct (existsb snd sel); auto.
      unfold P. apply pair_zero. intros i Vi. apply (HZ' v sh'); auto. unfold NetProofs4.shp in Vi. rewrite P3 in Vi. auto. }
  rewrite <- E. replace (pair (shp r) (seed : Tg) (D r)) with (D r []).
  - apply (proj1 (HD r Hrp)). rewrite ESH. constructor.
  - rewrite ESH. unfold pair, elt. change (indices []) with [@nil nat]. rewrite (sum_cons (K := Rring)), (sum_nil (K := Rring)). cbn [tdata]. change (nth (ravel [] []) [1%R] 0%R) with 1%R. rg.
Qed.
End All.

Lemma rsum_le0 : forall {I} (f : I -> R) l, (forall i, In i l -> (f i <= 0)%R) -> (Rsum f l <= 0)%R.
Proof. intros I f l H. induction l as [|i l IH]; [apply Rle_refl|]. rewrite (sum_cons (K := Rring)). change (f i + Rsum f l <= 0)%R. assert (f i <= 0)%R by (apply H; left; auto). assert (Rsum f l <= 0)%R by (apply IH; intros; apply H; right; auto). lra. Qed.
Lemma rsum_lt0 : forall {I} (f : I -> R) l i, (forall i, In i l -> (f i <= 0)%R) -> In i l -> (f i < 0)%R -> (Rsum f l < 0)%R.
Proof.
  intros I f l. induction l as [|k l IH]; intros i H Hi Hf; [destruct Hi|]. rewrite (sum_cons (K := Rring)). change (f k + Rsum f l < 0)%R.
  assert (f k <= 0)%R by (apply H; left; auto). assert (HL : forall i, In i l -> (f i <= 0)%R) by (intros; apply H; right; auto). pose proof (rsum_le0 f l HL).
  destruct Hi as [->|Hi]; [lra|]. pose proof (IH i HL Hi Hf). lra.
Qed.
Lemma descends : forall f d, derivable_pt_lim f 0 d -> (d < 0)%R -> exists bound, (0 < bound)%R /\ forall x, (0 < x < bound)%R -> (f x < f 0)%R.
Proof.
  intros f d H Hd. destruct (H (- d)%R) as (delta & HD); [lra|]. exists delta. split; [apply cond_pos|]. intros x [X1 X2].
  specialize (HD x). rewrite Rplus_0_l in HD. assert (Q : (Rabs ((f x - f 0) / x - d) < - d)%R) by (apply HD; [lra|rewrite Rabs_right; lra]).
  apply Rabs_def2 in Q. destruct Q as [Q _]. assert (N : ((f x - f 0) / x < 0)%R) by lra.
  assert (E : (f x - f 0 = (f x - f 0) / x * x)%R) by (field; lra). assert ((f x - f 0) / x * x < 0 * x)%R by (apply Rmult_lt_compat_r; auto). lra.
Qed.
Lemma minus_length : forall lr d g, length g = length d -> length (minusScaled lr d g) = length d.
Proof. intros lr. induction d as [|x d IH]; intros [|y g] H; cbn in *; auto; discriminate. Qed.
Lemma minus_nth : forall lr d g n, length g = length d -> nth n (minusScaled lr d g) 0%R = (nth n d 0 - lr * nth n g 0)%R.
Proof. intros lr. induction d as [|x d IH]; intros [|y g] n H; cbn in H; try discriminate; [destruct n; cbn; lra|]. destruct n as [|n]; cbn [minusScaled nth]; auto. Qed.
Lemma minus_zero : forall lr d g, length g = length d -> (forall n, n < length d -> nth n g 0%R = 0%R) -> minusScaled lr d g = d.
Proof.
  intros lr d g L H. apply (nth_ext _ _ 0%R 0%R); [apply minus_length; auto|]. intros n Hn. rewrite minus_length in Hn by auto. rewrite minus_nth by auto. rewrite H by auto. lra.
Qed.

Section Step.
Variables (lo M : R) (p : list stmt) (ts : list kind) (theta : nat -> list R) (r : nat).
Hypothesis HM : (0 <= M)%R.
Hypothesis HT : typed p [] ts.
Hypothesis HF : filled p theta.
Hypothesis ER : nth_error ts r = Some ([], true).
Hypothesis NL : nll_last p r.
Hypothesis SO : sums_once p.
Lemma step_ok : smooth p (outcome lo M p theta) -> exists b, backwardFrom (outcome lo M p theta) r = Some b
  /\ (forall lr, filled p (sgdStep lr p b theta))
  /\ (~ has_slope p b -> forall lr l, sgdStep lr p b theta l = theta l)
  /\ (has_slope p b -> exists bound, (0 < bound)%R /\ forall lr, (0 < lr < bound)%R -> (result (run lo M (sgdStep lr p b theta) p) r < result (run lo M theta p) r)%R).
Proof.
  intros HS. destruct (main lo M p ts theta r HM HT HF ER NL SO HS) as (b & B1 & B2 & B3). exists b. split; auto.
  assert (FI : forall lr, filled p (sgdStep lr p b theta)).
  { intros lr l sh rq E. unfold sgdStep. rewrite E. pose proof (HF l sh rq E) as LL. destruct rq; auto. destruct (B3 l sh E) as [[-> |(d & -> & L)] _]; auto. cbn [sgdParam tdata]. rewrite minus_length; congruence. }
  split; auto. split.
  - intros N lr l. unfold sgdStep. destruct (nth_error p l) as [[sh [|]|op xs]|] eqn:E; auto. pose proof (HF l sh _ E) as LL. destruct (B3 l sh E) as [[EG|(d & EG & L)] _]; rewrite EG; auto. cbn [sgdParam tdata].
    apply minus_zero; [congruence|]. intros n Hn. destruct (Req_dec (nth n d 0%R) 0%R) as [|Q]; auto. exfalso. apply N. exists l, sh, n. split; auto. split; [congruence|]. rewrite EG. exact Q.
  - intros (l & sh & j & E & Hj & Q).
    assert (E0 : sgdStep 0 p b theta = theta).
    { apply functional_extensionality. intros l'. unfold sgdStep. destruct (nth_error p l') as [[sh' [|]|op xs]|] eqn:E'; auto. pose proof (HF l' sh' _ E') as LL. destruct (B3 l' sh' E') as [[-> |(d & -> & L)] _]; auto. cbn [sgdParam tdata].
      apply (nth_ext _ _ 0%R 0%R); [apply minus_length; congruence|]. intros n _. rewrite minus_nth by congruence. lra. }
    set (dl := fun l i => (- match nth_error p l with Some (SLeaf sh true) => elt sh (gradOfTensor b l) i | _ => 0 end)%R).
    destruct (back_all lo M p ts HM HT r ER NL SO (fun lr => sgdStep lr p b theta) 0%R dl) as (b' & B1' & BD); auto.
    { intros l' sh' rq E' i V. unfold dl. rewrite E'. destruct rq.
      - destruct (B3 l' sh' E') as [[EG|(d & EG & L)] _]; rewrite EG.
        + apply (dlim_ext _ (fun _ => canon sh' (theta l') i)); [intros x; unfold sgdStep; rewrite E', EG; auto|]. cbn [elt]. rewrite Ropp_0. apply derivable_pt_lim_const.
        + apply (dlim_ext _ (fun x => canon sh' (theta l') i - x * nth (ravel sh' i) d 0)%R).
          * intros x. unfold sgdStep, canon. rewrite E', EG. cbn [sgdParam tdata]. rewrite minus_nth; auto. pose proof (HF l' sh' _ E'). congruence.
          * cbn [elt tdata]. replace (- nth (ravel sh' i) d 0)%R with (0 - nth (ravel sh' i) d 0)%R by lra. apply (derivable_pt_lim_minus (fct_cte (canon sh' (theta l') i)) (fun x => x * nth (ravel sh' i) d 0)%R); [apply derivable_pt_lim_const|].
            pose proof (derivable_pt_lim_scal id (nth (ravel sh' i) d 0%R) 0 1 (derivable_pt_lim_id 0)) as DS. rewrite Rmult_1_r in DS. eapply dlim_ext; [|exact DS]. intros x. unfold mult_real_fct, id. apply Rmult_comm.
      - apply (dlim_ext _ (fun _ => canon sh' (theta l') i)); [intros x; unfold sgdStep; rewrite E'; auto|]. rewrite Ropp_0. apply derivable_pt_lim_const. }
    { intros l' sh' E' i V. unfold dl. rewrite E'. apply Ropp_0. }
    { rewrite E0. auto. }
    rewrite E0 in B1'. rewrite B1 in B1'. injection B1' as <-.
    match type of BD with derivable_pt_lim _ _ ?d => assert (HD : (d < 0)%R) end.
    { assert (Hl : l < length p) by (apply nth_error_Some; congruence).
      assert (NP : forall l' sh', (pair sh' (gradOfTensor b l') (fun i => - elt sh' (gradOfTensor b l') i) <= 0)%R).
      { intros l' sh'. apply rsum_le0. intros i _. pose proof (Rle_0_sqr (elt sh' (gradOfTensor b l') i)) as S. unfold Rsqr in S. lra. }
      apply (rsum_lt0 _ _ l).
      - intros l' _. destruct (nth_error p l') as [[sh' rq|op xs]|] eqn:E'; try apply Rle_refl. unfold dl. rewrite E'. destruct rq; [apply NP|]. rewrite pair_zero; [apply Rle_refl|]. intros; lra.
      - apply in_seq. lia.
      - rewrite E. unfold dl. rewrite E. apply (rsum_lt0 _ _ (offsetToIndices sh j)).
        + intros i _. pose proof (Rle_0_sqr (elt sh (gradOfTensor b l) i)) as S. unfold Rsqr in S. lra.
        + apply indices_in. apply o2i_valid. auto.
        + assert (EE : elt sh (gradOfTensor b l) (offsetToIndices sh j) = grad_at (gradOfTensor b l) j) by (unfold elt, grad_at; destruct (gradOfTensor b l); auto; rewrite ravel_o2i; auto).
          rewrite EE. pose proof (Rlt_0_sqr _ Q) as S. unfold Rsqr in S. lra. }
    destruct (descends _ _ BD HD) as (bound & H1 & H2). exists bound. split; auto. intros lr Hlr. specialize (H2 lr Hlr). cbv beta in H2. rewrite E0 in H2.
    rewrite !(result_val lo M p ts r HM HT ER) by auto. exact H2.
Qed.
End Step.
