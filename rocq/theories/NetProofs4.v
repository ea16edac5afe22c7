(** The derivative of every tensor of a program along a curve of its leaves. *)
From Coq Require Import ZArith List Bool Arith Lia Reals Lra.
From Verif Require Import ShapeModel ShapeSpec ShapeProofs TensorModel TensorSpec TensorLemmas BcastModel BcastSpec BcastProofs BcastProofs2 BufModel CutModel ReduceModel GradModel GradProofs AutogradModel
  NetModel NetSpec NetProofs NetLaw NetOps3 NetOps4 NetProofs3.
Import ListNotations.
Local Notation Rsum := (sum (K := Rring)).
Local Open Scope nat_scope.

Lemma pairs_ext : forall (ks : list kind) (A D D' : nat -> tens), (forall k kd i, nth_error ks k = Some kd -> valid (fst kd) i -> D k i = D' k i) -> pairs ks A D = pairs ks A D'.
Proof.
  intros ks A D D' H. unfold pairs. apply (sum_ext (K := Rring)). intros [k kd] Hq. cbn [fst snd]. apply (sum_ext (K := Rring)). intros i Hi. apply indices_in in Hi. f_equal.
  apply (H k kd); auto. apply In_nth_error in Hq. destruct Hq as (n & Hn). clear - Hn.
  assert (Q : forall s (l : list kind) n, nth_error (combine (seq s (length l)) l) n = Some (k, kd) -> k = s + n /\ nth_error l n = Some kd).
  { intros s l. revert s. induction l as [|a l IH]; intros s m E; [destruct m; discriminate|]. destruct m as [|m]; cbn in E; [injection E as <- <-; split; [lia|auto]|]. apply IH in E. split; [lia|]. apply E. }
  apply Q in Hn. destruct Hn as [-> Hn]. auto.
Qed.
Lemma rules_dot : forall M op ks osh X Y grads dot, rules M op ks osh X Y grads dot -> forall D o, valid osh o ->
  dot D o = pairs ks (grads (fun o' => if idx_eqb o' o then 1%R else 0%R)) D.
Proof.
  intros M op ks osh X Y grads dot [_ _ HP] D o V. rewrite <- HP. rewrite <- (sum_unit osh o (dot D)) by auto. apply (sum_ext (K := Rring)). intros j _. rg.
Qed.
Lemma rules_dot_ext : forall M op ks osh X Y grads dot, rules M op ks osh X Y grads dot -> forall D D' o, valid osh o ->
  (forall k kd i, nth_error ks k = Some kd -> valid (fst kd) i -> D k i = D' k i) -> dot D o = dot D' o.
Proof. intros M op ks osh X Y grads dot H D D' o V HD. rewrite !(rules_dot _ _ _ _ _ _ _ _ H) by auto. apply pairs_ext. auto. Qed.
Lemma rules_dot_zero : forall M op ks osh X Y grads dot, rules M op ks osh X Y grads dot -> forall D o, valid osh o ->
  (forall k kd i, nth_error ks k = Some kd -> valid (fst kd) i -> D k i = 0%R) -> dot D o = 0%R.
Proof.
  intros M op ks osh X Y grads dot H D o V HD. rewrite (rules_dot_ext _ _ _ _ _ _ _ _ H D (fun _ _ => 0%R)) by auto. rewrite (rules_dot _ _ _ _ _ _ _ _ H) by auto.
  unfold pairs. apply (sum_zero' (K := Rring)). intros q _. apply (sum_zero' (K := Rring)). intros i _. apply Rmult_0_r.
Qed.
Lemma rules_ext : forall M op ks osh X Y Y' grads dot, (forall o, valid osh o -> Y o = Y' o) -> rules M op ks osh X Y grads dot -> rules M op ks osh X Y' grads dot.
Proof.
  intros M op ks osh X Y Y' grads dot E [H1 H2 H3]. assert (ET : tensor_of osh Y = tensor_of osh Y') by (apply tensor_of_ext; auto). rewrite ET in H1, H2. split; auto.
Qed.

Section Curve.
Variables (lo M : R) (p : list stmt) (ts : list kind).
Hypothesis HM : (0 <= M)%R.
Hypothesis HT : typed p [] ts.
Definition outcome (theta : nat -> list R) : list node := match run lo M theta p with Ok st => st | _ => [] end.
Definition shp (i : nat) : list nat := match nth_error ts i with Some kd => fst kd | None => [] end.
Definition val (theta : nat -> list R) (i : nat) : tens := canon (shp i) (elements (outcome theta) i).
Lemma ts_length : length ts = length p.
Proof. destruct (typed_more _ _ _ HT) as (e & -> & L). auto. Qed.
Lemma kind_of : forall i s, nth_error p i = Some s -> kind_at ts i s.
Proof. intros i s E. apply (typed_at _ _ _ HT i s E). Qed.
Lemma run_ok : forall theta, filled p theta -> run lo M theta p = Ok (outcome theta) /\ Forall2 fits (outcome theta) ts /\ forall i s, nth_error p i = Some s -> node_at M lo theta (outcome theta) i s.
Proof.
  intros theta HF. destruct (runs lo M theta p [] ts HM HT []) as (e & E1 & E2 & E3); [constructor|exact HF|]. unfold outcome, run. rewrite E1. auto.
Qed.
Lemma node_fits : forall theta, filled p theta -> forall i kd, nth_error ts i = Some kd -> exists nd, nth_error (outcome theta) i = Some nd /\ fits nd kd /\ nval nd = tensor_of (fst kd) (val theta i).
Proof.
  intros theta HF i kd E. destruct (run_ok theta HF) as (_ & H2 & _). assert (L : length (outcome theta) = length ts) by (eapply Forall2_length; eauto).
  destruct (nth_error (outcome theta) i) as [nd|] eqn:En; [|apply nth_error_None in En; assert (i < length ts) by (apply nth_error_Some; congruence); lia].
  exists nd. split; auto. assert (Hf : fits nd kd). { clear - H2 E En. revert i E En. induction H2; intros [|j] E En; cbn in *; try discriminate; [congruence|eauto]. }
  split; auto. rewrite (fits_of nd kd Hf). unfold val, shp, elements. rewrite E, En. auto.
Qed.
Lemma apply_at : forall theta, filled p theta -> forall i op xs sel sh r, nth_error p i = Some (SApply op xs) -> kinds_of ts xs = Some sel -> nth_error ts i = Some (sh, r) ->
  exists nsel, select (outcome theta) xs = Some nsel /\ Forall2 fits nsel sel /\ map nval nsel = args sel (fun k => val theta (nth k xs 0))
  /\ forward lo M op (args sel (fun k => val theta (nth k xs 0))) = Ok (tensor_of sh (val theta i))
  /\ nth_error (outcome theta) i = Some (record M op nsel xs (tensor_of sh (val theta i))).
Proof.
  intros theta HF i op xs sel sh r Ep Ek Et. destruct (run_ok theta HF) as (_ & H2 & H3). destruct (H3 i _ Ep) as (nsel & out & S1 & S2 & S3).
  pose proof (forall2_pick _ _ _ _ _ H2 S1 Ek) as HFs. exists nsel. split; auto. split; auto.
  assert (EA : map nval nsel = args sel (fun k => val theta (nth k xs 0))).
  { apply args_fit; auto. intros k nd kd E1 E2 j V. cbn [Nat.add].
    assert (Hk : k < length xs) by (rewrite <- (proj1 (picked _ _ _ S1)); apply nth_error_Some; congruence).
    assert (Ex : nth_error xs k = Some (nth k xs 0)) by (apply nth_error_nth'; auto).
    destruct (proj2 (picked _ _ _ S1) k _ Ex) as (a & A1 & A2). destruct (proj2 (picked _ _ _ Ek) k _ Ex) as (b & B1 & B2).
    rewrite E1 in A1. injection A1 as <-. rewrite E2 in B1. injection B1 as <-. unfold val, shp, elements. rewrite A2, B2. auto. }
  split; auto. destruct (record_req M op nsel xs out sel HFs) as [R1 R2]; [eapply picked; eauto|].
  destruct (node_fits theta HF i (sh, r) Et) as (nd & N1 & _ & N3). rewrite S3 in N1. injection N1 as <-. rewrite R2 in N3. cbn [fst] in N3. rewrite <- N3. split; [rewrite <- EA; auto|auto].
Qed.

Lemma smooth_point : forall theta, filled p theta -> smooth p (outcome theta) -> forall i op xs sel sh, nth_error p i = Some (SApply op xs) -> kinds_of ts xs = Some sel -> accepts op sel sh ->
  point op sel (fun k => val theta (nth k xs 0)).
Proof.
  intros theta HF [HS1 HS2] i op xs sel sh Ep Ek Ha.
  assert (Q : forall k kd, nth_error sel k = Some kd -> ~ In 0%R (elements (outcome theta) (nth k xs 0)) -> forall j, valid (fst kd) j -> val theta (nth k xs 0) j <> 0%R).
  { intros k kd E2 N j V Z. apply N. assert (Hk : k < length xs) by (rewrite <- (proj1 (picked _ _ _ Ek)); apply nth_error_Some; congruence).
    assert (Ex : nth_error xs k = Some (nth k xs 0)) by (apply nth_error_nth'; auto). destruct (proj2 (picked _ _ _ Ek) k _ Ex) as (b & B1 & B2). rewrite E2 in B1. injection B1 as <-.
    destruct (node_fits theta HF _ _ B2) as (nd & N1 & (_ & L & _) & _). rewrite <- Z. unfold val, shp, canon, elements. rewrite B2, N1. apply nth_In. rewrite L. apply ravel_lt. auto. }
  assert (LX : length xs = length sel) by (symmetry; eapply picked; eauto).
  destruct Ha; cbn [point]; auto.
  - intros j V. apply (Q 0 (sh, r)); auto. destruct xs as [|x [|y xs]]; try discriminate. apply (HS1 i x). auto.
  - destruct op; cbn [point]; auto. intros j V. apply (Q 1 k2); auto. destruct xs as [|x [|y [|z xs]]]; try discriminate. apply (HS2 i x y). auto.
Qed.

Variables (theta : R -> nat -> list R) (x0 : R) (dl : nat -> tens).
Hypothesis HF : forall x, filled p (theta x).
Hypothesis HL : forall l sh r, nth_error p l = Some (SLeaf sh r) -> forall i, valid sh i -> derivable_pt_lim (fun x => canon sh (theta x l) i) x0 (dl l i).
Hypothesis HZ : forall l sh, nth_error p l = Some (SLeaf sh false) -> forall i, valid sh i -> dl l i = 0%R.
Hypothesis HS : smooth p (outcome (theta x0)).
Definition slope_at (D : nat -> tens) (i : nat) (s : stmt) : Prop :=
  match s with
  | SLeaf sh r => D i = dl i
  | SApply op xs => exists sel sh grads dot, kinds_of ts xs = Some sel /\ accepts op sel sh /\ nth_error ts i = Some (sh, existsb snd sel)
      /\ rules M op sel sh (fun k => val (theta x0) (nth k xs 0)) (val (theta x0) i) grads dot /\ forall o, valid sh o -> D i o = dot (fun k => D (nth k xs 0)) o
  end.
Definition right_at (D : nat -> tens) (i : nat) : Prop :=
  (forall j, valid (shp i) j -> derivable_pt_lim (fun x => val (theta x) i j) x0 (D i j))
  /\ (forall s, nth_error p i = Some s -> slope_at D i s)
  /\ (forall sh, nth_error ts i = Some (sh, false) -> forall j, valid sh j -> D i j = 0%R).
Lemma slopes_to : forall n, n <= length p -> exists D, forall i, i < n -> right_at D i.
Proof.
  induction n as [|n IH]; intros Hn; [exists (fun _ _ => 0%R); intros; lia|]. destruct IH as (D & HD); [lia|].
  destruct (nth_error p n) as [s|] eqn:Ep; [|apply nth_error_None in Ep; lia]. pose proof (kind_of n s Ep) as Hk.
  (* it is enough to give a slope for this tensor *)
  assert (Q : forall d : tens, (forall j, valid (shp n) j -> derivable_pt_lim (fun x => val (theta x) n j) x0 (d j)) ->
    (match s with SLeaf sh r => d = dl n | SApply op xs => exists sel sh grads dot, kinds_of ts xs = Some sel /\ accepts op sel sh /\ nth_error ts n = Some (sh, existsb snd sel)
      /\ rules M op sel sh (fun k => val (theta x0) (nth k xs 0)) (val (theta x0) n) grads dot /\ forall o, valid sh o -> d o = dot (fun k => D (nth k xs 0)) o end) ->
    (forall sh, nth_error ts n = Some (sh, false) -> forall j, valid sh j -> d j = 0%R) -> exists D, forall i, i < S n -> right_at D i).
  { intros d Q1 Q2 Q3. exists (fun i => if i =? n then d else D i). intros i Hi.
    assert (EX : forall op xs i sel, nth_error p i = Some (SApply op xs) -> i <= n -> kinds_of ts xs = Some sel -> forall k kd, nth_error sel k = Some kd -> (if nth k xs 0 =? n then d else D (nth k xs 0)) = D (nth k xs 0)).
    { intros op xs i' sel Ei Hle Ek k kd Ekd. destruct (kind_of i' _ Ei) as (sel' & sh' & _ & Hx & _). assert (L : length sel = length xs) by (eapply picked; eauto).
      assert (k < length xs) by (rewrite <- L; apply nth_error_Some; congruence). specialize (Hx (nth k xs 0) (nth_In _ _ H)). destruct (Nat.eqb_spec (nth k xs 0) n); [lia|auto]. }
    destruct (Nat.eqb_spec i n) as [->|Ni].
    - split; [|split].
      + rewrite Nat.eqb_refl. auto.
      + intros s' Es'. rewrite Ep in Es'. injection Es' as <-. destruct s as [sh r|op xs]; cbn [slope_at]; [rewrite Nat.eqb_refl; auto|].
        destruct Q2 as (sel & sh & grads & dot & P1 & P2 & P3 & P4 & P5). exists sel, sh, grads, dot. split; auto. split; auto. split; auto. split; auto. intros o V. rewrite Nat.eqb_refl. rewrite P5 by auto.
        eapply rules_dot_ext; eauto. intros k kd j Ekd _. rewrite (EX op xs n sel) with (kd := kd) by auto. auto.
      + rewrite Nat.eqb_refl. auto.
    - destruct (HD i) as (R1 & R2 & R3); [lia|]. apply Nat.eqb_neq in Ni. split; [|split].
      + rewrite Ni. auto.
      + intros s' Es'. specialize (R2 s' Es'). destruct s' as [sh r|op xs]; cbn [slope_at] in *; [rewrite Ni; auto|].
        destruct R2 as (sel & sh & grads & dot & P1 & P2 & P3 & P4 & P5). exists sel, sh, grads, dot. split; auto. split; auto. split; auto. split; auto. intros o V. rewrite Ni. rewrite P5 by auto.
        eapply rules_dot_ext; eauto. intros k kd j Ekd _. rewrite (EX op xs i sel) with (kd := kd) by (auto; lia). auto.
      + rewrite Ni. auto. }
  destruct s as [sh r|op xs].
  - cbn [kind_at] in Hk. apply (Q (dl n)); auto.
    + intros j V. unfold shp in V. rewrite Hk in V. cbn in V. apply (dlim_ext _ (fun x => canon sh (theta x n) j)); [|eapply HL; eauto].
      intros x. unfold val, shp. rewrite Hk. cbn [fst]. destruct (run_ok (theta x) (HF x)) as (_ & _ & H3). specialize (H3 n _ Ep). cbn [node_at] in H3. unfold elements. rewrite H3. auto.
    + intros sh' E j V. rewrite Hk in E. injection E as -> ->. eapply HZ; eauto.
  - destruct Hk as (sel & sh & K1 & K2 & K3 & K4). destruct (every_law lo M op sel sh HM K3) as (value & dot & grads & HV & HR & HC).
    set (X := fun x k => val (theta x) (nth k xs 0)).
    assert (EV : forall x o, valid sh o -> value (X x) o = val (theta x) n o).
    { intros x. apply of_inj. destruct (apply_at (theta x) (HF x) n op xs sel sh _ Ep K1 K4) as (_ & _ & _ & _ & E & _). fold (X x) in E. rewrite HV in E.
      match type of E with Ok ?a = Ok ?b => exact (f_equal (fun r => match r with Ok t => t | _ => a end) E) end. }
    assert (HP : point op sel (X x0)) by (eapply smooth_point; eauto).
    assert (KX : forall k kd, nth_error sel k = Some kd -> nth k xs 0 < n /\ nth_error ts (nth k xs 0) = Some kd).
    { intros k kd Ekd. assert (Hk : k < length xs) by (rewrite <- (proj1 (picked _ _ _ K1)); apply nth_error_Some; congruence). split; [apply K2, nth_In; auto|].
      destruct (proj2 (picked _ _ _ K1) k (nth k xs 0)) as (b & B1 & B2); [apply nth_error_nth'; auto|]. congruence. }
    assert (RU : rules M op sel sh (X x0) (val (theta x0) n) (grads (X x0)) (dot (X x0))) by (eapply rules_ext; [|apply HR; auto]; intros; apply EV; auto).
    apply (Q (dot (X x0) (fun k => D (nth k xs 0)))).
    + intros o V. unfold shp in V. rewrite K4 in V. cbn in V. apply (dlim_ext _ (fun x => value (X x) o)); [intros; symmetry; apply EV; auto|]. apply HC; auto.
      intros k kd i Ekd Vi. destruct (KX k kd Ekd) as [K5 K6]. apply (proj1 (HD _ K5)). unfold shp. rewrite K6. auto.
    + exists sel, sh, (grads (X x0)), (dot (X x0)). auto.
    + intros sh' E j V. rewrite K4 in E. injection E as <- E. eapply rules_dot_zero; eauto. intros k kd i Ekd Vi. destruct (KX k kd Ekd) as [K5 K6].
      apply (proj2 (proj2 (HD _ K5)) (fst kd)); auto. rewrite K6. destruct kd as [a b]. cbn. f_equal. f_equal. destruct b; auto. exfalso.
      assert (T : existsb snd sel = true) by (apply existsb_exists; exists (a, true); split; auto; eapply nth_error_In; eauto). congruence.
Qed.
Lemma slopes : exists D, forall i, i < length p -> right_at D i.
Proof. apply slopes_to. auto. Qed.
End Curve.
