(** The backward pass of a program along a curve. *)
From Coq Require Import ZArith List Bool Arith Lia Reals Lra FunctionalExtensionality.
From Verif Require Import ShapeModel ShapeSpec ShapeProofs TensorModel TensorSpec TensorLemmas BcastModel BcastSpec BcastProofs BcastProofs2 BufModel CutModel ReduceModel GradModel GradProofs AutogradModel AutogradSpec AutogradProofs AutogradProofs2 AutogradProps
  NetModel NetSpec NetProofs NetProofs2 NetLaw NetOps3 NetOps4 NetProofs3 NetProofs4 NetProofs5.
Import ListNotations.
Local Notation Rsum := (sum (K := Rring)).
Local Open Scope nat_scope.

Section Back.
Variables (lo M : R) (p : list stmt) (ts : list kind).
Hypothesis HM : (0 <= M)%R.
Hypothesis HT : typed p [] ts.
Variable r : nat.
Hypothesis ER : nth_error ts r = Some ([], true).
Hypothesis NL : nll_last p r.
Hypothesis SO : sums_once p.
Variables (theta : R -> nat -> list R) (x0 : R) (dl : nat -> tens).
Hypothesis HF : forall x, filled p (theta x).
Hypothesis HL : forall l sh r, nth_error p l = Some (SLeaf sh r) -> forall i, valid sh i -> derivable_pt_lim (fun x => canon sh (theta x l) i) x0 (dl l i).
Hypothesis HZ : forall l sh, nth_error p l = Some (SLeaf sh false) -> forall i, valid sh i -> dl l i = 0%R.
Local Notation st := (outcome lo M p (theta x0)).
Hypothesis HS : smooth p st.
Local Notation shp := (shp ts).
Local Notation val := (val lo M p ts).
Local Notation seed := (GTensor (mkT [] [1%R])).

Lemma st_length : length st = length p.
Proof. destruct (run_ok lo M p ts HM HT (theta x0) (HF x0)) as (_ & H2 & _). rewrite (Forall2_length _ _ _ H2). eapply ts_length; eauto. Qed.
Lemma lift_ideal : forall op sel sh X Y grads dot k kd a, rules M op sel sh X Y grads dot -> nth_error sel k = Some kd -> snd kd = true ->
  (forall t, a = GTensor t -> first op (canon sh (tdata t))) -> lift sh (backRule M op (args sel X) (tensor_of sh Y) k) a = ideal sh (fst kd) (fun G => grads G k) a.
Proof.
  intros op sel sh X Y grads dot k kd a RU E1 E2 HFi. destruct a as [|t|]; auto. unfold lift, ideal. fold (formed sh t). destruct (formed sh t) eqn:Ef; auto.
  rewrite (formed_of sh t Ef) at 1. rewrite (r_rule _ _ _ _ _ _ _ _ RU k kd (canon sh (tdata t))) by auto. auto.
Qed.
(** With the rule of the negative log likelihood made linear. *)
Lemma graph_of : forall D, (forall i, i < length p -> right_at lo M p ts theta x0 dl D i) ->
  exists g, length g = length p /\ (forall i s, nth_error p i = Some s -> described M ts (val (theta x0)) D dl g i s)
  /\ (acyclic g -> backward g (State [seed : Tg] (fun _ => None) []) r 0 = backward (map nfn st) (State [seed : Tg] (fun _ => None) []) r 0).
Proof.
  intros D HD. set (g := map nfn st). assert (LG : length g = length p) by (unfold g; rewrite map_length; apply st_length).
  (* what the program recorded *)
  assert (Q : forall i s, nth_error p i = Some s -> match s with
    | SLeaf _ _ => nth_error g i = Some FLeaf /\ D i = dl i
    | SApply op xs => exists sel sh grads dot, kinds_of ts xs = Some sel /\ accepts op sel sh /\ nth_error ts i = Some (sh, existsb snd sel)
      /\ rules M op sel sh (fun k => val (theta x0) (nth k xs 0)) (val (theta x0) i) grads dot /\ (forall o, valid sh o -> D i o = dot (fun k => D (nth k xs 0)) o)
      /\ nth_error g i = Some (if existsb snd sel then FOp (dsOf (fun k => snd (delivers M op (args sel (fun k => val (theta x0) (nth k xs 0))) (tensor_of sh (val (theta x0) i)) k 0)) xs sel) else FLeaf) end).
  { intros i s Es. assert (Hi : i < length p) by (apply nth_error_Some; congruence). destruct (HD i Hi) as (_ & R2 & _). specialize (R2 s Es). destruct s as [sh rq|op xs]; cbn [slope_at] in R2.
    - split; auto. destruct (run_ok lo M p ts HM HT (theta x0) (HF x0)) as (_ & _ & H3). specialize (H3 i _ Es). cbn [node_at] in H3. unfold g. rewrite nth_error_map, H3. auto.
    - destruct R2 as (sel & sh & grads & dot & P1 & P2 & P3 & P4 & P5). exists sel, sh, grads, dot. split; auto. split; auto. split; auto. split; auto. split; auto.
      destruct (apply_at lo M p ts HM HT (theta x0) (HF x0) i op xs sel sh _ Es P1 P3) as (nsel & A1 & A2 & A3 & A4 & A5).
      unfold g. rewrite nth_error_map, A5. cbn [option_map]. rewrite (record_fn M op nsel xs _ sel A2), A3.
      assert (LX : length xs = length sel) by (symmetry; eapply picked; eauto).
      match goal with |- context [dsOf ?h xs sel] => pose proof (ds_empty h xs sel 0 LX) as DE; destruct (dsOf h xs sel) as [|e ds] eqn:ED end.
      + rewrite (proj1 DE ED). auto.
      + destruct (existsb snd sel) eqn:EX; auto. exfalso. pose proof (proj2 DE eq_refl) as Q. unfold dsOf in ED. rewrite Q in ED. discriminate. }
  assert (NF : forall op i xs sel sh X Y grads dot, nth_error p i = Some (SApply op xs) -> (forall t red, op <> ONll t red) -> rules M op sel sh X Y grads dot ->
    forall k kd, nth_error sel k = Some kd -> snd kd = true -> acts op sel sh X Y grads k kd (snd (delivers M op (args sel X) (tensor_of sh Y) k 0))).
  { intros op i xs sel sh X Y grads dot _ HN RU k kd E1 E2. unfold acts, delivers. cbn [snd]. destruct (passesGrad op (args sel X) (tensor_of sh Y) k) eqn:EP; [left; auto|right].
    eexists. split; [reflexivity|]. intros a. cbn [tshape tensor_of]. eapply lift_ideal; eauto. intros t _. destruct op; cbn [first]; auto. exfalso. eapply HN; reflexivity. }
  assert (Hrp : r < length p). { rewrite <- (ts_length p ts HT). apply nth_error_Some. congruence. }
  destruct (nth_error p r) as [sr|] eqn:Er; [|apply nth_error_None in Er; lia].
  destruct (match sr with SApply (ONll t red) xs => Some (t, red, xs) | _ => None end) as [[[t red] xs]|] eqn:EN.
  - (* the root is a negative log likelihood *)
    assert (sr = SApply (ONll t red) xs) as -> by (destruct sr as [|[] ?]; try discriminate; injection EN as -> -> ->; auto). clear EN.
    destruct (Q r _ Er) as (sel & sh & grads & dot & P1 & P2 & P3 & P4 & P5 & P6).
    assert (EX : existsb snd sel = true) by (rewrite ER in P3; injection P3 as <- <-; auto). rewrite EX in *.
    assert (sh = []) as -> by (rewrite ER in P3; injection P3 as <-; auto).
    assert (LX : length xs = length sel) by (symmetry; eapply picked; eauto).
    assert (exists kd x, sel = [kd] /\ xs = [x] /\ snd kd = true) as (kd & x & -> & -> & EK).
    { inversion P2; subst sel; [match goal with H : In _ [OAdd; _; _; _] |- _ => destruct H as [H|[H|[H|[H|[]]]]]; discriminate end|]. destruct xs as [|x [|y xs]]; try discriminate. eexists; exists x; split; [reflexivity|]; split; [reflexivity|]. cbn in EX. rewrite orb_false_r in EX. auto. }
    set (f' := ideal [] (fst kd) (fun G => grads G 0)). match type of P6 with _ = Some (FOp (dsOf ?h _ _)) => set (hh := h) in * end.
    assert (EH : dsOf hh [x] [kd] = [(x, hh 0)]) by (unfold dsOf, dsFrom; cbn; rewrite EK; auto). rewrite EH in P6.
    set (f := lift [] (backRule M (ONll t red) (args [kd] (fun k => val (theta x0) (nth k [x] 0))) (tensor_of [] (val (theta x0) r)) 0)).
    assert (EF : hh 0 = Fresh (V := Tg) f) by reflexivity. rewrite EF in P6.
    exists (changed (V := Tg) g r x f'). split; [rewrite changed_length; auto|]. split.
    + intros i s Es. destruct (Nat.eq_dec i r) as [->|Ni].
      * rewrite Er in Es. injection Es as <-. cbn [described]. exists [kd], [], grads, dot, (fun _ => Fresh (V := Tg) f'). rewrite EX. split; auto. split; auto. split; auto. split; auto. split; auto. split.
        -- rewrite (changed_root g r x f f') by exact P6. unfold dsOf, dsFrom. cbn. rewrite EK. auto.
        -- intros [|k] kd' E1 E2; [|destruct k; discriminate]. injection E1 as <-. right. exists f'. auto.
      * specialize (Q i s Es). destruct s as [sh rq|op xs]; cbn [described]; [rewrite changed_other by auto; auto|].
        destruct Q as (sel' & sh' & grads' & dot' & Q1 & Q2 & Q3 & Q4 & Q5 & Q6). exists sel', sh', grads', dot'. eexists. split; auto. split; auto. split; auto. split; auto. split; auto.
        rewrite changed_other by auto. split; [exact Q6|]. eapply NF; eauto. intros t' red' ->. apply Ni. eapply NL; eauto.
    + intros AC. apply (changed_backward g r x f f'); auto.
      * assert (CX : forall v, option_map nexts (nth_error (changed (V := Tg) g r x f') v) = option_map nexts (nth_error g v)) by (intros v; apply (changed_nexts g r x f f' P6)).
        intros u fn0 t0 Eu Ht. specialize (CX u). rewrite Eu in CX. destruct (nth_error (changed (V := Tg) g r x f') u) as [fc|] eqn:Ec; [|discriminate]. injection CX as CX. apply (AC u fc t0 Ec). rewrite CX. auto.
      * unfold f, f'. eapply lift_ideal; eauto. intros t0 [= <-]. reflexivity.
  - exists g. split; auto. split; auto. intros i s Es. specialize (Q i s Es). destruct s as [sh rq|op xs]; cbn [described]; auto.
    destruct Q as (sel' & sh' & grads' & dot' & Q1 & Q2 & Q3 & Q4 & Q5 & Q6). exists sel', sh', grads', dot'. eexists. split; auto. split; auto. split; auto. split; auto. split; auto.
    split; [exact Q6|]. eapply NF; eauto. intros t' red' ->. assert (i = r) by (eapply NL; eauto). subst i. rewrite Er in Es. injection Es as ->. discriminate EN.
Qed.
Lemma back : exists b, backwardFrom st r = Some b /\ (forall v, v < length p -> good (shp v) (gradOfTensor b v))
  /\ (forall v sh, nth_error ts v = Some (sh, false) -> gradOfTensor b v = GNone)
  /\ (forall l sh rq, nth_error p l = Some (SLeaf sh rq) -> (forall l' sh' rq', nth_error p l' = Some (SLeaf sh' rq') -> l' <> l -> forall i, valid sh' i -> dl l' i = 0%R) ->
      derivable_pt_lim (fun x => val (theta x) r []) x0 (pair sh (gradOfTensor b l) (dl l))).
Proof.
  destruct (slopes lo M p ts HM HT theta x0 dl HF HL HZ HS) as (D & HD). destruct (graph_of D HD) as (g & LG & DG & BG).
  assert (HZ' : forall i sh, nth_error ts i = Some (sh, false) -> forall j, valid sh j -> D i j = 0%R).
  { intros i sh E. assert (i < length p) by (rewrite <- (ts_length p ts HT); apply nth_error_Some; congruence). destruct (HD i H) as (_ & _ & R3). apply R3. auto. }
  assert (AC : acyclic g) by (eapply g_acyclic; eauto). assert (LR : linear_rules g) by (eapply g_linear; eauto).
  assert (Hrp : r < length p). { rewrite <- (ts_length p ts HT). apply nth_error_Some. congruence. }
  assert (ESH : shp r = []) by (unfold NetProofs4.shp; rewrite ER; auto).
  destruct (leaf_gradients_partial g (State [seed : Tg] (fun _ => None) []) r 0) as (b & B1 & B2 & B3); [exact AC|exact LR|lia|intros n x H; discriminate|cbn; lia|discriminate|auto|intros v ds _ _; auto|eapply g_safe; eauto|].
  assert (EB : backwardFrom st r = Some b).
  { unfold backwardFrom. destruct (node_fits lo M p ts HM HT (theta x0) (HF x0) r _ ER) as ([v rq fnn] & N1 & (F1 & F2 & F3) & _). rewrite N1. cbn in F1, F3. rewrite F3, F1. cbn [length Nat.eqb]. rewrite <- BG by auto. exact B1. }
  exists b. split; auto.
  assert (GT : forall v, gradOfTensor b v = total g r v (seed : Tg)).
  { intros v. specialize (B2 v). cbn [heap nth] in B2. change (gradient (State [seed : Tg] (fun _ => None) []) v) with (GNone : Tg) in B2. change (gadd (GNone : Tg) ?x) with x in B2. rewrite <- B2. reflexivity. }
  assert (HSd : good (shp r) (seed : Tg)). { rewrite ESH. right. exists (fun _ => 1%R). reflexivity. }
  assert (HG := g_good M p ts (val (theta x0)) D dl g LG DG). assert (HP := g_pair M p ts (val (theta x0)) D dl g LG DG HZ').
  split; [|split].
  - intros v Hv. rewrite GT. eapply total_good; eauto; try (rewrite LG; auto).
  - intros v sh E. assert (NR : ~ reach g r v).
    { intros RE. destruct RE as [|u w f RE Eu Hw]; [congruence|]. destruct f as [|ds]; [destruct Hw|].
      destruct (op_at M p ts (val (theta x0)) D dl g LG DG HZ' u ds Eu) as (op & xs & sel & sh' & grads & dot & h & _ & P2 & _ & _ & _ & _ & -> & _).
      unfold nexts in Hw. apply in_map_iff in Hw. destruct Hw as ([t' d] & Et & Hin). cbn in Et. subst t'. apply ds_in in Hin. destruct Hin as (k & kd & H1 & H2 & H3 & _).
      destruct (arg_at ts xs sel k w kd P2 H1 H2) as (A1 & _). rewrite E in A1. injection A1 as <-. discriminate. }
    apply (B3 v NR).
  - intros l sh rq El HO. assert (Hl : l < length p) by (apply nth_error_Some; congruence).
    assert (SL : nth_error ts l = Some (sh, rq)) by (apply (kind_of p ts HT l _ El)).
    destruct (DG l _ El) as [GL DL]. cbn [described] in GL.
    assert (E : pair (shp r) (seed : Tg) (D r) = pair (shp l) (total g r l (seed : Tg)) (D l)).
    { eapply leaf_pair; eauto; try (rewrite LG; auto).
      intros v Ev Nv i Vi. assert (Hv : v < length p) by (rewrite <- LG; apply nth_error_Some; congruence). destruct (nth_error p v) as [s|] eqn:Es; [|apply nth_error_None in Es; lia].
      pose proof (DG v s Es) as Dv. pose proof (kind_of p ts HT v s Es) as Kv. destruct s as [sh' rq'|op xs]; cbn [described kind_at] in Dv, Kv.
      - destruct Dv as [_ ->]. eapply HO; eauto. unfold NetProofs4.shp in Vi. rewrite Kv in Vi. auto.
      - destruct Dv as (sel & sh' & grads & dot & h & _ & _ & P3 & _ & _ & P6 & _). rewrite Ev in P6. destruct (existsb snd sel); [discriminate|]. apply (HZ' v sh'); auto. unfold NetProofs4.shp in Vi. rewrite P3 in Vi. auto. }
    rewrite GT. replace (pair sh (total g r l (seed : Tg)) (dl l)) with (D r []).
    + apply (proj1 (HD r Hrp)). rewrite ESH. constructor.
    + rewrite <- DL. assert (ELs : shp l = sh) by (unfold NetProofs4.shp; rewrite SL; auto). rewrite ELs in E. rewrite <- E, ESH. unfold pair, elt. change (indices []) with [@nil nat]. rewrite (sum_cons (K := Rring)), (sum_nil (K := Rring)). cbn [tdata ravel]. change (nth (ravel [] []) [1%R] 0%R) with 1%R. rg.
Qed.
End Back.
