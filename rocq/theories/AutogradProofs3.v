(** Backward, zero_grad and repeated passes. *)
From Coq Require Import ZArith List Bool Arith Lia Permutation ZifyBool ZifyNat.
From Verif Require Import AutogradModel AutogradSpec AutogradProofs AutogradProofs2.
Import ListNotations.

Lemma backward_ok : forall {V : gvalues} (g : graph V) (st : state V) root seed,
  acyclic g -> linear_rules g -> root < length g -> good_heap st -> seed < length (heap st) ->
  (forall n, gradOf st n <> Some seed) -> (forall v, reach g root v -> gradOf st v = None \/ own st v) ->
  new_graph g st root -> passes_safely g root (fun t => gradOf st t = None) ->
  exists st' order, backward g st root seed = Some st' /\ consumers_first g root order /\ ran st' = ran st ++ order
  /\ (forall v, gradient st' v = gadd (gradient st v) (total g root v (nth seed (heap st) gzero)))
  /\ (forall v, reach g root v -> gradOf st' v <> None)
  /\ (forall v, ~ reach g root v -> gradOf st' v = gradOf st v)
  /\ good_heap st' /\ (forall v, is_leaf g v -> own st v -> own st' v).
Proof.
  intros V g st root seed AC LR Hr GH Hs Hseed HO HN HP.
  destruct (build_order g AC root Hr) as (order & Eo & CF). unfold backward. rewrite Eo. set (s := nth seed (heap st) gzero).
  destruct (addGrad_ok st root seed) as (st1 & E1 & E2 & E3 & E4 & E5 & E6); auto. { apply HO. constructor. }
  rewrite E1. pose proof CF as (ND & HR & HC).
  assert (S1 : gradOf st1 root <> None) by (rewrite E6; destruct (gradOf st root); discriminate).
  assert (OW : forall w, own st w -> own st1 w).
  { intros w Hw. apply (own_after st st1 root seed); auto. - apply HO. constructor. - intros x Hx. apply E5. auto. }
  assert (Hrn : forall v, reach g root v -> forall f, nth_error g v = Some f -> ~ In root (nexts f)).
  { intros v Hv f Ef Hin. pose proof (AC _ _ _ Ef Hin). apply (reach_le g AC root Hr) in Hv. lia. }
  assert (O1 : forall v, reach g root v -> v <> root -> gradOf st1 v = None \/ own st1 v).
  { intros v Hv Hne. destruct (HO v Hv); auto. left. rewrite (proj2 (E5 v Hne)). auto. }
  assert (Rng : forall v, reach g root v -> exists f, nth_error g v = Some f).
  { intros v Hv. destruct (nth_error g v) eqn:E; eauto. apply nth_error_None in E. apply (reach_le g AC root Hr) in Hv. lia. }
  destruct (run_ok g AC LR root Hr s st1 S1 order CF) with (after := order) (before := @nil nat) (st := st1) as (st' & R1 & I1 & R2); auto.
  - intros u f Hu Ef Hd. assert (HNu : gradOf st u = None). { destruct f as [|ds]; [cbn in Hd; congruence|]. apply (HN u ds); auto. }
    destruct (Nat.eqb_spec u root) as [->|Hne].
    + rewrite E4. unfold gradient. rewrite HNu. apply gadd_0.
    + rewrite (proj1 (E5 u Hne)). unfold gradient. rewrite HNu. auto.
  - intros u t Hin Ht. unfold allE in Hin. apply in_flat_map in Hin. destruct Hin as (u' & Hu & Hin). apply in_map_iff in Hin. destruct Hin as (e & Ee & Hin).
    injection Ee as -> ->. destruct (in_dels g _ _ Hin) as (f & Ef & Hf & Hn). cbn in Hn. apply HR in Hu.
    assert (Htr : t <> root). { intros ->. apply (Hrn u Hu f Ef Hn). }
    rewrite (proj2 (E5 t Htr)) in Ht. destruct (HP u f t Hu Ef Hf Ht) as [H1 H2].
    assert (HCnt : forall l, NoDup l -> incl l order -> occ (targets (allE g l)) t = if mem u l then 1 else 0).
    { induction l as [|c l IH]; intros NDl HI; [auto|]. unfold allE. cbn [flat_map]. fold (allE g l). unfold targets. rewrite map_app, count_occ_app. fold (@targets V (allE g l)).
      inversion NDl as [|? ? Hc NDl']; subst. rewrite IH; auto; [|intros x Hx; apply HI; cbn; auto].
      rewrite map_map. cbn [fst snd]. destruct (Rng c) as (fc & Efc). { apply HR, HI. cbn. auto. }
      replace (map (fun x : nat * delivery V => fst x) (dels g c)) with (nexts fc) by (unfold dels, nexts; rewrite Efc; auto).
      cbn [mem existsb]. destruct (Nat.eqb_spec u c) as [<-|Hne].
      - rewrite Ef in Efc. injection Efc as <-. rewrite H1. cbn [orb]. fold (mem u l). destruct (mem u l) eqn:Em; auto. apply mem_in in Em. tauto.
      - cbn [orb]. fold (mem u l). assert (occ (nexts fc) t = 0); [|lia]. apply count_occ_not_In. intros H. apply Hne. symmetry. apply (H2 c fc); auto. apply HR, HI. cbn. auto. }
    rewrite HCnt by (auto; intros x; auto). apply HR in Hu. apply mem_in in Hu. rewrite Hu. auto.
  - split; auto. split; [intros v; rewrite inc_not by (intros []); rewrite gadd_0r; auto|]. split; [intros v []|]. split; auto. split; auto. split; auto.
    intros v Hv. apply targets_in in Hv. destruct Hv as (c & f & Hc & Ef & Hv). apply HR in Hc. apply O1; [econstructor; eauto|]. intros ->. apply (Hrn c Hc f Ef Hv).
  - exists st', order. destruct I1 as (GH' & HV & HT & HS & HNt & _ & HL). split; auto. split; auto. split; [rewrite R2, E3; auto|].
    split; [|split; [|split; [|split]]].
    + intros v. rewrite HV. rewrite (inc_order g AC LR root Hr s order CF). rewrite (total_eq g AC LR) by auto. fold s. rewrite gadd_assoc. f_equal.
      destruct (Nat.eqb_spec v root) as [->|Hne]; [auto|]. rewrite gadd_0r. apply E5. auto.
    + intros v Hv. destruct (reach_pred g root v Hv) as [->|(c & Hc & Hn)]; [rewrite HS; auto|]. apply HT.
      unfold nx in Hn. destruct (nth_error g c) as [fc|] eqn:Ec; [|inversion Hn]. unfold nexts in Hn. apply in_map_iff in Hn. destruct Hn as (e & <- & Hn).
      unfold targets. apply in_map_iff. exists (c, e). split; auto. unfold allE. apply in_flat_map. exists c. split; [apply HR; auto|]. apply in_map. unfold dels. rewrite Ec. auto.
    + intros v Hv. rewrite HNt; [|].
      * apply E5. intros ->. apply Hv. constructor.
      * intros H. apply targets_in in H. destruct H as (c & f & Hc & Ef & Hc'). apply Hv. apply HR in Hc. econstructor; eauto.
    + auto.
    + intros v Hl Hv. apply HL; auto. unfold dels. rewrite Hl. auto.
Qed.

Section Zero.
Context {V : gvalues}.
Lemma zeroGrad_ok : forall (st : state V) n, good_heap st -> gradOf st n = None \/ own st n ->
  good_heap (zeroGrad st n) /\ gradient (zeroGrad st n) n = gzero /\ own (zeroGrad st n) n
  /\ (forall w, w <> n -> gradOf (zeroGrad st n) w = gradOf st w /\ gradient (zeroGrad st n) w = gradient st w /\ (own st w -> own (zeroGrad st n) w)).
Proof.
  intros st n GH HO. unfold zeroGrad. destruct (gradOf st n) as [b|] eqn:E.
  - destruct HO as [HO|(b' & Eb & HO)]; [discriminate|]. rewrite E in Eb. injection Eb as <-. pose proof (GH _ _ E) as Hb. split; [|split; [|split]].
    + intros m c Hc. cbn in *. rewrite length_setNth. eauto.
    + unfold gradient. cbn. rewrite E, nth_setNth by auto. rewrite Nat.eqb_refl. auto.
    + exists b. cbn. auto.
    + intros w Hw. split; auto. split; auto. unfold gradient. cbn. destruct (gradOf st w) as [c|] eqn:Ew; auto. rewrite nth_setNth by auto.
      destruct (Nat.eqb_spec c b) as [->|]; auto. exfalso. apply (HO w Hw Ew).
  - split; [|split; [|split]].
    + intros m c Hc. cbn in *. rewrite app_length. cbn. unfold upd in Hc. destruct (m =? n); [injection Hc as <-; lia|]. apply GH in Hc. lia.
    + unfold gradient. cbn. unfold upd. rewrite Nat.eqb_refl, app_nth2, Nat.sub_diag by lia. auto.
    + exists (length (heap st)). cbn. unfold upd. rewrite Nat.eqb_refl. split; auto. intros m Hm. rewrite (proj2 (Nat.eqb_neq m n)) by auto. intros H. apply GH in H. lia.
    + intros w Hw. cbn. unfold upd. rewrite (proj2 (Nat.eqb_neq w n)) by auto. split; auto. split.
      * unfold gradient. cbn. rewrite (proj2 (Nat.eqb_neq w n)) by auto. destruct (gradOf st w) as [c|] eqn:Ew; auto. apply app_nth1. apply (GH _ _ Ew).
      * intros (c & Ec & Hc). exists c. cbn. rewrite (proj2 (Nat.eqb_neq w n)) by auto. split; auto. intros m Hm. destruct (Nat.eqb_spec m n); auto.
        intros H. injection H as <-. apply GH in Ec. lia.
Qed.
Lemma zeroAll_ok : forall L (st : state V), good_heap st -> (forall n, In n L -> gradOf st n = None \/ own st n) ->
  let st' := fold_left zeroGrad L st in
  good_heap st' /\ (forall n, In n L -> gradient st' n = gzero /\ own st' n) /\ (forall n, ~ In n L -> gradOf st' n = gradOf st n /\ gradient st' n = gradient st n)
  /\ (forall n, own st n -> own st' n).
Proof.
  induction L as [|n L IH]; intros st GH HO; cbn [fold_left].
  - cbn zeta. split; [exact GH|]. split; [intros n []|]. split; auto.
  - destruct (zeroGrad_ok st n) as (G1 & Z1 & O1 & W1); auto. { apply HO. cbn. auto. }
    destruct (IH (zeroGrad st n)) as (G2 & Z2 & N2 & O2); auto.
    { intros m Hm. destruct (Nat.eq_dec m n) as [->|Hne]; auto. destruct (W1 m Hne) as (H1 & _ & H3). destruct (HO m) as [H|H]; cbn; auto. left. congruence. }
    split; auto. split; [|split].
    + intros m [<-|Hm]; auto. destruct (in_dec Nat.eq_dec n L) as [Hi|Hi]; auto. rewrite (proj2 (N2 n Hi)). auto.
    + intros m Hm. cbn in Hm. destruct (N2 m) as [H1 H2]; [tauto|]. destruct (W1 m) as (H3 & H4 & _); [intros ->; tauto|]. split; congruence.
    + intros m Hm. apply O2. destruct (Nat.eq_dec m n) as [->|Hne]; auto. apply (W1 m Hne). auto.
Qed.

Definition pass_pre (g : graph V) (L : list nat) (p : nat * V) : Prop :=
  fst p < length g /\ (forall v, reach g (fst p) v -> is_leaf g v -> In v L) /\ passes_safely g (fst p) (fun t => ~ is_leaf g t).
Lemma pass_ok : forall (g : graph V) L st p, acyclic g -> linear_rules g -> (forall v, In v L -> is_leaf g v) ->
  good_heap st -> (forall v, In v L -> gradOf st v = None \/ own st v) -> pass_pre g L p -> new_graph g st (fst p) ->
  exists st', pass g L st p = Some st' /\ good_heap st' /\ (forall v, In v L -> own st' v) /\ (forall v, In v L -> gradient st' v = total g (fst p) v (snd p))
  /\ (forall v, ~ In v L -> ~ reach g (fst p) v -> gradOf st' v = gradOf st v).
Proof.
  intros g L st [root s] AC LR HL GH HO (Hr & Hcov & HP) HN. cbn [fst snd] in *. unfold pass. cbn [fst snd].
  destruct (zeroAll_ok L st GH HO) as (G1 & Z1 & N1 & O1). set (st0 := fold_left zeroGrad L st) in *. cbn [alloc].
  set (st1 := State (heap st0 ++ [s]) (gradOf st0) (ran st0)).
  assert (GV : forall v, gradient st1 v = gradient st0 v).
  { intros v. unfold gradient, st1. cbn. destruct (gradOf st0 v) as [b|] eqn:E; auto. apply app_nth1. apply (G1 _ _ E). }
  assert (OW : forall v, own st0 v -> own st1 v) by (intros v; apply own_heap; reflexivity).
  assert (Hop : forall v ds, nth_error g v = Some (FOp ds) -> ~ In v L). { intros v ds E Hin. apply HL in Hin. unfold is_leaf in Hin. congruence. }
  assert (Hr' : forall v, reach g root v -> exists f, nth_error g v = Some f).
  { intros v Hv. destruct (nth_error g v) eqn:E; eauto. apply nth_error_None in E. apply (reach_le g AC root Hr) in Hv. lia. }
  destruct (backward_ok g st1 root (length (heap st0)) AC LR Hr) as (st' & order & B1 & B2 & B3 & B4 & B5 & B6 & B7 & B8).
  - intros n b Hb. cbn in *. rewrite app_length. cbn. apply G1 in Hb. lia.
  - cbn. rewrite app_length. cbn. lia.
  - intros n H. cbn in H. apply G1 in H. lia.
  - intros v Hv. destruct (Hr' v Hv) as ([|ds] & Ev).
    + right. apply OW, Z1, Hcov; auto.
    + left. cbn. rewrite (proj1 (N1 v (Hop v ds Ev))). apply (HN v ds); auto.
  - intros v ds Hv Ev. cbn. rewrite (proj1 (N1 v (Hop v ds Ev))). apply (HN v ds); auto.
  - intros u f t Hu Ef Ht Hnone. apply (HP u f t); auto. intros Hl. cbn in Hnone.
    destruct (Z1 t) as (_ & b & Eb & _); [|congruence]. apply Hcov; auto. econstructor; eauto. unfold nexts. apply in_map_iff. exists (t, Pass). auto.
  - exists st'. split; auto. split; auto. split; [|split].
    + intros v Hv. apply B8; auto. apply OW, Z1. auto.
    + intros v Hv. rewrite B4, GV, (proj1 (Z1 v Hv)), gadd_0. cbn. rewrite app_nth2, Nat.sub_diag by lia. auto.
    + intros v Hv Hr0. rewrite B6 by auto. cbn. apply N1. auto.
Qed.

Lemma passes_ok : forall (g : graph V) L, acyclic g -> linear_rules g -> (forall v, In v L -> is_leaf g v) -> forall ps st,
  good_heap st -> (forall v, In v L -> gradOf st v = None \/ own st v) ->
  (forall p, In p ps -> pass_pre g L p /\ new_graph g st (fst p)) ->
  ForallOrdPairs (fun p p' => forall v ds, nth_error g v = Some (FOp ds) -> reach g (fst p) v -> ~ reach g (fst p') v) ps ->
  exists st', passes g L st ps = Some st' /\ forall ps' r s, ps = ps' ++ [(r, s)] -> forall v, In v L -> gradient st' v = total g r v s.
Proof.
  intros g L AC LR HL. induction ps as [|p ps IH]; intros st GH HO HP HD.
  - exists st. split; auto. intros ps' r s H. destruct ps'; discriminate.
  - cbn [passes]. destruct (HP p) as [H1 H2]; [cbn; auto|]. inversion HD as [|? ? HF HD']; subst.
    destruct (pass_ok g L st p AC LR HL GH HO H1 H2) as (st1 & E1 & G1 & O1 & V1 & N1). rewrite E1.
    destruct (IH st1 G1) as (st' & E2 & V2); auto.
    + intros q Hq. destruct (HP q) as [Q1 Q2]; [cbn; auto|]. split; auto. intros v ds Hv Ev. rewrite N1; [apply (Q2 v ds); auto| |].
      * intros H. apply HL in H. unfold is_leaf in H. congruence.
      * intros H. rewrite Forall_forall in HF. apply (HF q Hq v ds); auto.
    + exists st'. split; auto. intros ps' r s E v Hv. destruct ps' as [|p' ps'].
      * injection E as -> ->. cbn in E2. injection E2 as <-. apply V1. auto.
      * injection E as -> ->. apply (V2 ps' r s); auto.
Qed.
End Zero.

(** * Recording *)
Section Recording.
Context {V : gvalues}.
Lemma exec_app_acyclic : forall (g : graph V) f, acyclic g -> (forall t, In t (nexts f) -> t < length g) -> acyclic (g ++ [f]).
Proof.
  intros g f AC H u h t E Ht. destruct (Nat.lt_ge_cases u (length g)) as [Hl|Hl].
  - rewrite nth_error_app1 in E by auto. eapply AC; eauto.
  - rewrite nth_error_app2 in E by auto. destruct (u - length g) as [|k] eqn:Eu; [injection E as <-; apply H in Ht; lia|]. destruct k; discriminate.
Qed.
Definition rec_ok (st : rec_state V) : Prop := acyclic (fns st) /\ forall f, In (Some f) (tensors st) -> f < length (fns st).
Lemma rec_leaf : forall (g : graph V) f, f < length g -> forall x : list (fn V), f < length (g ++ x).
Proof. intros. rewrite app_length. lia. Qed.

Scheme prog_mut := Induction for prog Sort Prop with stmt_mut := Induction for stmt Sort Prop.

Lemma exec_ok : forall (p : prog V) st, rec_ok st -> rec_ok (fst (exec p st)).
Proof.
  intros p. apply (prog_mut V (fun p => forall st, rec_ok st -> rec_ok (fst (exec p st))) (fun s => forall st, rec_ok st -> rec_ok (fst (execStmt s st)))); clear p.
  - auto.
  - intros s IHs p IHp st H. cbn [exec]. specialize (IHs st H). destruct (execStmt s st) as [st1 [|]]; auto.
  - intros r st [A B]. cbn. destruct r; split; cbn.
    + apply exec_app_acyclic; auto. intros t [].
    + intros f Hf. rewrite app_length. cbn. apply in_app_iff in Hf. destruct Hf as [Hf|[Hf|[]]]; [apply B in Hf; lia|injection Hf as <-; lia].
    + auto.
    + intros f Hf. apply in_app_iff in Hf. destruct Hf as [Hf|[Hf|[]]]; auto; discriminate.
  - intros inputs st [A B]. cbn. unfold apply.
    assert (HC : forall t, In t (map fst (if gradEnabled st then collect (tensors st) inputs else [])) -> t < length (fns st)).
    { intros t Ht. destruct (gradEnabled st); [|inversion Ht]. apply in_map_iff in Ht. destruct Ht as (e & <- & He). unfold collect in He. apply in_flat_map in He.
      destruct He as (x & Hx & He). destruct (nth_error (tensors st) (fst x)) as [[f|]|] eqn:E; try inversion He; subst; [|inversion H]. cbn.
      apply B. eapply nth_error_In; eauto. }
    destruct (if gradEnabled st then collect (tensors st) inputs else []) as [|e ds] eqn:E; split; cbn.
    + auto.
    + intros f Hf. apply in_app_iff in Hf. destruct Hf as [Hf|[Hf|[]]]; auto; discriminate.
    + apply exec_app_acyclic; auto.
    + intros f Hf. rewrite app_length. cbn. apply in_app_iff in Hf. destruct Hf as [Hf|[Hf|[]]]; [apply B in Hf; lia|injection Hf as <-; lia].
  - intros body IH st H. cbn [execStmt]. specialize (IH (RState (fns st) (tensors st) false) H).
    destruct (exec body (RState (fns st) (tensors st) false)) as [st1 thrown]. exact IH.
  - auto.
  - intros body IH st H. cbn [execStmt]. specialize (IH st H). destruct (exec body st) as [st1 thrown]. exact IH.
Qed.

Lemma exec_spec : forall (p : prog V) depth g ts m, m = (depth =? 0) ->
  exec p (RState g ts m) = (let r := spec_exec depth p (g, ts) in (RState (fst (fst r)) (snd (fst r)) m, snd r)).
Proof.
  intros p. apply (prog_mut V (fun p => forall depth g ts m, m = (depth =? 0) -> exec p (RState g ts m) = (let r := spec_exec depth p (g, ts) in (RState (fst (fst r)) (snd (fst r)) m, snd r)))
    (fun s => forall depth g ts m, m = (depth =? 0) -> execStmt s (RState g ts m) = (let r := spec_stmt depth s (g, ts) in (RState (fst (fst r)) (snd (fst r)) m, snd r)))); clear p.
  - auto.
  - intros s IHs p IHp depth g ts m Hm. cbn [exec spec_exec]. rewrite (IHs depth) by auto. cbv zeta. destruct (spec_stmt depth s (g, ts)) as [[g1 ts1] [|]]; cbn [fst snd]; auto.
  - intros r depth g ts m Hm. cbn. destruct r; auto.
  - intros inputs depth g ts m Hm. cbn [execStmt spec_stmt]. unfold apply, spec_apply, collect. cbn [fns tensors gradEnabled fst snd]. rewrite Hm.
    destruct (depth =? 0); cbn [andb]; [|auto]. match goal with |- context [flat_map ?F ?L] => destruct (flat_map F L) eqn:E end; cbn [length Nat.eqb negb]; auto.
  - intros body IH depth g ts m Hm. cbn [execStmt spec_stmt gradEnabled fns tensors]. rewrite (IH (S depth)) by auto. cbv zeta. destruct (spec_exec (S depth) body (g, ts)) as [[g1 ts1] b]. auto.
  - auto.
  - intros body IH depth g ts m Hm. cbn [execStmt spec_stmt]. rewrite (IH depth) by auto. cbv zeta. destruct (spec_exec depth body (g, ts)) as [[g1 ts1] b]. auto.
Qed.
End Recording.

(** * Hooks and saved data *)
Lemma hooks_newest_first : forall {H} (cs : list (hook_call H)) hooks, newest_first (length hooks) cs ->
  right_hooks (combine (map Z.of_nat (seq 0 (length hooks))) hooks) cs (hookRun true hooks cs).
Proof.
  intros H cs. induction cs as [|[h|id|] cs IH]; intros hooks HN; cbn [hookRun hookStep].
  - constructor.
  - cbn in HN. rewrite app_length. cbn [length]. replace (length hooks + 1 - 1) with (length hooks) by lia. constructor.
    + intros Hin. apply in_map_iff in Hin. destruct Hin as ([i x] & E & Hin). cbn in E. subst i. apply in_combine_l in Hin. apply in_map_iff in Hin.
      destruct Hin as (n & E & Hn). apply in_seq in Hn. lia.
    + specialize (IH (hooks ++ [h])). rewrite app_length in IH. cbn [length] in IH. rewrite Nat.add_1_r in IH.
      rewrite seq_S, map_app in IH. assert (EC : forall (a : list Z) (b : list H) c d, length a = length b -> combine (a ++ c) (b ++ d) = combine a b ++ combine c d).
      { clear. induction a as [|x a IHa]; intros [|y b] c d E; cbn in *; try discriminate; auto. rewrite IHa by lia. auto. }
      rewrite EC in IH by (rewrite map_length, seq_length; auto). cbn [Nat.add map combine] in IH. apply IH. auto.
  - cbn in HN. destruct HN as (Hn & -> & HN). destruct (exists_last (l := hooks)) as (hs & h & ->); [destruct hooks; cbn in *; [lia|discriminate]|].
    rewrite app_length in *. cbn [length] in *. replace (length hs + 1 - 1) with (length hs) in * by lia.
    replace ((0 <=? Z.of_nat (length hs)) && (Z.of_nat (length hs) <? Z.of_nat (length hs + 1)))%Z with true by lia.
    rewrite Nat2Z.id, firstn_app, Nat.sub_diag, firstn_all, skipn_app, skipn_all2 by lia. replace (S (length hs) - length hs) with 1 by lia. cbn [firstn skipn app]. rewrite !app_nil_r.
    eapply (rh_unregister _ (combine (map Z.of_nat (seq 0 (length hs))) hs) []).
    + rewrite Nat.add_1_r, seq_S, map_app. cbn [Nat.add map].
      assert (EC : forall (a : list Z) (b : list H) c d, length a = length b -> combine (a ++ c) (b ++ d) = combine a b ++ combine c d).
      { clear. induction a as [|x a IHa]; intros [|y b] c d E; cbn in *; try discriminate; auto. rewrite IHa by lia. auto. }
      rewrite EC by (rewrite map_length, seq_length; auto). reflexivity.
    + rewrite app_nil_r. apply IH. auto.
  - cbn in HN. replace (RRan hooks) with (RRan (map snd (combine (map Z.of_nat (seq 0 (length hooks))) hooks))); [constructor; apply IH; auto|]. f_equal.
    assert (ES : forall (b : list H) (a : list Z), length a = length b -> map snd (combine a b) = b).
    { clear. induction b as [|y b IHb]; intros [|x a] E; cbn in *; try discriminate; auto. rewrite IHb by lia. auto. }
    apply ES. rewrite map_length, seq_length. auto.
Qed.

Lemma ctx_fifo : forall {A} (cs : list (ctx_call A)) d d' out, ctxRun d cs = Some (d', out) -> out ++ d' = d ++ pushed cs.
Proof.
  intros A cs. induction cs as [|[x|] cs IH]; intros d d' out E; cbn [ctxRun ctxStep pushed] in *.
  - injection E as <- <-. rewrite app_nil_r. auto.
  - destruct (ctxRun (d ++ [x]) cs) as [[d1 o1]|] eqn:E1; [|discriminate]. injection E as <- <-. cbn. rewrite (IH _ _ _ E1), <- app_assoc. auto.
  - destruct d as [|y d]; [discriminate|]. destruct (ctxRun d cs) as [[d1 o1]|] eqn:E1; [|discriminate]. injection E as <- <-. cbn. rewrite (IH _ _ _ E1). auto.
Qed.

Lemma ctx_fails : forall {A} (cs : list (ctx_call A)) d, ctxRun d cs = None <-> exists cs1 cs2, cs = cs1 ++ cs2 /\ length d + length (pushed cs1) < pops cs1.
Proof.
  intros A cs. induction cs as [|c cs IH]; intros d.
  - split; [discriminate|]. intros (cs1 & cs2 & E & H). destruct cs1; [cbn in H; lia|discriminate].
  - assert (HD : forall d0 : list A, (exists cs1 cs2, c :: cs = cs1 ++ cs2 /\ length d0 + length (pushed cs1) < pops cs1) <->
      (exists cs1 cs2, cs = cs1 ++ cs2 /\ length d0 + length (pushed (c :: cs1)) < pops (c :: cs1))).
    { intros d0. split; intros (cs1 & cs2 & E & H).
      - destruct cs1 as [|c' cs1]; [cbn in H; lia|]. injection E as <- ->. eauto.
      - exists (c :: cs1), cs2. subst. auto. }
    rewrite HD. clear HD. destruct c as [x|]; cbn [ctxRun ctxStep pushed pops length].
    + specialize (IH (d ++ [x])). rewrite app_length in IH. cbn [length] in IH. destruct (ctxRun (d ++ [x]) cs) as [[d1 o1]|] eqn:E.
      * split; [discriminate|]. intros (cs1 & cs2 & E1 & H). exfalso. assert (HN : Some (d1, o1) = None); [|discriminate]. apply IH. exists cs1, cs2. split; auto. lia.
      * split; auto. intros _. destruct (proj1 IH eq_refl) as (cs1 & cs2 & E1 & H). exists cs1, cs2. split; auto. lia.
    + destruct d as [|y d].
      * split; [intros _|auto]. exists [], cs. split; [auto|cbn; lia].
      * specialize (IH d). destruct (ctxRun d cs) as [[d1 o1]|] eqn:E.
        -- split; [discriminate|]. intros (cs1 & cs2 & E1 & H). exfalso. assert (HN : Some (d1, o1) = None); [|discriminate]. apply IH. exists cs1, cs2. split; auto. cbn in H. lia.
        -- split; auto. intros _. destruct (proj1 IH eq_refl) as (cs1 & cs2 & E1 & H). exists cs1, cs2. split; auto. cbn. lia.
Qed.

Section Walks.
Context {V : gvalues}.
Variable g : graph V.
Hypothesis AC : acyclic g.
Lemma in_edges_to : forall u d v, In (u, d) (edges_to g v) <-> exists f, nth_error g u = Some f /\ In (v, d) (deliveries f).
Proof.
  intros u d v. unfold edges_to. rewrite in_flat_map. split.
  - intros (u' & Hu & H). destruct (nth_error g u') as [f|] eqn:E; [|inversion H]. apply in_map_iff in H. destruct H as ([t d'] & E' & H). cbn in E'. injection E' as -> ->.
    apply filter_In in H. destruct H as [H Ht]. cbn in Ht. apply Nat.eqb_eq in Ht. subst t. eauto.
  - intros (f & E & H). exists u. split; [apply in_seq; assert (u < length g) by (apply nth_error_Some; congruence); lia|]. rewrite E. apply in_map_iff. exists (v, d). split; auto.
    apply filter_In. split; auto. cbn. apply Nat.eqb_refl.
Qed.
Lemma paths_walks : forall root v p, root < length g -> (In p (paths g root v) <-> walk g root v p).
Proof.
  intros root v p Hr. split.
  - unfold paths. generalize (S (length g)). intros n. revert v p. induction n as [|n IH]; intros v p; [intros []|]. cbn [pathsN]. rewrite in_app_iff.
    intros [H|H]; [destruct (Nat.eqb_spec v root); [destruct H as [<-|[]]; subst; constructor|inversion H]|].
    apply in_flat_map in H. destruct H as ([u d] & He & H). apply in_map_iff in H. destruct H as (q & <- & H). apply in_edges_to in He. destruct He as (f & E & He). cbn in H. cbn. econstructor; eauto.
  - induction 1 as [|u f t d p W IH E H].
    + unfold paths. cbn [pathsN]. rewrite Nat.eqb_refl. cbn. auto.
    + unfold paths in *. cbn [pathsN]. apply in_app_iff. right. apply in_flat_map. exists (u, d). split; [apply in_edges_to; eauto|]. cbn [fst snd]. apply in_map_iff. exists p. split; auto.
      assert (t < u). { apply (AC _ _ _ E). unfold nexts. apply in_map_iff. exists (t, d). auto. }
      rewrite (paths_stable g AC (length g) (S (length g))) by lia. auto.
Qed.
End Walks.
