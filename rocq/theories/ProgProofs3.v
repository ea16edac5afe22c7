(** The gradients of gentle programs. *)
From Coq Require Import ZArith List Bool Arith Lia Permutation Reals Lra.
From Verif Require Import AutogradModel AutogradSpec AutogradProofs AutogradProofs2 AutogradProofs3 GradModel ProgModel ProgSpec ProgProofs ProgProofs2.
Import ListNotations.
Close Scope R_scope.
Open Scope nat_scope.

Definition slope (st : hstate) (fl v : nat) : R := match gradFnOf st v with Some f => total (plain st) f fl (1%R : Rg) | None => 0%R end.
Definition fnsOf (st : hstate) (xs : list nat) : list nat := flat_map (fun x => match gradFnOf st x with Some f => [f] | None => [] end) xs.

(** * One statement, in closed form *)
Section Exec.
Variables (st : hstate) (ps : list point) (used : list nat).
Hypothesis I : Inv st ps used.

Lemma gradFn_of : forall x h, nth_error (vars st) x = Some h -> gradFnOf st x = match hmeta h with Some m => nth_error (metas st) m | None => None end.
Proof using. intros x h E. unfold gradFnOf. rewrite E. auto. Qed.
Lemma fns_needs : forall x, fnsOf st [x] = [] <-> needs (at_ ps x) = false.
Proof using I.
  intros x. unfold fnsOf. cbn [flat_map]. destruct (needs (at_ ps x)) eqn:E.
  - destruct (needs_gradFn _ _ _ _ I E) as (f & ->). split; discriminate.
  - destruct (gradFnOf st x) as [f|] eqn:Ef; [apply (gradFn_lt _ _ _ _ _ I) in Ef; intuition congruence|]. split; auto.
Qed.
Lemma collect_ok : forall xs hs, Forall2 (fun x h => nth_error (vars st) x = Some h) xs hs -> collectFns st hs = Some (fnsOf st xs).
Proof using I.
  induction 1 as [|x h xs hs E _ IH]; auto. cbn [collectFns]. unfold fnsOf. cbn [flat_map]. fold (fnsOf st xs).
  destruct (i_var _ _ _ I x h E) as (_ & _ & C & D & F). rewrite C, (gradFn_of x h E). destruct (needs (at_ ps x)).
  - destruct (F eq_refl) as (m & f & Em & Ef). rewrite Em, Ef, IH. auto.
  - rewrite D by auto. auto.
Qed.
Lemma apply_fresh : forall en xs hs k v, Forall2 (fun x h => nth_error (vars st) x = Some h) xs hs ->
  applyFn en st hs k (fun s => newTensor s v false)
  = Some (match (if en then fnsOf st xs else []) with
          | [] => (HState (impls st ++ [Impl v false]) (metas st) (funcs st) (vars st), Handle (length (impls st)) None)
          | fs => (HState (impls st ++ [Impl v true]) (metas st ++ [length (funcs st)]) (funcs st ++ [Func k fs]) (vars st), Handle (length (impls st)) (Some (length (metas st)))) end).
Proof using I.
  intros en xs hs k v H. unfold applyFn. rewrite (collect_ok xs hs H).
  assert (E : (if en then Some (fnsOf st xs) else Some []) = Some (if en then fnsOf st xs else [])) by (destruct en; auto). rewrite E.
  unfold newTensor. destruct (if en then fnsOf st xs else []) as [|f fs].
  - unfold getReq, getImpl. cbn [himpl impls]. rewrite app_nth2, Nat.sub_diag by auto. reflexivity.
  - unfold requireGrad, getVal, getImpl. cbn [himpl impls hmeta metas funcs vars]. rewrite app_nth2, Nat.sub_diag by auto. cbn [nth ival]. rewrite setNth_last. auto.
Qed.
Lemma exec_leaf : forall theta en r, exec1 theta en (SLeaf r) st = Some (if r then stRec st (theta (length ps)) [] KLeaf [] else stConst st (theta (length ps))).
Proof using I.
  intros theta en r. cbn [exec1]. rewrite (i_len _ _ _ I). destruct r; unfold newTensor, addVar, stRec, stConst; cbn [fst snd impls metas funcs vars app]; rewrite ?app_nil_r; auto.
Qed.
Lemma fns_one : forall x, (match fnsOf st [x] with [] => false | _ => true end) = needs (at_ ps x).
Proof using I.
  intros x. pose proof (fns_needs x) as H. destruct (fnsOf st [x]), (needs (at_ ps x)); auto; [destruct H as [H _]; specialize (H eq_refl); discriminate|destruct H as [_ H]; specialize (H eq_refl); discriminate].
Qed.
Lemma fns_two : forall x y, (match fnsOf st [x; y] with [] => false | _ => true end) = needs (at_ ps x) || needs (at_ ps y).
Proof using I.
  intros x y. rewrite <- (fns_one x), <- (fns_one y). unfold fnsOf. cbn [flat_map]. rewrite !app_nil_r. destruct (gradFnOf st x), (gradFnOf st y); auto.
Qed.
Lemma exec_un : forall theta en u x h, nth_error (vars st) x = Some h -> u <> UReshape ->
  exec1 theta en (SUn u x) st = Some (if en && needs (at_ ps x) then stRec st (un_math u (base (at_ ps x))) [] (KUn u h) (fnsOf st [x]) else stConst st (un_math u (base (at_ ps x)))).
Proof using I.
  intros theta en u x h E Hu. cbn [exec1]. rewrite E. destruct (i_var _ _ _ I x h E) as (_ & B & _).
  assert (EF : unForward u h st = newTensor st (un_math u (base (at_ ps x))) false).
  { destruct u; try congruence; unfold unForward, unValue, un_math, opSin, opCos; rewrite B; auto. }
  replace (applyFn en st [h] (KUn u h) (unForward u h)) with (applyFn en st [h] (KUn u h) (fun s => newTensor s (un_math u (base (at_ ps x))) false)).
  2:{ unfold applyFn. rewrite EF. auto. }
  rewrite (apply_fresh en [x]) by auto. pose proof (fns_one x) as HN. destruct en; cbn [andb]; [|reflexivity].
  destruct (fnsOf st [x]); rewrite <- HN; cbn [option_map]; unfold addVar, stRec, stConst; cbn [fst snd impls metas funcs vars app]; rewrite ?app_nil_r; auto.
Qed.
Lemma exec_reshape : forall theta en x h, nth_error (vars st) x = Some h -> en = true \/ needs (at_ ps x) = false ->
  exec1 theta en (SUn UReshape x) st
  = Some (if en && needs (at_ ps x) then stRec st (base (at_ ps x)) [Func KLeaf []] (KUn UReshape h) (fnsOf st [x]) else stConst st (base (at_ ps x))).
Proof using I.
  intros theta en x h E Hn. cbn [exec1]. rewrite E. destruct (i_var _ _ _ I x h E) as (_ & B & C & D & F). unfold applyFn.
  rewrite (collect_ok [x] [h]) by auto. pose proof (fns_one x) as HN.
  assert (E1 : (if en then Some (fnsOf st [x]) else Some []) = Some (if en then fnsOf st [x] else [])) by (destruct en; auto). rewrite E1.
  cbn [unForward]. rewrite B, C. destruct (needs (at_ ps x)) eqn:En.
  - destruct Hn as [->|]; [|discriminate]. cbn [andb newTensor]. destruct (fnsOf st [x]) as [|f fs]; [discriminate|]. unfold requireGrad, getVal, getImpl. cbn [himpl impls hmeta metas funcs vars].
    rewrite app_nth2, Nat.sub_diag by auto. cbn [nth ival]. rewrite !setNth_last. cbn [option_map]. unfold addVar, stRec. cbn [fst snd impls metas funcs vars app].
    rewrite <- app_assoc. auto.
  - rewrite andb_false_r. destruct (fnsOf st [x]) as [|f fs]; [|discriminate]. assert (E2 : (if en then [] else []) = ([] : list nat)) by (destruct en; auto). rewrite E2.
    cbn [newTensor]. unfold getReq, getImpl. cbn [himpl impls]. rewrite app_nth2, Nat.sub_diag by auto. reflexivity.
Qed.
Lemma bin_value : forall b x y, arg_ok b x y -> binValue b x y = bin_math b x y.
Proof using.
  intros b x y H. destruct b; cbn; unfold opAdd, opSub, opMul, opDiv, opPow, stdpow; try ring; auto. destruct (Rlt_dec 0 x); auto. cbn in H. tauto.
Qed.
Lemma apply_bin : forall en b x y h1 h2, nth_error (vars st) x = Some h1 -> nth_error (vars st) y = Some h2 -> arg_ok b (base (at_ ps x)) (base (at_ ps y)) ->
  applyFn en st [h1; h2] (KBin b h1 h2) (binForward b h1 h2)
  = applyFn en st [h1; h2] (KBin b h1 h2) (fun s => newTensor s (bin_math b (base (at_ ps x)) (base (at_ ps y))) false).
Proof using I.
  intros en b x y h1 h2 E1 E2 HA. unfold applyFn, binForward. destruct (i_var _ _ _ I x h1 E1) as (_ & B1 & _). destruct (i_var _ _ _ I y h2 E2) as (_ & B2 & _).
  rewrite B1, B2, bin_value by auto. auto.
Qed.
Lemma exec_bin : forall theta en b x y h1 h2, nth_error (vars st) x = Some h1 -> nth_error (vars st) y = Some h2 -> arg_ok b (base (at_ ps x)) (base (at_ ps y)) ->
  exec1 theta en (SBin b x y) st
  = Some (let v := bin_math b (base (at_ ps x)) (base (at_ ps y)) in
          if en && (needs (at_ ps x) || needs (at_ ps y)) then stRec st v [] (KBin b h1 h2) (fnsOf st [x; y]) else stConst st v).
Proof using I.
  intros theta en b x y h1 h2 E1 E2 HA. cbn [exec1]. rewrite E1, E2. rewrite (apply_bin en b x y h1 h2) by auto.
  rewrite (apply_fresh en [x; y]) by auto. cbn zeta. pose proof (fns_two x y) as HN. destruct en; cbn [andb]; [|reflexivity].
  destruct (fnsOf st [x; y]); rewrite <- HN; cbn [option_map]; unfold addVar, stRec, stConst; cbn [fst snd impls metas funcs vars app]; rewrite ?app_nil_r; auto.
Qed.
Lemma exec_sum : forall theta en x h, nth_error (vars st) x = Some h -> needs (at_ ps x) = false -> exec1 theta en (SSum x) st = Some (stAlias st h).
Proof using I.
  intros theta en x h E Hn. cbn [exec1]. rewrite E. unfold applyFn. rewrite (collect_ok [x] [h]) by auto. destruct (i_var _ _ _ I x h E) as (_ & _ & C & _).
  pose proof (proj2 (fns_needs x) Hn) as HF. rewrite HF. assert (E1 : (if en then Some [] else Some []) = Some ([] : list nat)) by (destruct en; auto). rewrite E1.
  cbn [sumForward]. rewrite C, Hn. reflexivity.
Qed.
Lemma exec_in : forall theta en b x y h1 h2, nth_error (vars st) x = Some h1 -> nth_error (vars st) y = Some h2 -> arg_ok b (base (at_ ps x)) (base (at_ ps y)) ->
  exec1 theta en (SIn b x y) st = Some (stIn st x h1 (bin_math b (base (at_ ps x)) (base (at_ ps y)))).
Proof using I.
  intros theta en b x y h1 h2 E1 E2 HA. cbn [exec1]. rewrite E1, E2. rewrite (apply_bin en b x y h1 h2) by auto. rewrite (apply_fresh en [x; y]) by auto. cbn [option_map]. f_equal.
  unfold inplaceSet, stIn, getVal, getImpl. destruct (if en then fnsOf st [x; y] else []); cbn [fst snd himpl impls]; rewrite app_nth2, Nat.sub_diag by auto; cbn [nth ival]; rewrite setNth_last; auto.
Qed.
Lemma exec_fill : forall theta en x h v, nth_error (vars st) x = Some h -> exec1 theta en (SFill x v) st = Some (stFill st h v).
Proof using. intros theta en x h v E. cbn [exec1]. rewrite E. auto. Qed.
End Exec.

(** * Derivatives of the operations *)
Section Derivatives.
Open Scope R_scope.
Definition un_slope (u : unop) (a : R) : R := match u with USin => cos a | UCos => - sin a | UReshape => 1 end.
Definition bin_slope1 (b : binop) (x y : R) : R := match b with BAdd | BSub => 1 | BMul => y | BDiv => / y | BPow => y * Rpower x (y - 1) end.
Definition bin_slope2 (b : binop) (x y : R) : R := match b with BAdd => 1 | BSub => -1 | BMul => x | BDiv => - x / (y * y) | BPow => Rpower x y * ln x end.
Lemma un_derivative : forall u F a d, derivable_pt_lim F a d -> derivable_pt_lim (fun t => un_math u (F t)) a (un_slope u (F a) * d).
Proof.
  intros u F a d H. destruct u; cbn [un_math un_slope].
  - apply (derivable_pt_lim_comp F sin); auto. apply derivable_pt_lim_sin.
  - apply (derivable_pt_lim_comp F cos); auto. apply derivable_pt_lim_cos.
  - rewrite Rmult_1_l. apply H.
Qed.
Lemma derivable_lim_eq : forall F a d e, derivable_pt_lim F a d -> d = e -> derivable_pt_lim F a e.
Proof. intros. subst. auto. Qed.
Lemma derivable_lim_ext : forall F G a d, (forall t, F t = G t) -> derivable_pt_lim F a d -> derivable_pt_lim G a d.
Proof. intros F G a d E H eps He. destruct (H eps He) as (delta & Hd). exists delta. intros h. rewrite <- !E. auto. Qed.
Lemma derivable_near : forall F G a d delta, 0 < delta -> (forall t, Rabs (t - a) < delta -> F t = G t) -> derivable_pt_lim F a d -> derivable_pt_lim G a d.
Proof.
  intros F G a d delta Hd E H eps He. destruct (H eps He) as (del & Hdel). assert (Hm : 0 < Rmin del delta) by (apply Rmin_glb_lt; auto; apply cond_pos).
  exists (mkposreal _ Hm). intros h Hh Hb. cbn in Hb. rewrite <- !E.
  - apply Hdel; auto. eapply Rlt_le_trans; [exact Hb|apply Rmin_l].
  - replace (a - a) with 0 by ring. rewrite Rabs_R0. auto.
  - replace (a + h - a) with h by ring. eapply Rlt_le_trans; [exact Hb|apply Rmin_r].
Qed.
Lemma bin_derivative : forall b F G a d e, derivable_pt_lim F a d -> derivable_pt_lim G a e -> arg_ok b (F a) (G a) ->
  derivable_pt_lim (fun t => bin_math b (F t) (G t)) a (bin_slope1 b (F a) (G a) * d + bin_slope2 b (F a) (G a) * e).
Proof.
  intros b F G a d e HF HG HA. destruct b; cbn [bin_math bin_slope1 bin_slope2 arg_ok] in *.
  - eapply derivable_lim_eq; [apply (derivable_pt_lim_plus F G); eauto|ring].
  - eapply derivable_lim_eq; [apply (derivable_pt_lim_minus F G); eauto|ring].
  - eapply derivable_lim_eq; [apply (derivable_pt_lim_mult F G); eauto|ring].
  - eapply derivable_lim_eq; [apply (derivable_pt_lim_div F G); eauto|unfold Rsqr; field; auto].
  - assert (HL : derivable_pt_lim (fun t => ln (F t)) a (/ F a * d)) by (apply (derivable_pt_lim_comp F ln); auto; apply derivable_pt_lim_ln; auto).
    eapply derivable_lim_eq.
    + unfold Rpower. apply (derivable_pt_lim_comp (fun t => G t * ln (F t)) exp); [apply (derivable_pt_lim_mult G (fun t => ln (F t))); eauto|apply derivable_pt_lim_exp].
    + cbn beta. assert (E : Rpower (F a) (G a - 1) = exp (G a * ln (F a)) * / F a).
      { unfold Rminus. rewrite Rpower_plus, Rpower_Ropp, Rpower_1 by auto. auto. }
      rewrite E. unfold Rpower. ring.
Qed.
End Derivatives.

(** * The gradient a step adds *)
Section Slopes.
Open Scope R_scope.
Definition edgeSum (st : hstate) (fl : nat) (ds : list (nat * delivery Rg)) : R :=
  fold_right (fun e s => (factor (snd e) (1 : Rg) : R) * total (plain st) (fst e) fl (1 : Rg) + s) 0 ds.
Lemma edgeSum_cons : forall st fl e ds, edgeSum st fl (e :: ds) = (factor (snd e) (1 : Rg) : R) * total (plain st) (fst e) fl (1 : Rg) + edgeSum st fl ds.
Proof. reflexivity. Qed.
Lemma edgeSum_app : forall st fl a b, edgeSum st fl (a ++ b) = edgeSum st fl a + edgeSum st fl b.
Proof.
  intros st fl a b. induction a as [|x a IH]; [change (edgeSum st fl b = 0 + edgeSum st fl b); ring|]. cbn [app]. rewrite !edgeSum_cons, IH. ring.
Qed.
Lemma combine_app' : forall {A B} (a c : list A) (b d : list B), length a = length b -> combine (a ++ c) (b ++ d) = combine a b ++ combine c d.
Proof. intros A B. induction a as [|x a IH]; intros c [|y b] d H; try discriminate; cbn; auto. rewrite IH; auto. Qed.
Lemma edge_one : forall st ps used x h d fl, Inv st ps used -> nth_error (vars st) x = Some h ->
  length (fnsOf st [x]) = length (toInput st h d)
  /\ edgeSum st fl (combine (fnsOf st [x]) (toInput st h d)) = (factor d (1 : Rg) : R) * slope st fl x.
Proof.
  intros st ps used x h d fl I E. destruct (i_var _ _ _ I x h E) as (_ & _ & C & D & F). unfold toInput, slope. rewrite C. unfold fnsOf. cbn [flat_map]. rewrite app_nil_r.
  destruct (needs (at_ ps x)) eqn:Hn.
  - destruct (needs_gradFn _ _ _ _ I Hn) as (f & ->). split; auto. unfold edgeSum. cbn [combine fold_right fst snd]. rg.
  - rewrite (gradFn_of st x h E), D by auto. split; auto. unfold edgeSum. cbn [combine fold_right fst snd]. rg.
Qed.
Lemma un_edges : forall st ps used u x h fl, Inv st ps used -> nth_error (vars st) x = Some h ->
  length (fnsOf st [x]) = length (rules st (KUn u h))
  /\ edgeSum st fl (combine (fnsOf st [x]) (rules st (KUn u h))) = un_slope u (base (at_ ps x)) * slope st fl x.
Proof.
  intros st ps used u x h fl I E. cbn [rules]. destruct (i_var _ _ _ I x h E) as (_ & B & _). rewrite B.
  split; [eapply (edge_one st ps used x h _ 0 I E)|]. rewrite (proj2 (edge_one st ps used x h _ fl I E)).
  destruct u; cbn; unfold opSinBackwardP1, opCosBackwardP1; ring.
Qed.
Lemma bin_edges : forall st ps used b x y h1 h2 fl, Inv st ps used -> nth_error (vars st) x = Some h1 -> nth_error (vars st) y = Some h2 ->
  arg_ok b (base (at_ ps x)) (base (at_ ps y)) ->
  length (fnsOf st [x; y]) = length (rules st (KBin b h1 h2))
  /\ edgeSum st fl (combine (fnsOf st [x; y]) (rules st (KBin b h1 h2)))
     = bin_slope1 b (base (at_ ps x)) (base (at_ ps y)) * slope st fl x + bin_slope2 b (base (at_ ps x)) (base (at_ ps y)) * slope st fl y.
Proof.
  intros st ps used b x y h1 h2 fl I E1 E2 HA.
  assert (HS : fnsOf st [x; y] = fnsOf st [x] ++ fnsOf st [y]) by (unfold fnsOf; cbn [flat_map]; rewrite !app_nil_r; auto). rewrite HS.
  destruct (i_var _ _ _ I x h1 E1) as (_ & B1 & _). destruct (i_var _ _ _ I y h2 E2) as (_ & B2 & _).
  assert (HG : forall d1 d2, length (fnsOf st [x] ++ fnsOf st [y]) = length (toInput st h1 d1 ++ toInput st h2 d2)
    /\ edgeSum st fl (combine (fnsOf st [x] ++ fnsOf st [y]) (toInput st h1 d1 ++ toInput st h2 d2)) = (factor d1 (1 : Rg) : R) * slope st fl x + (factor d2 (1 : Rg) : R) * slope st fl y).
  { intros d1 d2. destruct (edge_one st ps used x h1 d1 fl I E1) as [L1 S1]. destruct (edge_one st ps used y h2 d2 fl I E2) as [L2 S2].
    split; [rewrite !app_length; lia|]. rewrite combine_app', edgeSum_app, S1, S2 by auto. auto. }
  cbn [rules]. rewrite B1, B2. destruct b; cbn [bin_slope1 bin_slope2 arg_ok] in *; match goal with |- length _ = length (toInput _ _ ?d1 ++ toInput _ _ ?d2) /\ _ => destruct (HG d1 d2) as [L S]; split; [exact L|]; rewrite S end; cbn [factor]; unfold opMul, opDiv, opDivBackwardP2, opPowBackwardP1, opPowBackwardP2.
  - ring.
  - ring.
  - ring.
  - field. auto.
  - unfold stdpow. destruct (Rlt_dec 0 (base (at_ ps x))); [|tauto]. ring.
Qed.
Lemma gsum_edges : forall st fl ds, (forall t d, In (t, d) ds -> scales d /\ (t < length (plain st))%nat) -> acyclic (plain st) ->
  gsum (V := Rg) (map (fun e => total (plain st) (fst e) fl (factor (snd e) (1 : Rg))) ds) = edgeSum st fl ds.
Proof.
  intros st fl ds H AC. induction ds as [|[t d] ds IH]; auto. rewrite edgeSum_cons. cbn [map fst snd]. rewrite gsum_cons, IH by (intros; apply H; right; auto).
  destruct (H t d (or_introl eq_refl)) as [HS Ht]. rewrite (total_scale (plain st)) by (auto using plain_scaling). change (@gadd Rg) with Rplus. f_equal. ring.
Qed.
End Slopes.

Section Graphs.
Variables (st : hstate) (ps : list point) (used : list nat).
Hypothesis I : Inv st ps used.
Variables (v : R) (pre : list func) (k : saved) (fs : list nat).
Hypothesis Hpre : pre = [] \/ pre = [Func KLeaf []].
Hypothesis Hk : forall h, In h (savedOf k) -> himpl h < length (impls st).
Hypothesis Hfs : forall t, In t fs -> exists w, gradFnOf st w = Some t.
Hypothesis HL : length fs = length (rules st k).
Let st' := stRec st v pre k fs.
Let g1 := plain st ++ map (fun _ => FLeaf) pre.
Lemma pre_leaf : forall f, In f pre -> f = Func KLeaf [].
Proof. intros f Hf. destruct Hpre as [->| ->]; [inversion Hf|destruct Hf as [<-|[]]; auto]. Qed.
Lemma plain' : plain st' = g1 ++ [node st (Func k fs)].
Proof. unfold st', g1. rewrite (plain_rec st ps used) by (auto using pre_leaf). rewrite app_assoc. auto. Qed.
Lemma g1_length : length g1 = length (funcs st ++ pre).
Proof. unfold g1. rewrite !app_length, map_length, plain_length. auto. Qed.
Lemma node_next : forall t, In t (nexts (node st (Func k fs))) -> In t fs.
Proof. intros t Ht. unfold nexts, node in Ht. destruct k; cbn [deliveries kept nextFns] in Ht; [inversion Ht| | |]; apply in_map_iff in Ht; destruct Ht as ([a0 b0] & <- & Ht); apply in_combine_l in Ht; auto. Qed.
Lemma node_scales : forall t d, In (t, d) (deliveries (node st (Func k fs))) -> scales d.
Proof. intros t d H. apply node_deliveries in H. apply in_combine_r in H. eapply rules_scale; eauto. Qed.
Lemma g1_ac : acyclic g1.
Proof. unfold g1. destruct Hpre as [->| ->]; cbn [map]; [rewrite app_nil_r|apply exec_app_acyclic; [|intros t []]]; eapply plain_acyclic; eauto. Qed.
Lemma g1_sc : scaling g1.
Proof.
  unfold g1. intros u f t d E Hd. destruct (Nat.lt_ge_cases u (length (plain st))) as [H|H]; [rewrite nth_error_app1 in E by auto; eapply plain_scaling; eauto|].
  rewrite nth_error_app2 in E by auto. apply nth_error_In, in_map_iff in E. destruct E as (x & <- & _). inversion Hd.
Qed.
Lemma g1_old : forall root fl (s : Rg), root < length (funcs st) -> fl < length (funcs st) -> total g1 root fl s = total (plain st) root fl s.
Proof.
  intros root fl s H1 H2. unfold g1. destruct Hpre as [->| ->]; cbn [map]; [rewrite app_nil_r; auto|].
  apply total_old; [eapply plain_acyclic; eauto|apply scaling_linear, plain_scaling|intros t []|intros t d []| |]; rewrite plain_length; auto.
Qed.
Lemma fs_lt : forall t, In t fs -> t < length (funcs st).
Proof. intros t Ht. destruct (Hfs t Ht) as (w & Hw). apply (gradFn_lt _ _ _ _ _ I) in Hw. lia. Qed.
Let HF : forall t, In t (nexts (node st (Func k fs))) -> t < length g1.
Proof. intros t Ht. rewrite g1_length, app_length. apply node_next, fs_lt in Ht. lia. Qed.
Let LF : forall t d, In (t, d) (deliveries (node st (Func k fs))) -> linear (factor d).
Proof. intros t d H. apply scales_linear. eapply node_scales; eauto. Qed.

Lemma slope_old : forall root fl (s : Rg), root < length (funcs st) -> fl < length (funcs st) -> total (plain st') root fl s = total (plain st) root fl s.
Proof.
  intros root fl s H1 H2. rewrite plain', total_old; auto using g1_ac, scaling_linear, g1_sc; try (rewrite g1_length, app_length; lia). apply g1_old; auto.
Qed.
Lemma slope_new : forall fl, fl < length (funcs st) -> k <> KLeaf -> total (plain st') (length (funcs st ++ pre)) fl (1%R : Rg) = edgeSum st fl (combine fs (rules st k)).
Proof.
  intros fl H Hkl. rewrite plain', <- g1_length, total_new; auto using g1_ac, scaling_linear, g1_sc; [|rewrite g1_length, app_length; lia].
  rewrite <- gsum_edges; [|intros t d Hd; split; [eapply rules_scale; eapply in_combine_r; eauto|rewrite plain_length; apply fs_lt; eapply in_combine_l; eauto]|eapply plain_acyclic; eauto].
  assert (E : deliveries (node st (Func k fs)) = combine fs (rules st k)) by (unfold node; destruct k; try congruence; auto). rewrite E. f_equal.
  apply map_ext_in. intros [t d] Hd. cbn [fst snd]. apply g1_old; auto. apply fs_lt. eapply in_combine_l; eauto.
Qed.
Lemma slope_self : total (plain st') (length (funcs st ++ pre)) (length (funcs st ++ pre)) (1%R : Rg) = 1%R.
Proof. rewrite plain', <- g1_length. apply total_self; auto using g1_ac, scaling_linear, g1_sc. Qed.
Lemma slope_beyond : forall root, root < length (funcs st) -> total (plain st') root (length (funcs st ++ pre)) (1%R : Rg) = 0%R.
Proof. 
  intros root H. rewrite plain'. assert (HA : acyclic (g1 ++ [node st (Func k fs)])) by (apply exec_app_acyclic; auto using g1_ac).
  refine (total_beyond (V := Rg) _ root _ _ HA _). rewrite app_length. lia.
Qed.
End Graphs.
