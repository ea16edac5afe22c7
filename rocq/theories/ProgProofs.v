(** Path sums when a function is added to the graph. *)
From Coq Require Import ZArith List Bool Arith Lia Permutation Reals Lra.
From Verif Require Import AutogradModel AutogradSpec AutogradProofs AutogradProofs2 AutogradProofs3 ProgModel.
Import ListNotations.

Section Extend.
Context {V : gvalues}.
Implicit Types (g : graph V) (f : fn V).

Definition to (f : fn V) (v : nat) : list (delivery V) := map snd (filter (fun e => fst e =? v) (deliveries f)).

Lemma edges_extend : forall g f v, edges_to (g ++ [f]) v = edges_to g v ++ map (pair (length g)) (to f v).
Proof.
  intros g f v. unfold edges_to. rewrite app_length. cbn [length]. rewrite Nat.add_1_r, seq_S, Nat.add_0_l, flat_map_app. f_equal.
  - rewrite !flat_map_concat_map. f_equal. apply map_ext_in. intros u Hu. apply in_seq in Hu. rewrite nth_error_app1 by lia. auto.
  - cbn [flat_map]. rewrite nth_error_app2, Nat.sub_diag by lia. cbn [nth_error]. rewrite app_nil_r. unfold to. rewrite map_map. auto.
Qed.
Lemma linear_extend : forall g f, linear_rules g -> (forall t d, In (t, d) (deliveries f) -> linear (factor d)) -> linear_rules (g ++ [f]).
Proof.
  intros g f LR H u h t d E Hd. destruct (Nat.lt_ge_cases u (length g)) as [Hl|Hl].
  - rewrite nth_error_app1 in E by auto. eapply LR; eauto.
  - rewrite nth_error_app2 in E by auto. destruct (u - length g) as [|k]; [injection E as <-; eauto|]. destruct k; discriminate.
Qed.
Lemma gsum_add : forall {A} (F G : A -> V) l, gsum (map (fun x => gadd (F x) (G x)) l) = gadd (gsum (map F l)) (gsum (map G l)).
Proof.
  intros A F G l. induction l as [|x l IH]; cbn [map]; [symmetry; apply gadd_0|]. rewrite !gsum_cons, IH.
  rewrite !gadd_assoc. f_equal. rewrite <- !gadd_assoc. f_equal. apply gadd_comm.
Qed.
Lemma gsum_swap : forall {A B} (F : A -> B -> V) l m, gsum (map (fun x => gsum (map (F x) m)) l) = gsum (map (fun y => gsum (map (fun x => F x y) l)) m).
Proof.
  intros A B F l m. induction l as [|x l IH]; cbn [map].
  - symmetry. apply gsum_zero. auto.
  - rewrite gsum_cons, IH, <- gsum_add. f_equal.
Qed.
Lemma total_beyond : forall g root v s, acyclic g -> root < v -> total g root v s = gzero.
Proof. intros g root v s AC H. unfold total, paths. rewrite paths_beyond; auto. Qed.

Lemma edges_old : forall g v e, In e (edges_to g v) -> fst e < length g.
Proof.
  intros g v e H. unfold edges_to in H. apply in_flat_map in H. destruct H as (u & Hu & H). apply in_seq in Hu.
  destruct (nth_error g u); [|inversion H]. apply in_map_iff in H. destruct H as (x & <- & _). cbn. lia.
Qed.


Section One.
Variables (g : graph V) (f : fn V).
Hypothesis AC : acyclic g.
Hypothesis LR : linear_rules g.
Hypothesis HF : forall t, In t (nexts f) -> t < length g.
Hypothesis LF : forall t d, In (t, d) (deliveries f) -> linear (factor d).
Let g' := g ++ [f].
Lemma ac' : acyclic g'.
Proof using AC HF. apply exec_app_acyclic; auto. Qed.
Lemma lr' : linear_rules g'.
Proof using LR LF. apply linear_extend; auto. Qed.
Lemma len' : length g' = S (length g).
Proof. unfold g'. rewrite app_length. cbn. lia. Qed.
Lemma to_linear : forall v d, In d (to f v) -> linear (factor d).
Proof using LF. intros v d H. unfold to in H. apply in_map_iff in H. destruct H as ([t e] & <- & H). apply filter_In in H. destruct H as [H _]. cbn. eapply LF; eauto. Qed.
(** Old roots: nothing changes. *)
Lemma total_old : forall root v s, root < length g -> v < length g -> total g' root v s = total g root v s.
Proof using AC LR HF LF.
  intros root v s Hr. remember (length g - v) as k eqn:Ek. revert v Ek. induction k as [k IH] using lt_wf_ind. intros v Ek Hv.
  rewrite (total_eq g' ac' lr'), (total_eq g AC LR) by (rewrite ?len'; lia). f_equal. unfold g'. rewrite edges_extend, map_app, gsum_app. fold g'.
  rewrite map_map. cbn [fst snd]. rewrite (gsum_zero (fun d => factor d (total g' root (length g) s))).
  - rewrite gadd_comm, gadd_0. f_equal. apply map_ext_in. intros e He. f_equal. pose proof (edges_to_gt g AC v e He). pose proof (edges_old g v e He).
    apply (IH (length g - fst e)); auto. lia.
  - intros d Hd. rewrite total_beyond by (auto using ac'). apply (to_linear _ _ Hd).
Qed.
(** The new function as root. *)
Lemma total_self : forall s, total g' (length g) (length g) s = s.
Proof using AC LR HF LF.
  intros s. rewrite (total_eq g' ac' lr') by (rewrite len'; lia). rewrite Nat.eqb_refl. rewrite gsum_zero; [rewrite gadd_comm; apply gadd_0|].
  intros e He. pose proof (edges_to_gt g' ac' _ e He). unfold g' in He. rewrite edges_extend in He. apply in_app_iff in He. destruct He as [He|He].
  - apply edges_old in He. lia.
  - apply in_map_iff in He. destruct He as (d & <- & He). cbn [fst] in *. lia.
Qed.
Lemma total_new : forall v s, v < length g -> total g' (length g) v s = gsum (map (fun e => total g (fst e) v (factor (snd e) s)) (deliveries f)).
Proof using AC LR HF LF.
  intros v s. remember (length g - v) as k eqn:Ek. revert v Ek. induction k as [k IH] using lt_wf_ind. intros v Ek Hv.
  rewrite (total_eq g' ac' lr') by (rewrite len'; lia). destruct (Nat.eqb_spec v (length g)); [lia|]. rewrite gadd_0.
  unfold g'. rewrite edges_extend, map_app, gsum_app. fold g'. rewrite map_map. cbn [fst snd].
  transitivity (gadd (gsum (map (fun e => gsum (map (fun d => factor (snd e) (total g (fst d) (fst e) (factor (snd d) s))) (deliveries f))) (edges_to g v)))
                     (gsum (map (fun d => if v =? fst d then factor (snd d) s else gzero) (deliveries f)))).
  - f_equal.
    + f_equal. apply map_ext_in. intros e He. pose proof (edges_to_gt g AC v e He). pose proof (edges_old g v e He).
      rewrite (IH (length g - fst e)) by lia. rewrite <- gsum_linear by (eapply edges_to_linear; eauto). rewrite map_map. auto.
    + rewrite (map_ext_in _ (fun d => factor d s)) by (intros d Hd; rewrite total_self; auto).
      unfold to. clear. induction (deliveries f) as [|[t d] l IH]; auto. cbn [filter fst map snd]. rewrite (Nat.eqb_sym v t). destruct (t =? v); cbn [map snd]; rewrite !gsum_cons, IH; auto.
      symmetry. apply gadd_0.
  - rewrite gsum_swap. rewrite <- gsum_add. f_equal. apply map_ext_in. intros d Hd.
    rewrite (total_eq g AC LR (fst d) v) by (apply HF; unfold nexts; apply in_map_iff; eauto). rewrite gadd_comm. auto.
Qed.
End One.
End Extend.

(** Over the reals, with rules that multiply by a factor. *)
Open Scope R_scope.
Ltac rg := match goal with |- @eq _ ?a ?b => change (@eq R a b) end; change (gcar Rg) with R in *; ring.
Definition scales (d : delivery Rg) : Prop := forall x : R, (factor d (x : Rg) : R) = (factor d (1 : Rg) : R) * x.
Lemma scales_linear : forall d, scales d -> linear (factor d).
Proof.
  intros d H. split.
  - change (factor d (0 : Rg) = (0 : R)). rewrite H. rg.
  - intros x y. change (factor d ((x + y : R) : Rg) = (factor d x : R) + (factor d y : R)). rewrite (H (x + y)), (H x), (H y). rg.
Qed.
Definition scaling (g : graph Rg) : Prop := forall u f t d, nth_error g u = Some f -> In (t, d) (deliveries f) -> scales d.
Lemma scaling_linear : forall g, scaling g -> linear_rules g.
Proof. intros g H u f t d E Hd. apply scales_linear. eapply H; eauto. Qed.
Lemma total_scale : forall g root v (s : R), acyclic g -> scaling g -> (root < length g)%nat ->
  total g root v (s : Rg) = (total g root v (1 : Rg) : R) * s.
Proof.
  intros g root v s AC SC Hr. remember (length g - v)%nat as k eqn:Ek. revert v Ek. induction k as [k IH] using lt_wf_ind. intros v Ek.
  destruct (Nat.lt_ge_cases root v) as [Hv|Hv].
  { rewrite !total_beyond by auto. change (0 = 0 * s). rg. }
  rewrite (total_eq g AC (scaling_linear g SC) root v s), (total_eq g AC (scaling_linear g SC) root v (1 : Rg)) by auto.
  change (@gadd Rg) with Rplus. rewrite Rmult_plus_distr_r. f_equal.
  - destruct (v =? root); change (@gzero Rg) with 0; rg.
  - assert (HE : forall l, (forall e, In e l -> In e (edges_to g v)) ->
      gsum (V := Rg) (map (fun e => factor (snd e) (total g root (fst e) (s : Rg))) l)
      = (gsum (V := Rg) (map (fun e => factor (snd e) (total g root (fst e) (1 : Rg))) l) : R) * s).
    { induction l as [|e l IHl]; intros Hl; cbn [map]; [change (0 = 0 * s); ring|]. rewrite !gsum_cons, IHl by (intros; apply Hl; right; auto).
      change (@gadd Rg) with Rplus. rewrite Rmult_plus_distr_r. f_equal.
      assert (He : In e (edges_to g v)) by (apply Hl; left; auto). pose proof (edges_to_gt g AC v e He). pose proof (edges_old g v e He).
      rewrite (IH (length g - fst e)%nat) by lia.
      assert (HS : scales (snd e)).
      { unfold edges_to in He. apply in_flat_map in He. destruct He as (u & _ & He). destruct (nth_error g u) as [f|] eqn:E; [|inversion He].
        apply in_map_iff in He. destruct He as ([t d] & <- & He). apply filter_In in He. destruct He as [He _]. eapply SC; eauto. }
      rewrite (HS (total g root (fst e) (1 : Rg) * s)), (HS (total g root (fst e) (1 : Rg))). rg. }
    apply HE. auto.
Qed.
