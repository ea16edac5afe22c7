(** The order of the backward pass. *)
From Coq Require Import ZArith List Bool Arith Lia Permutation ZifyBool ZifyNat.
From Verif Require Import AutogradModel AutogradSpec.
Import ListNotations.

Lemma NoDup_app_inv {A} (a c : list A) :
  NoDup (a ++ c) -> NoDup a /\ NoDup c /\ (forall x, In x a -> In x c -> False).
Proof.
  induction a as [|x a IH]; simpl; intro H.
  - repeat split; auto. constructor.
  - inversion H as [|? ? Hx Hnd]; subst. destruct (IH Hnd) as (Ha & Hc & Hd). repeat split; auto.
    + constructor; auto. intro Hin; apply Hx; apply in_or_app; auto.
    + intros y [-> | Hy] Hyc; [apply Hx; apply in_or_app; auto | eapply Hd; eauto].
Qed.
Lemma NoDup_app_intro {A} (a c : list A) :
  NoDup a -> NoDup c -> (forall x, In x a -> In x c -> False) -> NoDup (a ++ c).
Proof.
  induction a as [|x a IH]; simpl; intros Ha Hc Hd; auto.
  inversion Ha as [|? ? Hx Ha']; subst. constructor.
  - intro Hin. apply in_app_or in Hin. destruct Hin; eauto.
  - apply IH; auto. intros y Hy Hyc; eapply Hd; eauto.
Qed.
Lemma mem_in : forall x l, mem x l = true <-> In x l.
Proof.
  intros x l. unfold mem. rewrite existsb_exists. split; [intros (y & H & E); apply Nat.eqb_eq in E; subst; auto|].
  intros H. exists x. split; auto. apply Nat.eqb_refl.
Qed.

Notation occ := (count_occ Nat.eq_dec).

Lemma countEdges_spec : forall ns q T deps, exists new T' deps', countEdges ns q T deps = (q ++ new, T', deps')
  /\ (forall v, deps' v = deps v + Z.of_nat (occ ns v))%Z
  /\ NoDup new /\ (forall x, In x new <-> In x ns /\ ~ In x T) /\ (forall x, In x T' <-> In x T \/ In x ns).
Proof.
  induction ns as [|n ns IH]; intros q T deps; cbn [countEdges].
  - exists [], T, deps. rewrite app_nil_r. repeat split; auto; try constructor; cbn; intros; try tauto; try lia.
  - assert (HU : forall v, (upd deps n (deps n + 1) v + Z.of_nat (occ ns v) = deps v + Z.of_nat (occ (n :: ns) v))%Z).
    { intros v. unfold upd. cbn [count_occ]. destruct (Nat.eqb_spec v n), (Nat.eq_dec n v); subst; try lia; congruence. }
    destruct (mem n T) eqn:E.
    + apply mem_in in E. destruct (IH q T (upd deps n (deps n + 1)%Z)) as (new & T' & deps' & H1 & H2 & H3 & H4 & H5).
      exists new, T', deps'. split; auto. split; [intros v; rewrite H2; auto|]. split; auto. split.
      * intros x. rewrite H4. cbn [In]. split; [tauto|]. intros [[<-|H] HT]; auto. tauto.
      * intros x. rewrite H5. cbn [In]. split; [tauto|]. intros [H|[<-|H]]; auto.
    + assert (~ In n T) by (intros H; apply mem_in in H; congruence).
      destruct (IH (q ++ [n]) (n :: T) (upd deps n (deps n + 1)%Z)) as (new & T' & deps' & H1 & H2 & H3 & H4 & H5).
      exists (n :: new), T', deps'. split; [rewrite H1, <- app_assoc; auto|]. split; [intros v; rewrite H2; auto|]. split.
      * constructor; auto. rewrite H4. cbn [In]. tauto.
      * split.
        -- intros x. cbn [In]. rewrite H4. cbn [In]. split; [intros [<-|[H6 H7]]; tauto|]. intros [[<-|H6] H7]; auto.
           destruct (Nat.eq_dec n x); auto. right. split; auto. tauto.
        -- intros x. rewrite H5. cbn [In]. tauto.
Qed.

Lemma releaseEdges_spec : forall ns q deps, (forall v, (Z.of_nat (occ ns v) <= deps v)%Z) ->
  exists new deps', releaseEdges ns q deps = (q ++ new, deps')
  /\ (forall v, deps' v = deps v - Z.of_nat (occ ns v))%Z
  /\ NoDup new /\ (forall x, In x new <-> In x ns /\ deps' x = 0%Z).
Proof.
  induction ns as [|n ns IH]; intros q deps Hd; cbn [releaseEdges].
  - exists [], deps. rewrite app_nil_r. split; auto. split; [intros v; cbn; lia|]. split; [constructor|]. intros x. cbn. tauto.
  - assert (HU : forall v, (upd deps n (deps n - 1) v - Z.of_nat (occ ns v) = deps v - Z.of_nat (occ (n :: ns) v))%Z).
    { intros v. unfold upd. cbn [count_occ]. destruct (Nat.eqb_spec v n), (Nat.eq_dec n v); subst; try lia; congruence. }
    assert (Hd' : forall v, (Z.of_nat (occ ns v) <= upd deps n (deps n - 1) v)%Z).
    { intros v. specialize (Hd v). specialize (HU v). lia. }
    replace (upd deps n (deps n - 1)%Z n) with (deps n - 1)%Z by (unfold upd; rewrite Nat.eqb_refl; auto).
    destruct (Z.eqb_spec (deps n - 1) 0) as [E|E].
    + assert (Hn : ~ In n ns). { intros H. apply (count_occ_In Nat.eq_dec) in H. specialize (Hd' n). unfold upd in Hd'. rewrite Nat.eqb_refl in Hd'. lia. }
      destruct (IH (q ++ [n]) _ Hd') as (new & deps' & H1 & H2 & H3 & H4).
      exists (n :: new), deps'. split; [rewrite H1, <- app_assoc; auto|]. split; [intros v; rewrite H2; auto|].
      assert (En : deps' n = 0%Z). { rewrite H2. unfold upd. rewrite Nat.eqb_refl. apply (count_occ_not_In Nat.eq_dec) in Hn. lia. }
      split; [constructor; auto; rewrite H4; tauto|]. intros x. cbn [In]. rewrite H4. split; [intros [<-|[H6 H7]]; auto|]. intros [[<-|H6] H7]; auto.
    + destruct (IH q _ Hd') as (new & deps' & H1 & H2 & H3 & H4).
      exists new, deps'. split; auto. split; [intros v; rewrite H2; auto|]. split; auto. intros x. rewrite H4. cbn [In]. split; [tauto|].
      intros [[<-|H6] H7]; auto. split; auto. rewrite H2 in H7. unfold upd in H7. rewrite Nat.eqb_refl in H7.
      apply (count_occ_In Nat.eq_dec). lia.
Qed.

Section Graph.
Context {V : gvalues}.
Variable g : graph V.
Hypothesis AC : acyclic g.
Variable root : nat.
Hypothesis Hroot : root < length g.

Definition nx (u : nat) : list nat := match nth_error g u with Some f => nexts f | None => [] end.
Definition indeg (l : list nat) (v : nat) : nat := list_sum (map (fun u => occ (nx u) v) l).

Lemma nx_lt : forall u v, In v (nx u) -> v < u.
Proof. intros u v. unfold nx. destruct (nth_error g u) eqn:E; [|intros []]. eauto. Qed.
Lemma reach_nx : forall u v, reach g root u -> In v (nx u) -> reach g root v.
Proof. intros u v R. unfold nx. destruct (nth_error g u) eqn:E; [|intros []]. intros H. econstructor; eauto. Qed.
Lemma reach_le : forall v, reach g root v -> v <= root.
Proof. induction 1 as [|v w f R IH E H]; auto. specialize (AC _ _ _ E H). lia. Qed.
Lemma reach_pred : forall v, reach g root v -> v = root \/ exists u, reach g root u /\ In v (nx u).
Proof. intros v [|u w f R E H]; auto. right. exists u. split; auto. unfold nx. rewrite E. auto. Qed.
Lemma nx_some : forall u, u < length g -> exists f, nth_error g u = Some f /\ nx u = nexts f.
Proof. intros u H. unfold nx. destruct (nth_error g u) eqn:E; eauto. apply nth_error_None in E. lia. Qed.

Lemma indeg_app : forall a b v, indeg (a ++ b) v = indeg a v + indeg b v.
Proof. intros a b v. unfold indeg. rewrite map_app, list_sum_app. auto. Qed.
Lemma indeg_1 : forall u v, indeg [u] v = occ (nx u) v.
Proof. intros u v. unfold indeg. cbn [map list_sum fold_right]. lia. Qed.
Lemma indeg_0 : forall l v, indeg l v = 0 -> forall u, In u l -> ~ In v (nx u).
Proof.
  intros l v H u Hu HI. unfold indeg in H. apply (count_occ_In Nat.eq_dec) in HI.
  induction l as [|x l IH]; [inversion Hu|]. cbn [map list_sum fold_right] in H. destruct Hu as [<-|Hu]; [lia|]. apply IH; auto. unfold list_sum. lia.
Qed.
Lemma indeg_none : forall l v, (forall u, In u l -> ~ In v (nx u)) -> indeg l v = 0.
Proof.
  intros l v H. unfold indeg. induction l as [|x l IH]; auto. change (occ (nx x) v + list_sum (map (fun u => occ (nx u) v) l) = 0). rewrite IH by (intros; apply H; cbn; auto).
  assert (occ (nx x) v = 0) by (apply count_occ_not_In, H; cbn; auto). lia.
Qed.
Lemma indeg_perm : forall l l' v, Permutation l l' -> indeg l v = indeg l' v.
Proof. intros l l' v P. unfold indeg. induction P; cbn [map list_sum fold_right] in *; unfold list_sum in *; lia. Qed.
Lemma rest_of : forall R out : list nat, NoDup R -> NoDup out -> incl out R -> exists rest, Permutation R (out ++ rest) /\ forall x, In x rest <-> In x R /\ ~ In x out.
Proof.
  intros R out NR NO HI. exists (filter (fun x => negb (mem x out)) R).
  assert (HF : forall x, In x (filter (fun x => negb (mem x out)) R) <-> In x R /\ ~ In x out).
  { intros x. rewrite filter_In, negb_true_iff. rewrite <- not_true_iff_false, mem_in. tauto. }
  split; auto. apply NoDup_Permutation; auto.
  - apply NoDup_app_intro; auto; [apply NoDup_filter; auto|]. intros x Hx H. apply HF in H. tauto.
  - intros x. rewrite in_app_iff, HF. destruct (in_dec Nat.eq_dec x out); intuition.
Qed.

Lemma countDeps_spec : forall fuel D q T deps,
  NoDup (D ++ q) -> (forall x, In x T <-> In x (D ++ q)) -> (forall x, In x (D ++ q) -> reach g root x) ->
  In root (D ++ q) -> (forall u v, In u D -> In v (nx u) -> In v T) ->
  (forall v, deps v = Z.of_nat (indeg D v)) -> length g < fuel + length D ->
  exists R deps', countDeps g fuel q T deps = Some deps' /\ NoDup R /\ (forall x, In x R <-> reach g root x)
  /\ forall v, deps' v = Z.of_nat (indeg R v).
Proof.
  induction fuel as [|fuel IH]; intros D q T deps ND HT HR Hin Hcl Hd Hf.
  - exfalso. destruct (NoDup_app_inv D q ND) as (N1 & _ & _).
    assert (length D <= length (seq 0 (length g))).
    { apply NoDup_incl_length; auto. intros x Hx. apply in_seq. assert (x <= root) by (apply reach_le, HR, in_or_app; auto). lia. }
    rewrite seq_length in *. lia.
  - destruct q as [|u q]; cbn [countDeps].
    + rewrite app_nil_r in *. exists D, deps. split; auto. split; auto. split; auto. intros x. split; auto. induction 1 as [|v w f R IHR E H]; auto.
      apply HT. apply (Hcl v); auto. unfold nx. rewrite E. auto.
    + assert (Hu : reach g root u) by (apply HR, in_or_app; cbn; auto).
      destruct (nx_some u) as (f & E & Enx). { apply reach_le in Hu. lia. }
      rewrite E. destruct (countEdges_spec (nexts f) q T deps) as (new & T' & deps' & H1 & H2 & H3 & H4 & H5). rewrite H1.
      assert (HD : forall x, In x (D ++ u :: q) <-> In x ((D ++ [u]) ++ q)). { intros x. rewrite <- app_assoc. reflexivity. }
      apply (IH (D ++ [u]) (q ++ new) T' deps').
      * rewrite app_assoc, <- (app_assoc D). cbn [app]. apply NoDup_app_intro; auto. intros x Hx Hn. apply H4 in Hn. apply HT in Hx. tauto.
      * intros x. rewrite H5, app_assoc, in_app_iff, <- HD, H4, HT. rewrite <- Enx. destruct (in_dec Nat.eq_dec x (D ++ u :: q)); tauto.
      * intros x. rewrite app_assoc, in_app_iff, <- HD. intros [H|H]; auto. apply H4 in H. apply (reach_nx u); auto. rewrite Enx. tauto.
      * rewrite app_assoc, in_app_iff, <- HD. auto.
      * intros w v Hw Hv. apply H5. apply in_app_iff in Hw. destruct Hw as [Hw|[<-|[]]]; [left; eauto|right; rewrite <- Enx; auto].
      * intros v. rewrite H2, Hd, indeg_app. rewrite <- Enx. rewrite indeg_1. lia.
      * rewrite app_length. cbn [length]. lia.
Qed.

Lemma emit_spec : forall R, NoDup R -> (forall x, In x R <-> reach g root x) ->
  forall fuel out q deps, NoDup (out ++ q) -> (forall v, deps v = Z.of_nat (indeg R v) - Z.of_nat (indeg out v))%Z ->
  (forall v, In v (out ++ q) <-> In v R /\ deps v = 0%Z) ->
  (forall before u after, out = before ++ u :: after -> forall c, In c R -> In u (nx c) -> In c before) ->
  length g < fuel + length out ->
  exists rest, emit g fuel q deps = Some rest /\ NoDup (out ++ rest) /\ (forall v, In v (out ++ rest) <-> In v R)
  /\ (forall before u after, out ++ rest = before ++ u :: after -> forall c, In c R -> In u (nx c) -> In c before).
Proof.
  intros R NR HR. induction fuel as [|fuel IH]; intros out q deps ND Hd Hq Hb Hf.
  - exfalso. destruct (NoDup_app_inv out q ND) as (N1 & _ & _).
    assert (length out <= length (seq 0 (length g))).
    { apply NoDup_incl_length; auto. intros x Hx. apply in_seq. assert (x <= root) by (apply reach_le, HR, Hq, in_or_app; auto). lia. }
    rewrite seq_length in *. lia.
  - assert (IO : incl (out ++ q) R) by (intros x Hx; apply Hq in Hx; tauto).
    assert (NO : NoDup out) by (apply NoDup_app_inv in ND; tauto).
    assert (IO' : incl out R) by (intros x Hx; apply IO, in_or_app; auto).
    destruct (rest_of R out NR NO IO') as (rem & HP & Hrem).
    assert (HI : forall v, deps v = Z.of_nat (indeg rem v)). { intros v. rewrite Hd, (indeg_perm _ _ v HP), indeg_app. lia. }
    destruct q as [|u q]; cbn [emit].
    + exists []. rewrite app_nil_r in *. split; auto. split; auto. split; auto.
      assert (HA : forall n v, length g - v <= n -> In v R -> deps v = 0%Z).
      { induction n as [|n IHn]; intros v Hn Hv.
        - apply HR, reach_le in Hv. lia.
        - rewrite HI. rewrite indeg_none; auto. intros c Hc Hcv. apply Hrem in Hc. destruct Hc as [Hc1 Hc2]. apply Hc2, Hq. split; auto.
          apply IHn; auto. apply nx_lt in Hcv. apply HR, reach_le in Hc1. lia. }
      intros v. rewrite Hq. split; [tauto|]. intros Hv. split; auto. eapply HA; eauto.
    + assert (Hu : In u R /\ deps u = 0%Z) by (apply Hq, in_or_app; cbn; auto). destruct Hu as [HuR Hu0].
      destruct (nx_some u) as (f & E & Enx). { apply HR, reach_le in HuR. lia. }
      rewrite E. assert (Hu : ~ In u out). { intros H. apply NoDup_app_inv in ND. destruct ND as (_ & _ & ND). apply (ND u); cbn; auto. }
      assert (Hge : forall v, (Z.of_nat (occ (nexts f) v) <= deps v)%Z).
      { intros v. rewrite HI, <- Enx. assert (In u rem) by (apply Hrem; auto). unfold indeg. clear - H.
        induction rem as [|x l IHl]; [inversion H|]. cbn [map list_sum fold_right]. destruct H as [->|H]; [lia|]. specialize (IHl H). unfold list_sum in IHl. lia. }
      destruct (releaseEdges_spec (nexts f) q deps Hge) as (new & deps' & H1 & H2 & H3 & H4). rewrite H1.
      destruct (IH (out ++ [u]) (q ++ new) deps') as (rest & E1 & E2 & E3 & E4).
      * rewrite app_assoc, <- (app_assoc out). cbn [app]. apply NoDup_app_intro; auto. intros x Hx Hn. apply H4 in Hn.
        apply Hq in Hx. destruct Hx as [_ Hx]. destruct Hn as [Hn _]. specialize (Hge x). apply (count_occ_In Nat.eq_dec) in Hn. lia.
      * intros v. rewrite H2, Hd, indeg_app, <- Enx. rewrite indeg_1. lia.
      * intros v. rewrite app_assoc, <- (app_assoc out). cbn [app]. rewrite in_app_iff, Hq, H4. rewrite <- Enx in *. split.
        -- intros [[Hv H0]|[Hv H0]]; split; auto.
           ++ rewrite H2, H0. specialize (Hge v). lia.
           ++ apply HR. apply (reach_nx u); auto. apply HR. auto.
        -- intros [Hv H0]. destruct (in_dec Nat.eq_dec v (nx u)) as [Hn|Hn]; auto. left. split; auto. rewrite H2 in H0.
           apply (count_occ_not_In Nat.eq_dec) in Hn. lia.
      * intros before w after Eo c Hc Hw. destruct after as [|a after].
        -- apply app_inj_tail in Eo. destruct Eo as [<- <-]. destruct (in_dec Nat.eq_dec c out) as [H|H]; auto. exfalso.
           rewrite HI in Hu0. refine (indeg_0 rem u _ c _ Hw); [lia|]. apply Hrem. auto.
        -- destruct (exists_last (l := a :: after)) as (l' & z & El); [discriminate|]. rewrite El in Eo.
           rewrite app_comm_cons, app_assoc in Eo. apply app_inj_tail in Eo. destruct Eo as [Eo _]. eapply Hb; eauto.
      * rewrite app_length. cbn [length]. lia.
      * exists (u :: rest). rewrite E1. cbn [option_map]. rewrite <- app_assoc in E2, E3, E4. cbn [app] in *. auto.
Qed.

Lemma build_order : exists order, buildBackwardGraph g root = Some order /\ consumers_first g root order.
Proof.
  unfold buildBackwardGraph. destruct (countDeps_spec (S (length g)) [] [root] [root] (fun _ => 0%Z)) as (R & deps & E & NR & HR & Hd).
  - repeat constructor. intros [].
  - reflexivity.
  - intros x [<-|[]]. constructor.
  - cbn. auto.
  - intros u v [].
  - reflexivity.
  - cbn. lia.
  - rewrite E. destruct (emit_spec R NR HR (S (length g)) [] [root] deps) as (rest & E1 & E2 & E3 & E4).
    + repeat constructor. intros [].
    + intros v. rewrite Hd. cbn. lia.
    + intros v. cbn [app In]. split.
      * intros [<-|[]]. split; [apply HR; constructor|]. rewrite Hd, indeg_none; auto. intros u Hu H. apply nx_lt in H. apply HR, reach_le in Hu. lia.
      * intros [Hv H0]. left. apply HR, reach_pred in Hv. destruct Hv as [->|(u & Hu & Hv)]; auto. exfalso. rewrite Hd in H0.
        refine (indeg_0 R v _ u _ Hv); [lia|apply HR; auto].
    + intros before u after H. destruct before; discriminate.
    + cbn. lia.
    + exists rest. split; auto. cbn [app] in *. split; auto. split; [intros v; rewrite E3; apply HR|].
      intros before u after Eo c f Hc Ef Hu. apply (E4 before u after); auto; [apply HR; auto|]. unfold nx. rewrite Ef. auto.
Qed.
End Graph.
