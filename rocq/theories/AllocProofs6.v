(** Proofs about the allocator model: merging neighbours on free. *)
From Coq Require Import ZArith List Bool Arith Lia.
From Verif Require Import AllocModel AllocSpec AllocProofs AllocProofs2 AllocProofs3 AllocProofs4 AllocProofs5.
Import ListNotations.
Local Open Scope Z_scope.

Definition used (h : nat -> option block) (o : option nat) : Prop :=
  forall k, o = Some k -> exists e, h k = Some e /\ balloc e = true.

Lemma merge_core s l1 g l2 i j d c hf d2 l :
  Core s (l1 ++ g :: l2) (Some i) (Some i) ->
  heap s i = Some d -> balloc d = false -> heap s j = Some c -> balloc c = false ->
  i <> j -> In i (sids g) -> In j (sids g) ->
  hf i = Some d2 -> balloc d2 = false -> bsmall d2 = bsmall d ->
  hf j = Some c ->
  (forall k e, k <> i -> heap s k = Some e -> exists e', hf k = Some e' /\ simb e e') ->
  (forall k e, k <> i -> hf k = Some e -> exists e', heap s k = Some e' /\ simb e' e) ->
  (forall k, ~ In k (sids g) -> hf k = heap s k) ->
  (forall k, In k l <-> In k (sids g) /\ k <> j) -> NoDup l ->
  chain (upd hf j None) (ssm g) None (sp g) l None (sp g + ssz g) ->
  coal (upd hf j None) (Some i) l ->
  bsmall c = bsmall d ->
  exists s', match pool_erase (set_heap s hf) (bsmall d) j with
             | None => None
             | Some s' => Some (set_heap s' (upd (heap s') j None))
             end = Some s'
    /\ Core s' (l1 ++ mkSeg (sp g) (ssz g) (ssm g) l :: l2) (Some i) (Some i)
    /\ heap s' = upd hf j None /\ active s' = active s /\ held s' = held s
    /\ (forall k p m, allocd (heap s') k p m <-> allocd (heap s) k p m).
Proof.
  intros C Hd Hdf Hc Hcf Nij Ig Jg Hfi Hd2f Hd2s Hfj Hfw Hbw Hout Hl Hnd Hch Hco Hsm.
  destruct (core_others _ _ _ _ _ _ C) as (O1 & O2 & O3 & O4 & O5).
  assert (Hipool : forall sm, ~ In i (pool_of s sm)).
  { intros sm H. apply (c_pool _ _ _ _ C) in H. destruct H as (e & _ & _ & _ & H). congruence. }
  set (s1 := set_pool (set_heap s hf) (bsmall d) (dropid j (pool_of s (bsmall d)))).
  assert (Her : pool_erase (set_heap s hf) (bsmall d) j = Some s1).
  { rewrite pool_erase_spec; autorewrite with alloc; auto.
    exists c. split; auto. intros k Hk.
    assert (k <> i) by (intros ->; eapply Hipool; eauto).
    apply (c_pool _ _ _ _ C) in Hk. destruct Hk as (e & He & _).
    destruct (Hfw k e) as (e' & He' & S1 & S2 & _); auto.
    exists e'. split; auto. intros Nkj. rewrite S2.
    destruct (core_block _ _ _ _ _ _ C He) as (_ & _ & _ & _ & _ & _ & P1 & _).
    destruct (core_block _ _ _ _ _ _ C Hc) as (_ & _ & _ & _ & _ & _ & P2 & _).
    destruct (core_blocks_disj _ _ _ _ _ _ _ _ C He Hc) as [D|D]; auto; lia. }
  rewrite Her. exists (set_heap s1 (upd (heap s1) j None)). split; [reflexivity|].
  assert (Hh1 : heap s1 = hf) by (unfold s1; autorewrite with alloc; reflexivity).
  rewrite Hh1.
  assert (Hgne : l <> []).
  { intro E. assert (In i l) by (apply Hl; auto). rewrite E in *. auto. }
  assert (Hg : In g (l1 ++ g :: l2)) by (apply in_or_app; right; left; auto).
  destruct (c_seg _ _ _ _ C _ Hg) as (X1 & X2 & _).
  splits.
  2: reflexivity.
  - apply (core_replace s (set_heap s1 (upd hf j None)) l1 g _ l2 (Some i) _ (Some i) _ C); cbn [heap set_heap sids]; auto.
    + unfold seg_ok. simpl. splits; auto; lia.
    + intros k Hk. rewrite upd_neq; [apply Hout|].
      * intro Hk'. apply (O2 k); auto.
      * intros ->. apply (O2 j); auto.
    + intros k E. injection E as <-. auto.
    + intros k Hk. apply O2. apply Hl in Hk. tauto.
    + intros k b. unfold upd. destruct (Nat.eqb_spec k j) as [|Nk]; [discriminate|]. intro Hb.
      assert (exists e, heap s k = Some e) as (e & He).
      { destruct (Nat.eq_dec k i) as [->|N]; eauto. destruct (Hbw k b N Hb) as (e & He & _); eauto. }
      destruct (O3 _ _ He) as [H|H]; auto. left. apply Hl; auto.
    + unfold s1. simpl. autorewrite with alloc. reflexivity.
    + unfold s1. simpl. autorewrite with alloc. reflexivity.
    + intros k b. unfold upd. destruct (Nat.eqb_spec k j) as [|Nk]; [discriminate|]. intro Hb.
      assert (exists e, heap s k = Some e) as (e & He).
      { destruct (Nat.eq_dec k i) as [->|N]; eauto. destruct (Hbw k b N Hb) as (e & He & _); eauto. }
      unfold s1. simpl. autorewrite with alloc. simpl. eapply (c_nxt _ _ _ _ C); eauto.
    + intro sm. unfold s1. autorewrite with alloc. destruct (Bool.eqb sm (bsmall d)).
      * apply dropid_nd, (c_pnd _ _ _ _ C).
      * apply (c_pnd _ _ _ _ C).
    + intros sm k. unfold s1. autorewrite with alloc.
      assert (Hgen : (In k (pool_of s sm) /\ k <> j) <->
         (exists b, upd hf j None k = Some b /\ bsmall b = sm /\ balloc b = false /\ Some i <> Some k)).
      { rewrite (c_pool _ _ _ _ C). split.
        - intros [(e & He & E1 & E2 & E3) Nk]. rewrite upd_neq by auto.
          assert (Nki : k <> i) by congruence.
          destruct (Hfw k e Nki He) as (e' & He' & S1 & S2 & S3 & S4).
          exists e'. splits; auto; congruence.
        - intros (e & He & E1 & E2 & E3). unfold upd in He. destruct (Nat.eqb_spec k j) as [|Nk]; [discriminate|].
          split; auto. assert (Nki : k <> i) by congruence.
          destruct (Hbw k e Nki He) as (e' & He' & S1 & S2 & S3 & S4).
          exists e'. splits; auto; congruence. }
      rewrite <- Hgen. destruct (Bool.eqb sm (bsmall d)) eqn:E.
      * apply eqb_prop in E. subst sm. apply dropid_in.
      * split; [|tauto]. intro H. split; auto. intros ->.
        apply (c_pool _ _ _ _ C) in H. destruct H as (e & He & E1 & _). rewrite Hc in He. injection He as <-.
        rewrite <- E1, Hsm, eqb_reflx in E. discriminate.
  - unfold s1. simpl. autorewrite with alloc. reflexivity.
  - unfold s1. simpl. autorewrite with alloc. reflexivity.
  - intros k p m. unfold allocd. cbn [heap set_heap]. destruct (Nat.eq_dec k j) as [->|Nkj].
    { rewrite upd_eq. split; intros (e & He & E1 & _); congruence. }
    rewrite upd_neq by auto. destruct (Nat.eq_dec k i) as [->|Nki].
    { split; intros (e & He & E1 & _); congruence. }
    split; intros (e & He & E1 & E2 & E3).
    + destruct (Hbw k e Nki He) as (e' & He' & S1 & S2 & S3 & S4). exists e'. splits; auto; congruence.
    + destruct (Hfw k e Nki He) as (e' & He' & S1 & S2 & S3 & S4). exists e'. splits; auto; congruence.
Qed.

Definition merged (s s' : st) (segs segs' : list seg) (i : nat) (d : block) (d' : block) : Prop :=
  Core s' segs' (Some i) (Some i) /\ heap s' i = Some d' /\ balloc d' = false /\ bsmall d' = bsmall d
  /\ active s' = active s /\ held s' = held s /\ map region segs' = map region segs
  /\ (forall k p m, allocd (heap s') k p m <-> allocd (heap s) k p m).

Lemma merge_prev_spec s segs i d : Core s segs (Some i) (Some i) -> heap s i = Some d -> balloc d = false ->
  exists s' segs' d', tryMerge s i (bprev d) (bsmall d) = Some s'
    /\ merged s s' segs segs' i d d' /\ bnext d' = bnext d /\ used (heap s') (bprev d').
Proof.
  intros C Hd Hf. unfold tryMerge.
  destruct (bprev d) as [j|] eqn:Hpv.
  2:{ exists s, segs, d. splits; auto; unfold merged; [splits; auto; tauto|]. rewrite Hpv. intros k; discriminate. }
  rewrite Hd.
  destruct (core_locate _ _ _ _ _ _ C Hd) as (l1 & g & l2 & a & cc & E1 & E2 & L1 & L2 & L3 & L4 & L5 & L6 & L7 & L8 & L9 & L10).
  subst segs.
  destruct (core_nd_parts _ _ _ _ _ _ a i cc C E2) as (Na & Nc & Nia & Nic & Nac & _ & _).
  rewrite L1 in Hpv.
  assert (exists a', a = a' ++ [j]) as [a' ->].
  { destruct a as [|k a0] using rev_ind; [discriminate|]. rewrite lasto_app in Hpv. simpl in Hpv.
    injection Hpv as ->. eauto. }
  apply chain_app in L4. destruct L4 as (q & Ha' & Hj). simpl in Ha', Hj.
  destruct Hj as (c & Hc & C1 & C2 & C3 & C4 & C5 & C6 & C7). rewrite Hc. subst q.
  destruct (balloc c) eqn:Hcf.
  { exists s, (l1 ++ g :: l2), d. splits; auto; unfold merged; [splits; auto; tauto|].
    rewrite L1, Hpv. intros k E; injection E as <-. eauto. }
  assert (Hsp : isSplit d && isSplit c = true).
  { unfold isSplit. rewrite L1, Hpv, C5. destruct (bprev c); reflexivity. }
  rewrite Hsp. simpl negb. cbv iota.
  rewrite L1, Hpv, Nat.eqb_refl.
  apply NoDup_app_inv in Na. destruct Na as (Na1 & _ & Na2).
  assert (Hja : ~ In j a') by (intro H; apply (Na2 j H); left; auto).
  assert (Hji : j <> i) by (intro; subst; apply Nia; apply in_or_app; right; left; auto).
  assert (Hia : ~ In i a') by (intro H; apply Nia; apply in_or_app; auto).
  set (d1 := mkB (bsize d) (bsmall d) (bptr c) (balloc d) (bprev c) (bnext d)).
  set (d2 := mkB (bsize d + bsize c) (bsmall d) (bptr c) (balloc d) (bprev c) (bnext d)).
  assert (Hh : exists h1,
    (match bprev c with
     | None => Some (upd (heap s) i (Some d1))
     | Some k => match upd (heap s) i (Some d1) k with
                 | None => None
                 | Some e => Some (upd (upd (heap s) i (Some d1)) k (Some (mkB (bsize e) (bsmall e) (bptr e) (balloc e) (bprev e) (Some i))))
                 end
     end) = Some h1
    /\ h1 i = Some d1 /\ h1 j = Some c
    /\ chain h1 (ssm g) None (sp g) a' (Some i) (bptr c)
    /\ (forall k, ~ In k a' -> k <> i -> h1 k = heap s k)
    /\ (forall k e, k <> i -> heap s k = Some e -> exists e', h1 k = Some e' /\ simb e e')
    /\ (forall k e, k <> i -> h1 k = Some e -> exists e', heap s k = Some e' /\ simb e' e)).
  { rewrite C4.
    pose proof (chain_relink_next (heap s) (ssm g) a' None (sp g) (Some j) (Some i) (bptr c) Na1) as R.
    specialize (R ltac:(discriminate) Ha').
    destruct (lasto a' None) as [k|] eqn:La.
    - destruct R as (e & He & Hka & Hch).
      assert (k <> i) by (intro; subst; auto). assert (k <> j) by (intro; subst; auto).
      rewrite upd_neq by auto. rewrite He. eexists. split; [reflexivity|]. fold (set_next e (Some i)). splits.
      + rewrite upd_neq by auto. apply upd_eq.
      + rewrite !upd_neq by auto. auto.
      + eapply chain_frame; [|exact Hch]. intros m Hm. unfold upd.
        destruct (Nat.eqb_spec m k); auto. destruct (Nat.eqb_spec m i); auto. subst; tauto.
      + intros m Hm Hmn. rewrite !upd_neq; auto. intro; subst; auto.
      + intros m e' Nm He'. destruct (Nat.eq_dec m k) as [->|N].
        * rewrite upd_eq. rewrite He in He'; injection He' as <-. eexists; split; eauto. apply simb_next.
        * rewrite !upd_neq by auto. exists e'; split; auto. apply simb_refl.
      + intros m e' Nm. destruct (Nat.eq_dec m k) as [->|N].
        * rewrite upd_eq. intro X. injection X as <-. exists e; split; auto. apply simb_next.
        * rewrite !upd_neq by auto. intro X. exists e'; split; auto. apply simb_refl.
    - eexists. split; [reflexivity|]. splits.
      + apply upd_eq.
      + rewrite !upd_neq by auto. auto.
      + eapply chain_frame; [|exact R]. intros m Hm. apply upd_neq. intro; subst; auto.
      + intros m Hm Hmn. rewrite !upd_neq; auto.
      + intros m e Nm He. rewrite !upd_neq by auto. exists e; split; auto. apply simb_refl.
      + intros m e Nm. rewrite upd_neq by auto. intro He. exists e; split; auto. apply simb_refl. }
  destruct Hh as (h1 & Hh1 & K1 & K2 & K3 & K4 & K5 & K6).
  rewrite Hh1, K1. cbn [bsize bsmall bptr balloc bprev bnext d1]. fold d2.
  set (hf := upd h1 i (Some d2)).
  assert (Hcc : forall k, In k cc -> upd hf j None k = heap s k).
  { intros k Hk. assert (k <> i) by (intro; subst; auto).
    assert (k <> j) by (intro; subst; eapply Nac; eauto; apply in_or_app; right; left; auto).
    unfold hf. rewrite !upd_neq by auto. apply K4; auto. intro. eapply Nac; eauto. apply in_or_app; auto. }
  assert (Hsids : forall k, In k (sids g) <-> In k a' \/ k = j \/ k = i \/ In k cc).
  { intro k. rewrite E2. rewrite <- app_assoc. simpl. rewrite in_app_iff. simpl. intuition congruence. }
  assert (Haa : forall k, In k a' -> upd hf j None k = h1 k).
  { intros k Hk. unfold hf. rewrite !upd_neq; auto; intro; subst; auto. }
  apply coal_app in L8. destruct L8 as (Q1 & Q2 & Q3). apply coal_app in Q1. destruct Q1 as (Q4 & _ & Q5).
  destruct (merge_core s l1 g l2 i j d c hf d2 (a' ++ i :: cc) C Hd Hf Hc Hcf) as (s' & M1 & M2 & M3 & M4 & M5 & M6); auto.
  - apply Hsids; auto.
  - apply Hsids; auto.
  - apply upd_eq.
  - unfold hf. rewrite upd_neq by auto. auto.
  - intros k e Nk. unfold hf. rewrite upd_neq by auto. apply K5; auto.
  - intros k e Nk. unfold hf. rewrite upd_neq by auto. apply K6; auto.
  - intros k Hk. rewrite Hsids in Hk. unfold hf. rewrite upd_neq by tauto. apply K4; tauto.
  - intro k. rewrite Hsids, in_app_iff. simpl. split.
    + intros [H|[<-|H]]; split; auto.
      * intro; subst; auto.
      * intro; subst. eapply Nac; eauto. apply in_or_app; right; left; auto.
    + intros [H N]. intuition congruence.
  - apply NoDup_app_intro; auto; [constructor; auto|].
    intros k H1 [<-|H2]; auto. eapply Nac; eauto. apply in_or_app; auto.
  - apply chain_app. exists (bptr c). split.
    + simpl. eapply chain_frame; [|exact K3]. exact Haa.
    + simpl. exists d2. rewrite upd_neq by auto. unfold hf. rewrite upd_eq. simpl. splits; auto; try lia.
      * apply Z.divide_add_r; auto.
      * replace (bptr c + (bsize d + bsize c)) with (bptr d + bsize d) by lia.
        eapply chain_frame; [|exact L5]. exact Hcc.
  - simpl in Q2. destruct Q2 as [_ Q2]. apply coal_app. splits.
    + eapply coal_frame; [|exact Q4]. intros k Hk (e & He & Hef & Hen). rewrite Haa in He by auto.
      assert (Nk : k <> i) by congruence. destruct (K6 k e Nk He) as (e' & He' & S1 & S2 & S3 & S4).
      exists e'. splits; auto. congruence.
    + simpl. split; [intros m _ [(e & _ & _ & P) _]; congruence|].
      eapply coal_frame; [|exact Q2]. intros k Hk (e & He & Hef & Hen). rewrite Hcc in He by auto. exists e; auto.
    + intros m m' _ Hm' [_ (e & _ & _ & P)]. simpl in Hm'. congruence.
  - congruence.
  - exists s', (l1 ++ mkSeg (sp g) (ssz g) (ssm g) (a' ++ i :: cc) :: l2), d2.
    splits; auto.
    + unfold merged. splits; auto.
      * rewrite M3, upd_neq by auto. apply upd_eq.
      * rewrite !map_app. reflexivity.
    + simpl. rewrite C4. intros k Hk.
      assert (Hka : In k a') by (destruct (lasto_in _ _ _ Hk) as [[? _]|]; [discriminate|auto]).
      assert (Nki : k <> i) by (intro; subst; auto).
      assert (exists e, heap s k = Some e) as (e & He).
      { destruct (chain_in _ _ _ _ _ _ _ _ Ha' Hka) as (e & He & _). eauto. }
      destruct (K5 k e Nki He) as (e' & He' & S1 & S2 & S3 & S4).
      rewrite M3, Haa by auto. exists e'. split; auto.
      destruct (balloc e') eqn:Be; auto. exfalso. apply (Q5 k j Hk eq_refl). split.
      * exists e. splits; auto; congruence.
      * exists c. splits; auto; congruence.
Qed.
