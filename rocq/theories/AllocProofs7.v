(** Proofs about the allocator model: merging with the next block, free. *)
From Coq Require Import ZArith List Bool Arith Lia.
From Verif Require Import AllocModel AllocSpec AllocProofs AllocProofs2 AllocProofs3 AllocProofs4 AllocProofs5 AllocProofs6.
Import ListNotations.
Local Open Scope Z_scope.

Lemma merge_next_spec s segs i d : Core s segs (Some i) (Some i) -> heap s i = Some d -> balloc d = false ->
  used (heap s) (bprev d) ->
  exists s' segs' d', tryMerge s i (bnext d) (bsmall d) = Some s'
    /\ merged s s' segs segs' i d d' /\ used (heap s') (bprev d') /\ used (heap s') (bnext d').
Proof.
  intros C Hd Hf Hup. unfold tryMerge.
  destruct (bnext d) as [j|] eqn:Hnx.
  2:{ exists s, segs, d. splits; auto; unfold merged; [splits; auto; tauto|]. rewrite Hnx. intros k; discriminate. }
  rewrite Hd.
  destruct (core_locate _ _ _ _ _ _ C Hd) as (l1 & g & l2 & a & cc & E1 & E2 & L1 & L2 & L3 & L4 & L5 & L6 & L7 & L8 & L9 & L10).
  subst segs.
  destruct (core_nd_parts _ _ _ _ _ _ a i cc C E2) as (Na & Nc & Nia & Nic & Nac & _ & _).
  rewrite L2 in Hnx. destruct cc as [|j' c']; [discriminate|]. simpl in Hnx. injection Hnx as ->.
  simpl in L2. simpl in L5. pose proof L5 as L5'.
  destruct L5 as (c & Hc & C1 & C2 & C3 & C4 & C5 & C6 & C7). rewrite Hc.
  destruct (balloc c) eqn:Hcf.
  { exists s, (l1 ++ g :: l2), d. splits; auto; unfold merged; [splits; auto; tauto|].
    rewrite L2. intros k E; injection E as <-. eauto. }
  assert (Hsp : isSplit d && isSplit c = true).
  { unfold isSplit. rewrite L2, C4. destruct (bprev d), (bnext c); reflexivity. }
  rewrite Hsp. simpl negb. cbv iota.
  inversion Nc as [|? ? Hjc Nc']; subst.
  assert (Hji : j <> i) by (intros ->; apply Nic; left; auto).
  assert (Hja : ~ In j a) by (intro H; apply (Nac j H); left; auto).
  assert (Hic : ~ In i c') by (intro H; apply Nic; right; auto).
  assert (Hpj : match bprev d with Some k => Nat.eqb k j | None => false end = false).
  { rewrite L1. destruct (lasto a None) as [k|] eqn:La; auto. apply Nat.eqb_neq. intros ->.
    destruct (lasto_in _ _ _ La) as [[? _]|]; [discriminate|auto]. }
  rewrite Hpj.
  set (d1 := mkB (bsize d) (bsmall d) (bptr d) (balloc d) (bprev d) (bnext c)).
  set (d2 := mkB (bsize d + bsize c) (bsmall d) (bptr d) (balloc d) (bprev d) (bnext c)).
  assert (Hh : exists h1,
    (match bnext c with
     | None => Some (upd (heap s) i (Some d1))
     | Some k => match upd (heap s) i (Some d1) k with
                 | None => None
                 | Some e => Some (upd (upd (heap s) i (Some d1)) k (Some (mkB (bsize e) (bsmall e) (bptr e) (balloc e) (Some i) (bnext e))))
                 end
     end) = Some h1
    /\ h1 i = Some d1 /\ h1 j = Some c
    /\ chain h1 (ssm g) (Some i) (bptr c + bsize c) c' None (sp g + ssz g)
    /\ (forall k, ~ In k c' -> k <> i -> h1 k = heap s k)
    /\ (forall k e, k <> i -> heap s k = Some e -> exists e', h1 k = Some e' /\ simb e e')
    /\ (forall k e, k <> i -> h1 k = Some e -> exists e', heap s k = Some e' /\ simb e' e)).
  { rewrite C5. rewrite <- C1 in C7. destruct c' as [|k c2]; simpl hdo; cbv iota.
    - eexists. split; [reflexivity|]. splits; auto.
      + apply upd_eq.
      + rewrite !upd_neq by auto. auto.
      + intros m Hm Hmn. rewrite !upd_neq; auto.
      + intros m e Nm He. rewrite !upd_neq by auto. exists e; split; auto. apply simb_refl.
      + intros m e Nm. rewrite upd_neq by auto. intro He. exists e; split; auto. apply simb_refl.
    - inversion Nc' as [|? ? Hkc _]; subst.
      destruct (chain_relink_prev _ _ _ _ _ (Some i) _ _ _ Hkc C7) as (e & He & Hch).
      assert (k <> i) by (intros ->; apply Hic; left; auto).
      assert (k <> j) by (intros ->; apply Hjc; left; auto).
      rewrite upd_neq by auto. rewrite He. eexists. split; [reflexivity|]. fold (set_prev e (Some i)). splits.
      + rewrite upd_neq by auto. apply upd_eq.
      + rewrite !upd_neq by auto. auto.
      + eapply chain_frame; [|exact Hch]. intros m Hm. unfold upd.
        destruct (Nat.eqb_spec m k); auto. destruct (Nat.eqb_spec m i); auto. subst; tauto.
      + intros m Hm Hmn. rewrite !upd_neq; auto. intro; subst; apply Hm; left; auto.
      + intros m e' Nm He'. destruct (Nat.eq_dec m k) as [->|N].
        * rewrite upd_eq. rewrite He in He'; injection He' as <-. eexists; split; eauto. apply simb_prev.
        * rewrite !upd_neq by auto. exists e'; split; auto. apply simb_refl.
      + intros m e' Nm. destruct (Nat.eq_dec m k) as [->|N].
        * rewrite upd_eq. intro X. injection X as <-. exists e; split; auto. apply simb_prev.
        * rewrite !upd_neq by auto. intro X. exists e'; split; auto. apply simb_refl. }
  destruct Hh as (h1 & Hh1 & K1 & K2 & K3 & K4 & K5 & K6).
  rewrite Hh1, K1. cbn [bsize bsmall bptr balloc bprev bnext d1]. fold d2.
  set (hf := upd h1 i (Some d2)).
  assert (Haa : forall k, In k a -> upd hf j None k = heap s k).
  { intros k Hk. assert (k <> i) by (intros ->; auto). assert (k <> j) by (intros ->; auto).
    unfold hf. rewrite !upd_neq by auto. apply K4; auto. intro. eapply Nac; eauto. right; auto. }
  assert (Hsids : forall k, In k (sids g) <-> In k a \/ k = i \/ k = j \/ In k c').
  { intro k. rewrite E2. rewrite in_app_iff. simpl. intuition congruence. }
  assert (Hcc : forall k, In k c' -> upd hf j None k = h1 k).
  { intros k Hk. unfold hf. rewrite !upd_neq; auto; intros ->; auto. }
  apply coal_app in L8. destruct L8 as (Q1 & Q2 & Q3). simpl in Q2. destruct Q2 as (_ & Q4 & Q5).
  destruct (merge_core s l1 g l2 i j d c hf d2 (a ++ i :: c') C Hd Hf Hc Hcf) as (s' & M1 & M2 & M3 & M4 & M5 & M6); auto.
  - apply Hsids; auto.
  - apply Hsids; auto.
  - apply upd_eq.
  - unfold hf. rewrite upd_neq by auto. auto.
  - intros k e Nk. unfold hf. rewrite upd_neq by auto. apply K5; auto.
  - intros k e Nk. unfold hf. rewrite upd_neq by auto. apply K6; auto.
  - intros k Hk. rewrite Hsids in Hk. unfold hf. rewrite upd_neq by tauto. apply K4; tauto.
  - intro k. rewrite Hsids, in_app_iff. simpl. split.
    + intros [H|[<-|H]]; split; auto.
      * intros ->; auto.
      * intros ->; auto.
    + intros [H N]. intuition congruence.
  - apply NoDup_app_intro; auto; [constructor; auto|].
    intros k H1 [<-|H2]; auto. eapply Nac; eauto. right; auto.
  - apply chain_app. exists (bptr d). split.
    + simpl. eapply chain_frame; [|exact L4]. exact Haa.
    + simpl. exists d2. rewrite upd_neq by auto. unfold hf. rewrite upd_eq. simpl. splits; auto; try lia.
      * apply Z.divide_add_r; auto.
      * replace (bptr d + (bsize d + bsize c)) with (bptr c + bsize c) by lia.
        eapply chain_frame; [|exact K3]. exact Hcc.
  - apply coal_app. splits.
    + eapply coal_frame; [|exact Q1]. intros k Hk (e & He & Hef & Hen). rewrite Haa in He by auto. exists e; auto.
    + simpl. split; [intros m _ [(e & _ & _ & P) _]; congruence|].
      eapply coal_frame; [|exact Q5]. intros k Hk (e & He & Hef & Hen). rewrite Hcc in He by auto.
      assert (Nk : k <> i) by congruence. destruct (K6 k e Nk He) as (e' & He' & S1 & S2 & S3 & S4).
      exists e'. splits; auto. congruence.
    + intros m m' _ Hm' [_ (e & _ & _ & P)]. simpl in Hm'. congruence.
  - congruence.
  - exists s', (l1 ++ mkSeg (sp g) (ssz g) (ssm g) (a ++ i :: c') :: l2), d2.
    splits; auto.
    + unfold merged. splits; auto.
      * rewrite M3, upd_neq by auto. apply upd_eq.
      * rewrite !map_app. reflexivity.
    + simpl. rewrite L1. rewrite L1 in Hup. intros k Hk. rewrite M3, Haa; [apply Hup; auto|].
      destruct (lasto_in _ _ _ Hk) as [[? _]|]; [discriminate|auto].
    + simpl. rewrite C5. intros k Hk.
      assert (Hka : In k c') by (destruct c'; [discriminate|injection Hk as ->; left; auto]).
      assert (Nki : k <> i) by (intros ->; auto).
      assert (exists e, heap s k = Some e) as (e & He).
      { destruct (chain_in _ _ _ _ _ _ _ _ C7 Hka) as (e & He & _). eauto. }
      destruct (K5 k e Nki He) as (e' & He' & S1 & S2 & S3 & S4).
      rewrite M3, Hcc by auto. exists e'. split; auto.
      destruct (balloc e') eqn:Be; auto. exfalso. apply (Q4 k Hk). split.
      * exists c. splits; auto; congruence.
      * exists e. splits; auto; congruence.
Qed.

(** Putting the coalesced block back in its pool. *)
Lemma core_insert s segs i d : Core s segs (Some i) (Some i) -> heap s i = Some d -> balloc d = false ->
  used (heap s) (bprev d) -> used (heap s) (bnext d) ->
  exists s', pool_insert s (bsmall d) i = Some s' /\ Core s' segs None None
    /\ heap s' = heap s /\ active s' = active s /\ held s' = held s.
Proof.
  intros C Hd Hf Hu1 Hu2.
  assert (Hip : forall sm, ~ In i (pool_of s sm)).
  { intros sm H. apply (c_pool _ _ _ _ C) in H. destruct H as (e & _ & _ & _ & H). congruence. }
  rewrite pool_insert_spec; [|eapply core_poolable; eauto | auto].
  eexists. split; [reflexivity|]. splits; autorewrite with alloc; auto.
  destruct (core_locate _ _ _ _ _ _ C Hd) as (l1 & g & l2 & a & cc & E1 & E2 & L1 & L2 & L3 & L4 & L5 & L6 & L7 & L8 & L9 & L10).
  subst segs. destruct (core_others _ _ _ _ _ _ C) as (O1 & O2 & O3 & O4 & O5).
  assert (Hg : In g (l1 ++ g :: l2)) by (apply in_or_app; right; left; auto).
  destruct (c_seg _ _ _ _ C _ Hg) as (X1 & X2 & X3 & X4 & X5).
  apply (core_replace s _ l1 g g l2 (Some i) None (Some i) None C); autorewrite with alloc; auto.
  - unfold seg_ok. splits; auto; try lia. rewrite E2 in X5 |- *. rewrite L1 in Hu1. rewrite L2 in Hu2.
    destruct (core_nd_parts _ _ _ _ _ _ a i cc C E2) as (Na & Nc & Nia & Nic & Nac & _ & _).
    apply coal_app in X5. destruct X5 as (Q1 & Q2 & _). simpl in Q2. destruct Q2 as [_ Q2].
    assert (Hpf : forall k, k <> i -> pf (heap s) None k -> pf (heap s) (Some i) k).
    { intros k N (e & He & Hef & _). exists e. splits; auto. congruence. }
    apply coal_app. splits.
    + eapply coal_frame; [|exact Q1]. intros k Hk. apply Hpf. intros ->; auto.
    + simpl. split.
      * intros j Hj [_ (e & He & Hef & _)]. destruct (Hu2 j Hj) as (e' & He' & Hat). congruence.
      * eapply coal_frame; [|exact Q2]. intros k Hk. apply Hpf. intros ->; auto.
    + intros k k' Hk _ [(e & He & Hef & _) _]. destruct (Hu1 k Hk) as (e' & He' & Hat). congruence.
  - intros k E. injection E as <-. rewrite E2. apply in_or_app; right; left; auto.
  - apply (c_nxt _ _ _ _ C).
  - intro sm. autorewrite with alloc. destruct (Bool.eqb sm (bsmall d)) eqn:E; [|apply (c_pnd _ _ _ _ C)].
    constructor; auto. apply (c_pnd _ _ _ _ C).
  - intros sm k. autorewrite with alloc. destruct (Nat.eq_dec k i) as [->|N].
    + destruct (Bool.eqb sm (bsmall d)) eqn:E.
      * apply eqb_prop in E. subst sm. split; [|left; auto]. intros _. exists d. splits; auto. discriminate.
      * split; [intro H; exfalso; eapply Hip; eauto|]. intros (e & He & E3 & _). rewrite Hd in He. injection He as <-.
        subst sm. rewrite eqb_reflx in E. discriminate.
    + assert (Hgen : In k (pool_of s sm) <-> exists b, heap s k = Some b /\ bsmall b = sm /\ balloc b = false /\ None <> Some k).
      { rewrite (c_pool _ _ _ _ C). split; intros (e & He & F1 & F2 & F3); exists e; splits; auto; congruence. }
      rewrite <- Hgen. destruct (Bool.eqb sm (bsmall d)) eqn:E; [|tauto].
      apply eqb_prop in E. subst sm. simpl. split; [intros [|]; congruence|auto].
Qed.

Lemma free_spec s segs i b : Core s segs None None -> heap s i = Some b -> balloc b = true ->
  exists s' segs', freeImpl s i = Some s' /\ Core s' segs' None None /\ active s' = active s
    /\ held s' = held s
    /\ (forall p m, ~ allocd (heap s') i p m)
    /\ (forall k p m, k <> i -> (allocd (heap s') k p m <-> allocd (heap s) k p m)).
Proof.
  intros C Hb Hal. unfold freeImpl.
  destruct (core_mark s segs None None i b false (Some i) (Some i) C Hb) as (s1 & A1 & A2 & A3 & A4 & A5); auto; try discriminate; try congruence.
  rewrite A1. unfold freeBlock.
  assert (Hd : heap s1 i = Some (mark b false)) by (rewrite A3; apply upd_eq).
  rewrite Hd. cbn [balloc mark]. cbv iota.
  destruct (merge_prev_spec s1 segs i (mark b false) A2 Hd eq_refl) as (s2 & segs2 & d2 & B1 & (B2 & B3 & B4 & B5 & B6 & B7 & B8 & B9) & B10 & B11).
  rewrite B1.
  destruct (merge_next_spec s2 segs2 i d2 B2 B3 B4 B11) as (s3 & segs3 & d3 & D1 & (D2 & D3 & D4 & D5 & D6 & D7 & D8 & D9) & D10 & D11).
  rewrite <- B10, <- B5, D1, <- D5.
  destruct (core_insert s3 segs3 i d3 D2 D3 D4 D10 D11) as (s4 & F1 & F2 & F3 & F4 & F5).
  rewrite F1. exists s4, segs3. splits; auto; try congruence.
  - rewrite F5, D7, B7. unfold set_allocated in A1. rewrite Hb in A1. injection A1 as <-. reflexivity.
  - intros p m (e & He & Ha & _). congruence.
  - intros k p m Nk. rewrite F3, D9, B9. unfold allocd. rewrite A3, upd_neq by auto. tauto.
Qed.
