(** Proofs about the allocator model: release, split, merge, free. *)
From Coq Require Import ZArith List Bool Arith Lia.
From Verif Require Import AllocModel AllocSpec AllocProofs AllocProofs2.
Import ListNotations.
Local Open Scope Z_scope.

(** Locating a block in its segment. *)
Lemma core_locate s segs x y i b : Core s segs x y -> heap s i = Some b ->
  exists l1 g l2 a c, segs = l1 ++ g :: l2 /\ sids g = a ++ i :: c
    /\ bprev b = lasto a None /\ bnext b = hdo c None /\ bsmall b = ssm g
    /\ chain (heap s) (ssm g) None (sp g) a (Some i) (bptr b)
    /\ chain (heap s) (ssm g) (Some i) (bptr b + bsize b) c None (sp g + ssz g)
    /\ 0 < bsize b /\ (512 | bsize b) /\ coal (heap s) y (a ++ i :: c)
    /\ 0 < sp g /\ 0 < ssz g < 18446744073709551616.
Proof.
  intros C Hb. pose proof (c_dom _ _ _ _ C _ _ Hb) as Hin.
  destruct (in_allids _ _ Hin) as (l1 & g & l2 & a & c & E1 & E2).
  exists l1, g, l2, a, c.
  assert (Hg : In g segs) by (rewrite E1; apply in_or_app; right; left; auto).
  destruct (c_seg _ _ _ _ C _ Hg) as (H1 & H2 & H3 & H4 & H5).
  rewrite E2 in H4, H5. apply chain_app in H4. destruct H4 as (q & Ha & Hc).
  simpl in Hc. destruct Hc as (b' & B1 & B2 & B3 & B4 & B5 & B6 & B7 & B8).
  rewrite Hb in B1; injection B1 as <-. subst q. splits; auto; try lia.
Qed.

Lemma core_nd_parts s l1 g l2 x y a i c : Core s (l1 ++ g :: l2) x y -> sids g = a ++ i :: c ->
  NoDup a /\ NoDup c /\ ~ In i a /\ ~ In i c /\ (forall k, In k a -> In k c -> False)
  /\ (forall g' k, In g' (l1 ++ l2) -> In k (sids g') -> In k (sids g) -> False)
  /\ NoDup (allids (l1 ++ l2)).
Proof.
  intros C E. pose proof (c_nd _ _ _ _ C) as Hnd. rewrite allids_app in Hnd. simpl in Hnd.
  pose proof Hnd as Hnd0.
  apply NoDup_app_inv in Hnd. destruct Hnd as (N1 & N2 & N3).
  apply NoDup_app_inv in N2. destruct N2 as (N4 & N5 & N6).
  rewrite E in N4. pose proof N4 as N4'. apply NoDup_app_inv in N4. destruct N4 as (A1 & A2 & A3).
  inversion A2 as [|? ? A4 A5]; subst.
  splits; auto.
  - intro Hi. apply (A3 i); auto. left; auto.
  - intros k K1 K2. apply (A3 k); auto. right; auto.
  - intros g' k Hg' Hk Hkg. apply in_app_or in Hg'. destruct Hg' as [Hg' | Hg'].
    + apply (N3 k); [apply in_flat_map; eauto | apply in_or_app; left; auto].
    + apply (N6 k); auto. apply in_flat_map; eauto.
  - rewrite allids_app. apply NoDup_app_intro; auto.
    intros k K1 K2. apply (N3 k); auto. apply in_or_app; auto.
Qed.

Lemma sumZ_app a c : sumZ (a ++ c) = sumZ a + sumZ c.
Proof. unfold sumZ. induction a as [|x a IH]; simpl; lia. Qed.

(** ** Release *)
Lemma base_free_spec s l1 g l2 x y : Core s (l1 ++ g :: l2) x y ->
  base_free s (sp g) = Some (mkSt (heap s) (nxt s) (small s) (large s) (active s) (total s)
                                  (map region (l1 ++ l2))).
Proof.
  intros C. unfold base_free.
  assert (Hh : held s = map region l1 ++ region g :: map region l2)
    by (rewrite (c_held _ _ _ _ C), map_app; reflexivity).
  replace (existsb (fun r => fst r =? sp g) (held s)) with true.
  2:{ symmetry. apply existsb_exists. exists (region g). split.
      - rewrite Hh. apply in_or_app; right; left; auto.
      - simpl. apply Z.eqb_refl. }
  f_equal. f_equal. rewrite Hh, filter_app. simpl. rewrite Z.eqb_refl. simpl.
  rewrite map_app.
  assert (Hfil : forall l, (forall g', In g' l -> In g' (l1 ++ l2)) ->
            filter (fun r => negb (fst r =? sp g)) (map region l) = map region l).
  { intros l Hl. induction l as [|g' l IH]; simpl; auto.
    rewrite IH by (intros; apply Hl; right; auto).
    destruct (Z.eqb_spec (sp g') (sp g)) as [E|]; auto. exfalso.
    assert (In g' (l1 ++ l2)) as Hg' by (apply Hl; left; auto).
    pose proof (c_disj _ _ _ _ C) as Hd. rewrite Hh in Hd. apply pdisj_app in Hd.
    destruct Hd as (_ & [Hd1 _] & Hd2).
    assert (D : disj (region g) (region g') = true).
    { apply in_app_or in Hg'. destruct Hg' as [Hg'|Hg'].
      - rewrite disj_sym. apply Hd2; [apply in_map; auto | left; auto].
      - apply Hd1. apply in_map; auto. }
    destruct (c_seg _ _ _ _ C g) as (? & ? & _); [apply in_or_app; right; left; auto|].
    destruct (c_seg _ _ _ _ C g') as (? & ? & _).
    { apply in_app_or in Hg'. apply in_or_app. destruct Hg'; [left|right; right]; auto. }
    unfold disj, region in D. simpl in D. apply orb_true_iff in D.
    destruct D as [D|D]; apply Z.leb_le in D; lia. }
  rewrite !Hfil; auto; intros; apply in_or_app; auto.
Qed.

Lemma releaseBlock_spec s segs i b : Core s segs None None -> heap s i = Some b ->
  balloc b = false -> bprev b = None -> bnext b = None ->
  exists l1 g l2 s', segs = l1 ++ g :: l2 /\ sids g = [i]
    /\ releaseBlock s i = Some s'
    /\ heap s' = upd (heap s) i None /\ active s' = active s
    /\ (forall sm, pool_of s' sm = dropid i (pool_of s sm))
    /\ Core s' (l1 ++ l2) None None.
Proof.
  intros C Hb Hf Hpv Hnx.
  destruct (core_locate _ _ _ _ _ _ C Hb) as (l1 & g & l2 & a & c & E1 & E2 & L1 & L2 & L3 & L4 & L5 & L6 & L7 & L8 & L9 & L10).
  rewrite Hpv in L1. rewrite Hnx in L2.
  assert (a = []) as ->. { destruct a as [|k a]; auto. simpl in L1. destruct (lasto_some a k) as [j Hj]. congruence. }
  assert (c = []) as ->. { destruct c; auto. discriminate. }
  simpl in E2, L4, L5.
  subst segs.
  destruct (core_nd_parts _ _ _ _ _ _ [] i [] C E2) as (_ & _ & _ & _ & _ & N1 & N2).
  exists l1, g, l2.
  set (s2 := mkSt (heap s) (nxt s) (small s) (large s) (active s) (total s - bsize b) (map region (l1 ++ l2))).
  assert (Hpool2 : forall sm, pool_of s2 sm = pool_of s sm) by (intros []; reflexivity).
  exists (set_heap (set_pool s2 (bsmall b) (dropid i (pool_of s2 (bsmall b))))
            (upd (heap (set_pool s2 (bsmall b) (dropid i (pool_of s2 (bsmall b))))) i None)).
  split; [auto|]. split; [auto|]. splits.
  - unfold releaseBlock. rewrite Hb, <- L4, (base_free_spec _ _ _ _ _ _ C). cbn -[upd pool_erase].
    fold s2. rewrite pool_erase_spec.
    + reflexivity.
    + rewrite Hpool2. apply (core_poolable _ _ _ _ i b (bsmall b) C Hb).
  - simpl. autorewrite with alloc. reflexivity.
  - simpl. autorewrite with alloc. reflexivity.
  - intro sm. autorewrite with alloc. rewrite !Hpool2.
    destruct (Bool.eqb sm (bsmall b)) eqn:E.
    + apply eqb_prop in E. subst; auto.
    + unfold dropid. symmetry.
      assert (Hni : ~ In i (pool_of s sm)).
      { rewrite (c_pool _ _ _ _ C). intros (b' & Hb' & H1 & _). rewrite Hb in Hb'. injection Hb' as <-.
        subst sm. rewrite eqb_reflx in E. discriminate. }
      induction (pool_of s sm) as [|k l IH]; simpl; auto.
      destruct (Nat.eqb_spec k i) as [->|N]; simpl.
      * exfalso; apply Hni; left; auto.
      * f_equal. apply IH. intro; apply Hni; right; auto.
  - assert (Hne : forall g' k, In g' (l1 ++ l2) -> In k (sids g') -> k <> i).
    { intros g' k Hg' Hk ->. apply (N1 g' i); auto. rewrite E2; left; auto. }
    assert (Hsub : forall g', In g' (l1 ++ l2) -> In g' (l1 ++ g :: l2)).
    { intros g' Hg'. apply in_app_or in Hg'. apply in_or_app. destruct Hg'; [left|right; right]; auto. }
    constructor; autorewrite with alloc; simpl.
    + intros g' Hg'. destruct (c_seg _ _ _ _ C _ (Hsub _ Hg')) as (H1 & H2 & H3 & H4 & H5).
      splits; auto; try lia.
      * eapply chain_frame; [|exact H4]. intros k Hk. autorewrite with alloc. apply upd_neq. eauto.
      * eapply coal_frame; [|exact H5]. intros k Hk (d & Hd & Hd2 & Hd3).
        autorewrite with alloc in Hd. rewrite upd_neq in Hd by eauto. exists d; auto.
    + auto.
    + intros k d. autorewrite with alloc. unfold upd. destruct (Nat.eqb_spec k i); [discriminate|].
      intro Hd. apply (c_dom _ _ _ _ C) in Hd. rewrite allids_app in *. simpl in Hd. rewrite E2 in Hd.
      apply in_app_or in Hd. apply in_or_app. destruct Hd as [Hd | [Hd | Hd]]; auto. congruence.
    + autorewrite with alloc. reflexivity.
    + autorewrite with alloc. simpl. pose proof (c_disj _ _ _ _ C) as Hd. rewrite (c_held _ _ _ _ C), map_app in Hd.
      rewrite map_app. apply pdisj_app in Hd. destruct Hd as (D1 & [D2 D3] & D4). apply pdisj_app.
      splits; auto. intros; apply D4; auto. right; auto.
    + intros k d. autorewrite with alloc. unfold upd. destruct (Nat.eqb_spec k i); [discriminate|].
      apply (c_nxt _ _ _ _ C).
    + intro sm. autorewrite with alloc. rewrite !Hpool2. destruct (Bool.eqb sm (bsmall b)).
      * apply dropid_nd, (c_pnd _ _ _ _ C).
      * apply (c_pnd _ _ _ _ C).
    + intros sm k. autorewrite with alloc. rewrite !Hpool2. cbn [heap s2].
      destruct (Bool.eqb sm (bsmall b)) eqn:E.
      * apply eqb_prop in E. subst sm. rewrite dropid_in, (c_pool _ _ _ _ C). split.
        -- intros [(d & Hd & D1 & D2 & D3) N]. exists d. rewrite upd_neq by auto. auto.
        -- intros (d & Hd & D1 & D2 & D3). unfold upd in Hd. destruct (Nat.eqb_spec k i); [discriminate|].
           split; auto. exists d; auto.
      * rewrite (c_pool _ _ _ _ C). split.
        -- intros (d & Hd & D1 & D2 & D3). exists d. rewrite upd_neq; auto.
           intro; subst k. rewrite Hb in Hd. injection Hd as <-. subst sm. rewrite eqb_reflx in E. discriminate.
        -- intros (d & Hd & D1 & D2 & D3). unfold upd in Hd. destruct (Nat.eqb_spec k i); [discriminate|].
           exists d; auto.
    + autorewrite with alloc. simpl. rewrite (c_total _ _ _ _ C), !map_app, !sumZ_app. simpl.
      lia.
    + intros g' Hg'. apply (c_cls _ _ _ _ C). auto.
Qed.

(** Blocks may only disappear if they were free and unsplit; the rest is unchanged. *)
Definition shrinks (h h' : nat -> option block) : Prop :=
  forall j, h' j = h j \/
    (h' j = None /\ exists b, h j = Some b /\ balloc b = false /\ isSplit b = false).

Lemma shrinks_refl h : shrinks h h.
Proof. intro j; auto. Qed.
Lemma shrinks_trans h1 h2 h3 : shrinks h1 h2 -> shrinks h2 h3 -> shrinks h1 h3.
Proof.
  intros H1 H2 j. destruct (H1 j) as [E1 | [E1 X1]]; destruct (H2 j) as [E2 | [E2 X2]].
  - left; congruence.
  - right. split; auto. rewrite <- E1. auto.
  - right. split; auto. congruence.
  - right; auto.
Qed.
Lemma shrinks_allocd h h' i p n : shrinks h h' -> (allocd h' i p n <-> allocd h i p n).
Proof.
  intros H. unfold allocd. destruct (H i) as [-> | [E (b & Hb & Hf & _)]]; [tauto|].
  split; intros (c & Hc & H1 & _); congruence.
Qed.

Lemma releaseLoop_spec l : forall s segs, Core s segs None None -> NoDup l ->
  (forall i, In i l -> exists b, heap s i = Some b /\ balloc b = false) ->
  exists s' segs', releaseLoop s l = Some s' /\ Core s' segs' None None /\ active s' = active s
    /\ incl segs' segs /\ shrinks (heap s) (heap s') /\ nxt s' = nxt s
    /\ (forall i b, In i l -> heap s' i = Some b -> isSplit b = true).
Proof.
  induction l as [|i l IH]; intros s segs C Hnd Hl; simpl.
  - exists s, segs. splits; auto using incl_refl, shrinks_refl; intros i b [].
  - inversion Hnd as [|? ? Hi Hnd']; subst.
    destruct (Hl i (or_introl eq_refl)) as (b & Hb & Hf). rewrite Hb.
    assert (Hl' : forall j, In j l -> exists b, heap s j = Some b /\ balloc b = false)
      by (intros; apply Hl; right; auto).
    destruct (isSplit b) eqn:Sp.
    + assert (E : releaseLoop s (i :: l) = releaseLoop s l).
      { simpl. rewrite Hb. unfold isSplit in Sp. destruct (bprev b), (bnext b); auto; discriminate. }
      simpl in E. rewrite Hb in E. rewrite E.
      destruct (IH s segs C Hnd' Hl') as (s' & segs' & H1 & H2 & H3 & H4 & H5 & H6 & H7).
      exists s', segs'. splits; auto.
      intros j c [<- | Hj] Hc; [|eauto].
      destruct (H5 i) as [E' | [E' _]]; rewrite E' in Hc; [|discriminate].
      rewrite Hb in Hc. injection Hc as <-. auto.
    + assert (bprev b = None /\ bnext b = None) as [Hp Hn].
      { unfold isSplit in Sp. destruct (bprev b), (bnext b); try discriminate; auto. }
      rewrite Hp, Hn.
      destruct (releaseBlock_spec _ _ _ _ C Hb Hf Hp Hn) as (l1 & g & l2 & s1 & E1 & E2 & R1 & R2 & R3 & R4 & R5).
      rewrite R1.
      assert (Hl1 : forall j, In j l -> exists b, heap s1 j = Some b /\ balloc b = false).
      { intros j Hj. rewrite R2, upd_neq; auto. intro; subst; auto. }
      destruct (IH s1 (l1 ++ l2) R5 Hnd' Hl1) as (s' & segs' & H1 & H2 & H3 & H4 & H5 & H6 & H7).
      assert (Sh : shrinks (heap s) (heap s1)).
      { intro j. rewrite R2. unfold upd. destruct (Nat.eqb_spec j i) as [->|]; auto.
        right. split; auto. exists b. auto. }
      exists s', segs'. splits; auto.
      * congruence.
      * subst segs. intros g' Hg'. apply H4 in Hg'. apply in_app_or in Hg'. apply in_or_app.
        destruct Hg'; [left | right; right]; auto.
      * eapply shrinks_trans; eauto.
      * rewrite H6. unfold releaseBlock in R1. rewrite Hb in R1.
        unfold base_free in R1. destruct (existsb _ _); [|discriminate].
        unfold pool_erase in R1. destruct (alive _ _); [|discriminate].
        injection R1 as <-. simpl. autorewrite with alloc. reflexivity.
      * intros j c [<- | Hj] Hc; [|eauto].
        destruct (H5 i) as [E' | [E' _]]; rewrite E' in Hc; [|discriminate].
        rewrite R2, upd_eq in Hc. discriminate.
Qed.

Lemma pool_free s segs sm i : Core s segs None None -> In i (pool_of s sm) ->
  exists b, heap s i = Some b /\ balloc b = false.
Proof. intros C Hi. apply (c_pool _ _ _ _ C) in Hi. destruct Hi as (b & Hb & _ & Hf & _). eauto. Qed.

Lemma releaseCached_spec s segs : Core s segs None None ->
  exists s' segs', releaseCachedBlocks s = Some s' /\ Core s' segs' None None /\ active s' = active s
    /\ incl segs' segs /\ shrinks (heap s) (heap s') /\ nxt s' = nxt s
    /\ (forall i b, heap s' i = Some b -> balloc b = false -> isSplit b = true).
Proof.
  intros C. unfold releaseCachedBlocks, releaseBlocks.
  destruct (releaseLoop_spec (pool_of s false) s segs C (c_pnd _ _ _ _ C false)) as (s1 & segs1 & H1 & H2 & H3 & H4 & H5 & H6 & H7).
  { intros i Hi. eapply pool_free; eauto. }
  rewrite H1.
  destruct (releaseLoop_spec (pool_of s1 true) s1 segs1 H2 (c_pnd _ _ _ _ H2 true)) as (s2 & segs2 & G1 & G2 & G3 & G4 & G5 & G6 & G7).
  { intros i Hi. eapply pool_free; eauto. }
  exists s2, segs2. splits; auto; try congruence.
  - eapply incl_tran; eauto.
  - eapply shrinks_trans; eauto.
  - intros i b Hb Hf.
    assert (Hb1 : heap s1 i = Some b).
    { destruct (G5 i) as [E | [E _]]; congruence. }
    assert (Hb0 : heap s i = Some b).
    { destruct (H5 i) as [E | [E _]]; congruence. }
    destruct (bsmall b) eqn:Sm.
    + apply (G7 i b); auto. apply (c_pool _ _ _ _ H2). exists b. splits; auto. discriminate.
    + apply (H7 i b); auto. apply (c_pool _ _ _ _ C). exists b. splits; auto. discriminate.
Qed.
