(** Proofs about the allocator model: split and merge. *)
From Coq Require Import ZArith List Bool Arith Lia.
From Verif Require Import AllocModel AllocSpec AllocProofs AllocProofs2 AllocProofs3.
Import ListNotations.
Local Open Scope Z_scope.

(** Replacing one segment by another over the same region. *)
Lemma core_replace s s' l1 g g' l2 x x' y y' :
  Core s (l1 ++ g :: l2) x y ->
  region g' = region g -> ssm g' = ssm g ->
  seg_ok (heap s') y' g' ->
  (forall k, In k (allids (l1 ++ l2)) -> heap s' k = heap s k) ->
  (forall k, y = Some k -> In k (sids g)) ->
  NoDup (sids g') -> (forall k, In k (sids g') -> ~ In k (allids (l1 ++ l2))) ->
  (forall k b, heap s' k = Some b -> In k (sids g') \/ In k (allids (l1 ++ l2))) ->
  held s' = held s -> total s' = total s ->
  (forall k b, heap s' k = Some b -> (k < nxt s')%nat) ->
  (forall sm, NoDup (pool_of s' sm)) ->
  (forall sm i, In i (pool_of s' sm) <->
      exists b, heap s' i = Some b /\ bsmall b = sm /\ balloc b = false /\ x' <> Some i) ->
  Core s' (l1 ++ g' :: l2) x' y'.
Proof.
  intros C Hr Hrs Hok Hh Hy Hnd Hfr Hdom Hheld Htot Hnxt Hpnd Hpool.
  assert (Hndo : NoDup (allids (l1 ++ l2)) /\ forall k, In k (sids g) -> ~ In k (allids (l1 ++ l2))).
  { pose proof (c_nd _ _ _ _ C) as N. rewrite allids_app in N. simpl in N.
    apply NoDup_app_inv in N. destruct N as (N1 & N2 & N3).
    apply NoDup_app_inv in N2. destruct N2 as (N4 & N5 & N6). rewrite allids_app. split.
    - apply NoDup_app_intro; auto. intros k K1 K2. apply (N3 k); auto. apply in_or_app; auto.
    - intros k Hk Hin. apply in_app_or in Hin. destruct Hin as [Hin|Hin]; [|eapply N6; eauto].
      apply (N3 k); auto. apply in_or_app; auto. }
  destruct Hndo as [Hndo Hsep].
  constructor; auto.
  - intros g0 Hg0. apply in_app_or in Hg0.
    assert (Hc : g0 = g' \/ In g0 (l1 ++ l2)).
    { destruct Hg0 as [Hg0 | [Hg0 | Hg0]]; auto; right; apply in_or_app; auto. }
    destruct Hc as [-> | Hc]; auto.
    assert (Hin0 : In g0 (l1 ++ g :: l2)).
    { apply in_app_or in Hc. apply in_or_app. destruct Hc; [left|right;right]; auto. }
    destruct (c_seg _ _ _ _ C _ Hin0) as (H1 & H2 & H3 & H4 & H5).
    assert (Hk : forall k, In k (sids g0) -> In k (allids (l1 ++ l2))).
    { intros k Hk. apply in_flat_map. eauto. }
    unfold seg_ok. split; [auto|]. split; [auto|]. split; [auto|]. split.
    + eapply chain_frame; [|exact H4]. auto.
    + eapply coal_frame; [|exact H5]. intros k Hin (b & Hb & Hf & _).
      rewrite Hh in Hb by auto. exists b. split; [auto|]. split; [auto|].
      intro E. apply Hy in E. apply (Hsep k); auto.
  - rewrite allids_app. simpl. rewrite allids_app in Hndo, Hfr.
    apply NoDup_app_inv in Hndo. destruct Hndo as (N1 & N2 & N3).
    apply NoDup_app_intro; auto.
    + apply NoDup_app_intro; auto. intros k K1 K2. apply (Hfr k); auto. apply in_or_app; auto.
    + intros k K1 K2. apply in_app_or in K2. destruct K2 as [K2|K2]; [|eauto].
      apply (Hfr k); auto. apply in_or_app; auto.
  - intros k b Hb. rewrite allids_app. simpl. destruct (Hdom _ _ Hb) as [H|H].
    + apply in_or_app. right. apply in_or_app; auto.
    + rewrite allids_app in H. apply in_app_or in H. apply in_or_app.
      destruct H; auto. right. apply in_or_app; auto.
  - rewrite Hheld, (c_held _ _ _ _ C), !map_app. simpl. rewrite Hr. reflexivity.
  - rewrite Hheld. apply (c_disj _ _ _ _ C).
  - rewrite Htot, (c_total _ _ _ _ C), !map_app. simpl. unfold region in Hr. congruence.
  - unfold region in Hr. injection Hr as _ Hz. intros g0 Hg0. apply in_app_or in Hg0.
    destruct Hg0 as [Hg0 | [<- | Hg0]].
    + apply (c_cls _ _ _ _ C). apply in_or_app; auto.
    + rewrite Hrs, Hz. apply (c_cls _ _ _ _ C). apply in_or_app; right; left; auto.
    + apply (c_cls _ _ _ _ C). apply in_or_app; right; right; auto.
Qed.

(** The ids of the other segments. *)
Lemma core_others s l1 g l2 x y : Core s (l1 ++ g :: l2) x y ->
  NoDup (sids g) /\ (forall k, In k (sids g) -> ~ In k (allids (l1 ++ l2)))
  /\ (forall k b, heap s k = Some b -> In k (sids g) \/ In k (allids (l1 ++ l2)))
  /\ (forall k, In k (allids (l1 ++ l2)) -> exists b, heap s k = Some b)
  /\ (forall k, In k (sids g) -> exists b, heap s k = Some b).
Proof.
  intros C. pose proof (c_nd _ _ _ _ C) as N. rewrite allids_app in N. simpl in N.
  apply NoDup_app_inv in N. destruct N as (N1 & N2 & N3).
  apply NoDup_app_inv in N2. destruct N2 as (N4 & N5 & N6). rewrite allids_app.
  assert (A : forall g0 k, In g0 (l1 ++ g :: l2) -> In k (sids g0) -> exists b, heap s k = Some b).
  { intros g0 k Hg Hk. destruct (c_seg _ _ _ _ C _ Hg) as (_ & _ & _ & H4 & _).
    destruct (chain_in _ _ _ _ _ _ _ _ H4 Hk) as (b & Hb & _). eauto. }
  splits; auto.
  - intros k Hk Hin. apply in_app_or in Hin. destruct Hin as [Hin|Hin]; [|eapply N6; eauto].
    apply (N3 k); auto. apply in_or_app; auto.
  - intros k b Hb. apply (c_dom _ _ _ _ C) in Hb. rewrite allids_app in Hb. simpl in Hb.
    apply in_app_or in Hb. destruct Hb as [Hb|Hb]; [right; apply in_or_app; auto|].
    apply in_app_or in Hb. destruct Hb; auto. right; apply in_or_app; auto.
  - intros k Hk. rewrite <- allids_app in Hk. apply in_flat_map in Hk. destruct Hk as (g0 & Hg0 & Hk).
    eapply A; [|eauto]. apply in_app_or in Hg0. apply in_or_app. destruct Hg0; [left|right;right]; auto.
  - intros k Hk. eapply A; [|eauto]. apply in_or_app; right; left; auto.
Qed.

(** Marking the exempt block as in use, or a used block as free. *)
Definition mark (b : block) (v : bool) : block :=
  mkB (bsize b) (bsmall b) (bptr b) v (bprev b) (bnext b).

Lemma chain_relabel h h' sm l : forall pv p nx e,
  (forall i b, In i l -> h i = Some b -> exists b', h' i = Some b' /\ bsize b' = bsize b
     /\ bptr b' = bptr b /\ bsmall b' = bsmall b /\ bprev b' = bprev b /\ bnext b' = bnext b) ->
  chain h sm pv p l nx e -> chain h' sm pv p l nx e.
Proof.
  induction l as [|i l IH]; intros pv p nx e Hf; simpl; auto.
  intros (b & H1 & H2 & H3 & H4 & H5 & H6 & H7 & H8).
  destruct (Hf i b (or_introl eq_refl) H1) as (b' & B1 & B2 & B3 & B4 & B5 & B6).
  exists b'. rewrite B2, B3, B4, B5, B6. splits; auto.
  apply IH; auto. intros j c Hj. apply Hf. right; auto.
Qed.

Lemma core_mark s segs x y i b v x' y' :
  Core s segs x y -> heap s i = Some b ->
  (x = None \/ x = Some i) -> (y = None \/ y = Some i) ->
  (v = true -> x' = None /\ y' = None) ->
  (v = false -> x' = Some i /\ y' = Some i) ->
  (balloc b = false -> x = Some i) ->
  exists s', set_allocated s i v = Some s' /\ Core s' segs x' y'
    /\ heap s' = upd (heap s) i (Some (mark b v)) /\ active s' = active s /\ nxt s' = nxt s.
Proof.
  intros C Hb Hx Hy Hv1 Hv2 Hal. unfold set_allocated. rewrite Hb.
  exists (set_heap s (upd (heap s) i (Some (mark b v)))). split; [reflexivity|].
  split; [|splits; reflexivity].
  constructor; cbn [heap set_heap held total nxt].
  - intros g Hg. destruct (c_seg _ _ _ _ C _ Hg) as (H1 & H2 & H3 & H4 & H5).
    splits; auto; try lia.
    + eapply chain_relabel; [|exact H4]. intros k c Hk Hc.
      destruct (Nat.eq_dec k i) as [->|N].
      * rewrite Hb in Hc; injection Hc as <-. exists (mark b v). rewrite upd_eq. splits; auto.
      * exists c. rewrite upd_neq by auto. splits; auto.
    + eapply coal_frame; [|exact H5]. intros k Hk (c & Hc & Hf & Hn).
      destruct (Nat.eq_dec k i) as [->|N].
      * exfalso. rewrite upd_eq in Hc. injection Hc as <-. simpl in Hf. subst v.
        destruct (Hv2 eq_refl) as [_ E]. congruence.
      * rewrite upd_neq in Hc by auto. exists c. splits; auto.
        destruct Hy as [->| ->]; congruence.
  - apply (c_nd _ _ _ _ C).
  - intros k c. unfold upd. destruct (Nat.eqb_spec k i) as [->|]; intro; eapply (c_dom _ _ _ _ C); eauto.
  - apply (c_held _ _ _ _ C).
  - apply (c_disj _ _ _ _ C).
  - intros k c. unfold upd. destruct (Nat.eqb_spec k i) as [->|]; intro; eapply (c_nxt _ _ _ _ C); eauto.
  - intro sm. autorewrite with alloc. apply (c_pnd _ _ _ _ C).
  - intros sm k. autorewrite with alloc. rewrite (c_pool _ _ _ _ C). split.
    + intros (c & Hc & H1 & H2 & H3). destruct (Nat.eq_dec k i) as [->|N].
      * rewrite Hb in Hc; injection Hc as <-. exfalso. apply H3. apply Hal. auto.
      * exists c. rewrite upd_neq by auto. splits; auto.
        destruct v; [destruct Hv1 as [-> _] | destruct Hv2 as [-> _]]; auto; congruence.
    + intros (c & Hc & H1 & H2 & H3). destruct (Nat.eq_dec k i) as [->|N].
      * rewrite upd_eq in Hc. injection Hc as <-. simpl in H2. subst v. destruct (Hv2 eq_refl); congruence.
      * rewrite upd_neq in Hc by auto. exists c. splits; auto. destruct Hx as [->| ->]; congruence.
  - apply (c_total _ _ _ _ C).
  - apply (c_cls _ _ _ _ C).
Qed.

(** The same block up to its links. *)
Definition simb (b b' : block) : Prop :=
  bsize b' = bsize b /\ bptr b' = bptr b /\ bsmall b' = bsmall b /\ balloc b' = balloc b.
Lemma simb_refl b : simb b b.
Proof. unfold simb; auto. Qed.
Lemma simb_next b n : simb b (set_next b n).
Proof. unfold simb; auto. Qed.
Lemma simb_prev b n : simb b (set_prev b n).
Proof. unfold simb; auto. Qed.

Lemma u64_small x : 0 <= x < 18446744073709551616 -> u64 x = x.
Proof. intro H. unfold u64. apply Z.mod_small. exact H. Qed.

Lemma split_spec s segs i b size : Core s segs (Some i) None -> heap s i = Some b ->
  balloc b = false -> 0 < size < bsize b -> (512 | size) ->
  exists s' segs' f, splitBlock s (bsmall b) i b size = Some (s', nxt s)
    /\ Core s' segs' (Some (nxt s)) (Some (nxt s)) /\ active s' = active s
    /\ heap s' (nxt s) = Some f /\ bsize f = size /\ bptr f = bptr b /\ balloc f = false
    /\ map region segs' = map region segs
    /\ (forall k p n, allocd (heap s') k p n <-> allocd (heap s) k p n).
Proof.
  intros C Hb Hfree Hsz Hdiv.
  destruct (core_locate _ _ _ _ _ _ C Hb) as (l1 & g & l2 & a & c & E1 & E2 & L1 & L2 & L3 & L4 & L5 & L6 & L7 & L8 & L9 & L10).
  subst segs.
  destruct (core_nd_parts _ _ _ _ _ _ a i c C E2) as (Na & Nc & Nia & Nic & Nac & _ & _).
  destruct (core_others _ _ _ _ _ _ C) as (O1 & O2 & O3 & O4 & O5).
  assert (Hfresh : heap s (nxt s) = None).
  { destruct (heap s (nxt s)) eqn:F; auto. apply (c_nxt _ _ _ _ C) in F. lia. }
  set (n := nxt s) in *.
  assert (Hng : ~ In n (sids g)). { intro H. destruct (O5 _ H). congruence. }
  assert (Hno : ~ In n (allids (l1 ++ l2))). { intro H. destruct (O4 _ H). congruence. }
  assert (Hni : n <> i) by congruence.
  assert (Hna : ~ In n a) by (rewrite E2 in Hng; intro; apply Hng; apply in_or_app; auto).
  assert (Hnc : ~ In n c) by (rewrite E2 in Hng; intro; apply Hng; apply in_or_app; right; right; auto).
  assert (Hbig : u64 (bsize b - size) = bsize b - size).
  { apply u64_small. apply chain_le in L5. apply chain_le in L4. lia. }
  set (front := mkB size (bsmall b) (bptr b) false (bprev b) (Some i)).
  set (rest := mkB (bsize b - size) (bsmall b) (bptr b + size) (balloc b) (Some n) (bnext b)).
  (* the heap after relinking *)
  assert (Hh2 : exists h2,
     (match bprev b with
      | None => Some (upd (heap s) n (Some front))
      | Some j => match upd (heap s) n (Some front) j with
                  | None => None
                  | Some c => Some (upd (upd (heap s) n (Some front)) j (Some (mkB (bsize c) (bsmall c) (bptr c) (balloc c) (bprev c) (Some n))))
                  end
      end) = Some h2
     /\ h2 n = Some front /\ h2 i = Some b
     /\ chain h2 (ssm g) None (sp g) a (Some n) (bptr b)
     /\ (forall k, ~ In k a -> k <> n -> h2 k = heap s k)
     /\ (forall k d, heap s k = Some d -> exists d', h2 k = Some d' /\ simb d d')
     /\ (forall k d, k <> n -> h2 k = Some d -> exists d', heap s k = Some d' /\ simb d' d)).
  { rewrite L1.
    pose proof (chain_relink_next (heap s) (ssm g) a None (sp g) (Some i) (Some n) (bptr b) Na) as R.
    specialize (R ltac:(discriminate) L4).
    destruct (lasto a None) as [j|] eqn:La.
    - destruct R as (d & Hd & Hja & Hch).
      assert (j <> n) by congruence. assert (j <> i) by (intro; subst; auto).
      rewrite upd_neq by auto. rewrite Hd.
      eexists. split; [reflexivity|]. fold (set_next d (Some n)). splits.
      + rewrite upd_neq by auto. apply upd_eq.
      + rewrite !upd_neq by auto. auto.
      + eapply chain_frame; [|exact Hch]. intros k Hk. unfold upd.
        destruct (Nat.eqb_spec k j); auto. destruct (Nat.eqb_spec k n); auto. subst; tauto.
      + intros k Hk Hkn. rewrite !upd_neq; auto. intro; subst; auto.
      + intros k e He. destruct (Nat.eq_dec k j) as [->|N].
        * rewrite upd_eq. rewrite Hd in He; injection He as <-. eexists; split; eauto. apply simb_next.
        * assert (k <> n) by congruence. rewrite !upd_neq by auto. exists e; split; auto. apply simb_refl.
      + intros k e Hkn. destruct (Nat.eq_dec k j) as [->|N].
        * rewrite upd_eq. intro He. injection He as <-. exists d; split; auto. apply simb_next.
        * rewrite !upd_neq by auto. intro He. exists e; split; auto. apply simb_refl.
    - eexists. split; [reflexivity|]. splits.
      + apply upd_eq.
      + rewrite !upd_neq by auto. auto.
      + eapply chain_frame; [|exact R]. intros k Hk. apply upd_neq. intro; subst; auto.
      + intros k Hk Hkn. rewrite !upd_neq; auto.
      + intros k e He. assert (k <> n) by congruence. rewrite !upd_neq by auto. exists e; split; auto. apply simb_refl.
      + intros k e Hkn. rewrite upd_neq by auto. intro He. exists e; split; auto. apply simb_refl. }
  destruct Hh2 as (h2 & Hd2 & Hh2n & Hh2i & Hch & Hout & Hfw & Hbw).
  set (h3 := upd h2 i (Some rest)).
  set (s3 := mkSt h3 (S n) (small s) (large s) (active s) (total s) (held s)).
  assert (Hp3 : forall sm, pool_of s3 sm = pool_of s sm) by (intros []; reflexivity).
  assert (Hipool : forall sm, ~ In i (pool_of s sm)).
  { intros sm H. apply (c_pool _ _ _ _ C) in H. destruct H as (d & _ & _ & _ & H). congruence. }
  assert (Hins : pool_insert s3 (bsmall b) i = Some (set_pool s3 (bsmall b) (i :: pool_of s (bsmall b)))).
  { rewrite pool_insert_spec; rewrite ?Hp3; auto.
    exists rest. split; [apply upd_eq|]. intros k Hk.
    assert (k <> i) by (intro; subst; eapply Hipool; eauto).
    apply (c_pool _ _ _ _ C) in Hk. destruct Hk as (d & Hd & _).
    destruct (Hfw _ _ Hd) as (d' & Hd' & S1 & S2 & _).
    exists d'. split; [unfold s3, h3; simpl; rewrite upd_neq; auto|]. intros _. rewrite S2. simpl.
    destruct (core_block _ _ _ _ _ _ C Hd) as (_ & _ & _ & _ & _ & _ & Dpos & _).
    destruct (core_blocks_disj _ _ _ _ _ _ _ _ C Hd Hb) as [D|D]; auto; lia. }
  exists (set_pool s3 (bsmall b) (i :: pool_of s (bsmall b))),
    (l1 ++ mkSeg (sp g) (ssz g) (ssm g) (a ++ n :: i :: c) :: l2), front.
  splits.
  - unfold splitBlock. fold n. fold front. rewrite Hd2. rewrite Hbig. fold rest. fold h3. fold s3. rewrite Hins. reflexivity.
  - assert (Hh3c : forall k, In k c -> h3 k = heap s k).
    { intros k Hk. unfold h3. rewrite upd_neq by (intro; subst; auto). apply Hout; [|intro; subst; auto].
      intro. eapply Nac; eauto. }
    eapply (core_replace s _ l1 g _ l2 (Some i) _ None _ C); autorewrite with alloc; simpl; auto.
    + unfold seg_ok. simpl. splits; auto; try lia.
      * destruct a; discriminate.
      * apply chain_app. exists (bptr b). simpl. split.
        -- eapply chain_frame; [|exact Hch]. intros k Hk. unfold h3. apply upd_neq. intro; subst; auto.
        -- exists front. unfold h3. rewrite upd_neq by auto. simpl. rewrite Hh2n. splits; auto; try lia.
           exists rest. rewrite upd_eq. simpl. splits; auto; try lia.
           ++ apply Z.divide_sub_r; auto.
           ++ replace (bptr b + size + (bsize b - size)) with (bptr b + bsize b) by lia.
              eapply chain_frame; [|exact L5]. exact Hh3c.
      * apply coal_app in L8. destruct L8 as (K1 & K2 & K3). simpl in K2. destruct K2 as [K2 K4].
        apply coal_app. splits.
        -- eapply coal_frame; [|exact K1]. intros k Hk (d & Hd & Hf & _).
           unfold h3 in Hd. rewrite upd_neq in Hd by (intro; subst; auto).
           destruct (Hbw k d) as (d' & Hd' & _ & _ & _ & S4); auto; [intro; subst; auto|].
           exists d'. splits; auto; congruence.
        -- simpl. splits.
           ++ intros j Hj [(d & _ & _ & P) _]. congruence.
           ++ intros j Hj [_ P]. apply (K2 j Hj). split.
              ** exists b. splits; auto. discriminate.
              ** destruct P as (d & Hd & Hf & _). exists d.
                 rewrite Hh3c in Hd by (destruct c; [discriminate|injection Hj as ->; left; auto]).
                 splits; auto. discriminate.
           ++ eapply coal_frame; [|exact K4]. intros k Hk (d & Hd & Hf & _).
              rewrite Hh3c in Hd by auto. exists d. splits; auto. discriminate.
        -- intros j j' _ Hj' [_ (d & _ & _ & P)]. simpl in Hj'. congruence.
    + intros k Hk. unfold h3. rewrite upd_neq.
      * apply Hout; [|intro; subst; auto]. intro. apply (O2 k); auto. rewrite E2. apply in_or_app; auto.
      * intro; subst. apply (O2 i); auto. rewrite E2. apply in_or_app; right; left; auto.
    + discriminate.
    + apply NoDup_app_intro; auto.
      * constructor; [|constructor; auto]. intros [|]; auto.
      * intros k K1 [<-|[<-|K2]]; auto. eapply Nac; eauto.
    + intros k Hk. apply in_app_or in Hk. destruct Hk as [Hk|[<-|[<-|Hk]]]; auto; apply O2; rewrite E2; apply in_or_app; auto.
      * right; left; auto.
      * right; right; auto.
    + intros k d Hd. destruct (Nat.eq_dec k n) as [->|Nk]; [left; apply in_or_app; right; left; auto|].
      assert (exists d', heap s k = Some d') as (d' & Hd').
      { unfold h3 in Hd. destruct (Nat.eq_dec k i) as [->|Nk']; eauto. rewrite upd_neq in Hd by auto.
        destruct (Hbw k d Nk Hd) as (d' & ? & _). eauto. }
      destruct (O3 _ _ Hd') as [H|H]; auto. left. rewrite E2 in H. apply in_app_or in H. apply in_or_app.
      destruct H as [H|[<-|H]]; auto; right; right; [left|right]; auto.
    + intros k d Hd. destruct (Nat.eq_dec k n) as [->|Nk]; [lia|].
      assert (exists d', heap s k = Some d') as (d' & Hd').
      { unfold h3 in Hd. destruct (Nat.eq_dec k i) as [->|Nk']; eauto. rewrite upd_neq in Hd by auto.
        destruct (Hbw k d Nk Hd) as (d' & ? & _). eauto. }
      apply (c_nxt _ _ _ _ C) in Hd'. fold n in Hd'. lia.
    + intro sm. autorewrite with alloc. rewrite Hp3. pose proof (c_pnd _ _ _ _ C sm) as Hn.
      destruct (Bool.eqb sm (bsmall b)) eqn:E; auto. apply eqb_prop in E. subst sm.
      constructor; auto.
    + intros sm k. autorewrite with alloc. rewrite Hp3. cbn [heap s3].
      assert (Hgen : forall sm k, k <> i -> (In k (pool_of s sm) <-> exists b0, h3 k = Some b0 /\ bsmall b0 = sm /\ balloc b0 = false /\ Some n <> Some k)).
      { clear sm k. intros sm k Nk. rewrite (c_pool _ _ _ _ C). unfold h3. rewrite upd_neq by auto. split.
        - intros (d & Hd & D1 & D2 & D3). destruct (Hfw _ _ Hd) as (d' & Hd' & S1 & S2 & S3 & S4).
          exists d'. splits; auto; congruence.
        - intros (d & Hd & D1 & D2 & D3). assert (Nkn : k <> n) by congruence. destruct (Hbw k d Nkn Hd) as (d' & Hd' & S1 & S2 & S3 & S4).
          exists d'. splits; auto; congruence. }
      destruct (Nat.eq_dec k i) as [->|Nk].
      * unfold h3. rewrite upd_eq. destruct (Bool.eqb sm (bsmall b)) eqn:E.
        -- apply eqb_prop in E. subst sm. split; [|left; auto]. intros _. exists rest. splits; auto. congruence.
        -- split; [intro H; exfalso; eapply Hipool; eauto|]. intros (d & Hd & D1 & _). injection Hd as <-.
           simpl in D1. subst sm. rewrite eqb_reflx in E. discriminate.
      * rewrite <- Hgen by auto. destruct (Bool.eqb sm (bsmall b)) eqn:E; [|tauto].
        apply eqb_prop in E. subst sm. simpl. split; [intros [|]; congruence|auto].
  - autorewrite with alloc. reflexivity.
  - autorewrite with alloc. simpl. unfold h3. rewrite upd_neq by auto. exact Hh2n.
  - reflexivity.
  - reflexivity.
  - reflexivity.
  - rewrite !map_app. reflexivity.
  - intros k p m. autorewrite with alloc. cbn [heap s3]. unfold allocd, h3.
    destruct (Nat.eq_dec k i) as [->|Nk].
    + rewrite upd_eq. split; intros (d & Hd & D1 & _); [injection Hd as <-; simpl in D1; congruence | congruence].
    + rewrite upd_neq by auto. split.
      * intros (d & Hd & D1 & D2 & D3). destruct (Nat.eq_dec k n) as [->|Nkn].
        -- rewrite Hh2n in Hd. injection Hd as <-. discriminate.
        -- destruct (Hbw k d Nkn Hd) as (d' & Hd' & S1 & S2 & S3 & S4). exists d'. splits; auto; congruence.
      * intros (d & Hd & D1 & D2 & D3). destruct (Hfw _ _ Hd) as (d' & Hd' & S1 & S2 & S3 & S4).
        exists d'. splits; auto; congruence.
Qed.
