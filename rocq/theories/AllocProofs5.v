(** Proofs about the allocator model: malloc and free. *)
From Coq Require Import ZArith List Bool Arith Lia.
From Verif Require Import AllocModel AllocSpec AllocProofs AllocProofs2 AllocProofs3 AllocProofs4.
Import ListNotations.
Local Open Scope Z_scope.

Lemma roundSize_spec n : 0 <= n < 9223372036854775808 ->
  n <= roundSize (u64 n) < 9223372036854776320 /\ 0 < roundSize (u64 n) /\ (512 | roundSize (u64 n)).
Proof.
  intro H. rewrite u64_small by lia. unfold roundSize, kMinBlockSize.
  destruct (Z.ltb_spec n 512) as [L|L].
  - split; [lia|]. split; [lia|]. exists 1; reflexivity.
  - rewrite (u64_small (n + 512 - 1)) by lia.
    pose proof (Z.mul_div_le (n + 512 - 1) 512 ltac:(lia)) as A.
    pose proof (Z.mul_succ_div_gt (n + 512 - 1) 512 ltac:(lia)) as B.
    rewrite u64_small by lia. split; [lia|]. split; [lia|]. exists ((n + 512 - 1) / 512). lia.
Qed.

Lemma getAllocationSize_spec z : 0 < z < 9223372036854776320 ->
  z <= getAllocationSize z < 18446744073709551616 /\ (512 | getAllocationSize z)
  /\ cls (getPool z) (getAllocationSize z).
Proof.
  intro H. unfold getAllocationSize, kSmallSize, kSmallBuffer, kMinLargeAlloc, kLargeBuffer, kRoundLarge.
  unfold getPool, kSmallSize, cls.
  destruct (Z.leb_spec z 1048576) as [L|L]; [splits; try lia; exists 4096; reflexivity|].
  destruct (Z.ltb_spec z 10485760) as [L'|L']; [splits; try lia; exists 40960; reflexivity|].
  rewrite (u64_small (z + 2097152 - 1)) by lia.
  pose proof (Z.mul_div_le (z + 2097152 - 1) 2097152 ltac:(lia)) as A.
  pose proof (Z.mul_succ_div_gt (z + 2097152 - 1) 2097152 ltac:(lia)) as B.
  rewrite u64_small by lia. splits; try lia. exists (4096 * ((z + 2097152 - 1) / 2097152)). lia.
Qed.

(** Splitting if worthwhile and marking the block as used. *)
Lemma finish_spec s segs i b size : Core s segs (Some i) None -> heap s i = Some b ->
  balloc b = false -> 0 < size <= bsize b -> (512 | size) ->
  exists s' segs' k c,
    match (if shouldSplit b size then splitBlock s (bsmall b) i b size else Some (s, i)) with
    | None => None
    | Some (s5, k) => match set_allocated s5 k true with None => None | Some s6 => Some (s6, Some k) end
    end = Some (s', Some k)
    /\ Core s' segs' None None /\ active s' = active s
    /\ heap s' k = Some c /\ balloc c = true /\ bptr c = bptr b /\ size <= bsize c
    /\ (forall p m, ~ allocd (heap s) k p m)
    /\ (forall j p m, j <> k -> (allocd (heap s') j p m <-> allocd (heap s) j p m))
    /\ map region segs' = map region segs.
Proof.
  intros C Hb Hf Hsz Hdiv.
  destruct (shouldSplit b size) eqn:Sp.
  - assert (Hlt : 0 < size < bsize b).
    { split; [lia|]. destruct (Z.eq_dec size (bsize b)) as [->|]; [|lia].
      unfold shouldSplit in Sp. rewrite Z.sub_diag in Sp. rewrite u64_small in Sp by lia.
      unfold kMinBlockSize, kSmallSize in Sp.
      destruct (bsmall b); [apply Z.leb_le in Sp | apply Z.ltb_lt in Sp]; lia. }
    destruct (split_spec s segs i b size C Hb Hf Hlt Hdiv) as (s1 & segs1 & f & H1 & H2 & H3 & H4 & H5 & H6 & H7 & H8 & H9).
    rewrite H1.
    destruct (core_mark s1 segs1 _ _ (nxt s) f true None None H2 H4) as (s2 & G1 & G2 & G3 & G4 & G5); auto; try discriminate.
    rewrite G1. exists s2, segs1, (nxt s), (mark f true).
    assert (Hfr : heap s (nxt s) = None).
    { destruct (heap s (nxt s)) eqn:F; auto. apply (c_nxt _ _ _ _ C) in F. lia. }
    splits; auto; try congruence.
    + rewrite G3. apply upd_eq.
    + simpl. lia.
    + intros p m (d & Hd & _). congruence.
    + intros j p m Nj. rewrite <- H9. unfold allocd. rewrite G3, upd_neq by auto. tauto.
  - destruct (core_mark s segs _ _ i b true None None C Hb) as (s2 & G1 & G2 & G3 & G4 & G5); auto; try discriminate.
    rewrite G1. exists s2, segs, i, (mark b true). splits; auto; try congruence.
    + rewrite G3. apply upd_eq.
    + simpl. lia.
    + intros p m (d & Hd & Hd2 & _). congruence.
    + intros j p m Nj. unfold allocd. rewrite G3, upd_neq by auto. tauto.
Qed.

Lemma allids_inj segs k : forall g g', NoDup (allids segs) -> In g segs -> In g' segs ->
  In k (sids g) -> In k (sids g') -> g = g'.
Proof.
  induction segs as [|h segs IH]; intros g g' Nd Hg Hg' Hk Hk'; [destruct Hg|].
  simpl in Nd. apply NoDup_app_inv in Nd. destruct Nd as (_ & N2 & N3).
  destruct Hg as [<-|Hg], Hg' as [<-|Hg']; auto.
  - exfalso. apply (N3 k); auto. apply in_flat_map; eauto.
  - exfalso. apply (N3 k); auto. apply in_flat_map; eauto.
Qed.

(** The rounded request and the free blocks that can serve it. *)
Definition rsz (n : Z) : Z := roundSize (u64 n).
Definition fits (s : st) (n : Z) (i : nat) (b : block) : Prop :=
  heap s i = Some b /\ balloc b = false /\ bsmall b = getPool (rsz n) /\ rsz n <= bsize b.

Lemma malloc_spec s segs n p1 p2 : Core s segs None None -> 0 <= n < 9223372036854775808 ->
  exists s' segs' r, mallocImpl s n p1 p2 = Some (s', r)
    /\ Core s' segs' None None /\ active s' = active s
    /\ (forall g k p m, In g segs -> In k (sids g) -> allocd (heap s) k p m -> In (region g) (map region segs'))
    /\ match r with
       | None => (forall j p m, allocd (heap s') j p m <-> allocd (heap s) j p m)
          /\ (forall i b, ~ fits s n i b)
          /\ base_alloc s (getAllocationSize (rsz n)) p1 = None
          /\ base_alloc s' (getAllocationSize (rsz n)) p2 = None
          /\ (forall i b, heap s' i = Some b -> balloc b = false -> isSplit b = true)
       | Some k => exists c, heap s' k = Some c /\ balloc c = true /\ n <= bsize c /\ rsz n <= bsize c
          /\ (forall p m, ~ allocd (heap s) k p m)
          /\ (forall j p m, j <> k -> (allocd (heap s') j p m <-> allocd (heap s) j p m))
          /\ (forall i b, fits s n i b -> map region segs' = map region segs
                /\ exists i' b', fits s n i' b' /\ bptr c = bptr b' /\ bsize b' <= bsize b)
       end.
Proof.
  intros C Hn. destruct (roundSize_spec n Hn) as (R1 & R2 & R3). fold (rsz n) in R1, R2, R3.
  destruct (getAllocationSize_spec (rsz n)) as (A1 & A2 & A3); [lia|].
  unfold mallocImpl. fold (rsz n). set (size := rsz n) in *. set (sm := getPool size).
  destruct (getFreeBlock_spec s segs sm size C) as [[G1 G2] | (i & b & s1 & G1 & G2 & G3 & G4 & G5 & G6 & G7 & G8 & G9)];
    rewrite G1.
  - assert (Hnofit : forall i b, ~ fits s n i b).
    { intros i b (F1 & F2 & F3 & F4). fold size in F3, F4. specialize (G2 i b F1 F3 F2). lia. }
    destruct (allocBlock_spec s segs sm (getAllocationSize size) p1 C) as [[B1 B2] | (p & s2 & B1 & B2 & B3 & B4 & B5 & B6 & B7)]; [lia|auto|auto|rewrite B2|rewrite B2].
    + destruct (releaseCached_spec s segs C) as (s3 & segs3 & D1 & D2 & D3 & D4 & D5 & D6 & D7). rewrite D1.
      assert (Hkeep : forall g k p m, In g segs -> In k (sids g) -> allocd (heap s) k p m -> In g segs3).
      { intros g k p m Hg Hk Ha. apply (shrinks_allocd _ _ k p m D5) in Ha. destruct Ha as (b & Hb & _).
        apply (c_dom _ _ _ _ D2) in Hb. apply in_flat_map in Hb. destruct Hb as (g' & Hg' & Hk').
        assert (g = g'); [|subst; auto]. pose proof (c_nd _ _ _ _ C) as Nd.
        apply (allids_inj segs k); auto. }
      destruct (allocBlock_spec s3 segs3 sm (getAllocationSize size) p2 D2) as [[E1 E2] | (p & s4 & E1 & E2 & E3 & E4 & E5 & E6 & E7)]; [lia|auto|auto|rewrite E2|rewrite E2].
      * exists s3, segs3, None. splits; auto.
        -- intros g k p m Hg Hk Ha. apply in_map. eauto.
        -- intros; apply shrinks_allocd; auto.
      * set (nb := mkB (getAllocationSize size) sm p false None None) in *.
        assert (Hnb : heap s4 (nxt s3) = Some nb) by (rewrite E4; apply upd_eq).
        rewrite Hnb.
        destruct (finish_spec s4 _ (nxt s3) nb size E7 Hnb eq_refl) as (s5 & segs5 & k & c & F1 & F2 & F3 & F4 & F5 & F6 & F7 & F8 & F9 & F10); auto; [simpl; lia|].
        change (bsmall nb) with sm in F1.
        rewrite F1. exists s5, segs5, (Some k). splits; auto; try congruence.
        { intros g k0 q m Hg Hk Ha. rewrite F10. simpl. right. apply in_map. eauto. }
        exists c. splits; auto; try lia.
        -- intros q m Ha. apply (F8 q m).
           assert (k <> nxt s3).
           { intro; subst k. rewrite D6 in Ha. destruct Ha as (d & Hd & _). apply (c_nxt _ _ _ _ C) in Hd. lia. }
           unfold allocd. rewrite E4, upd_neq by auto. apply (shrinks_allocd _ _ k q m D5). auto.
        -- intros j q m Nj. rewrite F9 by auto. rewrite <- (shrinks_allocd _ _ j q m D5). unfold allocd. rewrite E4.
           destruct (Nat.eq_dec j (nxt s3)) as [->|N]; [|rewrite upd_neq by auto; tauto].
           rewrite upd_eq, E3. split; intros (d & Hd & Hd2 & _); [injection Hd as <-; discriminate|discriminate].
        -- intros j d Hf. exfalso; eapply Hnofit; eauto.
    + set (nb := mkB (getAllocationSize size) sm p false None None) in *.
      assert (Hnb : heap s2 (nxt s) = Some nb) by (rewrite B4; apply upd_eq).
      rewrite Hnb.
      destruct (finish_spec s2 _ (nxt s) nb size B7 Hnb eq_refl) as (s5 & segs5 & k & c & F1 & F2 & F3 & F4 & F5 & F6 & F7 & F8 & F9 & F10); auto; [simpl; lia|].
      change (bsmall nb) with sm in F1.
      rewrite F1. exists s5, segs5, (Some k). splits; auto; try congruence.
      { intros g k0 q m Hg Hk Ha. rewrite F10. simpl. right. apply in_map. auto. }
      exists c. splits; auto; try lia.
      * intros q m Ha. apply (F8 q m).
        assert (k <> nxt s).
        { intro; subst k. destruct Ha as (d & Hd & _). congruence. }
        unfold allocd. rewrite B4, upd_neq by auto. auto.
      * intros j q m Nj. rewrite F9 by auto. unfold allocd. rewrite B4.
        destruct (Nat.eq_dec j (nxt s)) as [->|N]; [|rewrite upd_neq by auto; tauto].
        rewrite upd_eq, B3. split; intros (d & Hd & Hd2 & _); [injection Hd as <-; discriminate|discriminate].
      * intros j d Hf. exfalso; eapply Hnofit; eauto.
  - assert (Hb1 : heap s1 i = Some b) by congruence. rewrite Hb1.
    destruct (finish_spec s1 segs i b size G8 Hb1 G4) as (s5 & segs5 & k & c & F1 & F2 & F3 & F4 & F5 & F6 & F7 & F8 & F9 & F10); auto.
    rewrite G3 in F1. rewrite F1. exists s5, segs5, (Some k). splits; auto; try congruence.
    { intros g k0 q m Hg Hk Ha. rewrite F10. apply in_map. auto. }
    exists c. splits; auto; try lia.
    + rewrite <- G6. auto.
    + rewrite <- G6. auto.
    + intros j d Hf. split; auto. exists i, b. splits; auto.
      * unfold fits. splits; auto.
      * destruct Hf as (X1 & X2 & X3 & X4). apply (G9 j d); auto.
Qed.
