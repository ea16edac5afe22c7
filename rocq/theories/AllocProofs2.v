(** Proofs about the allocator model: the operations. *)
From Coq Require Import ZArith List Bool Arith Lia.
From Verif Require Import AllocModel AllocSpec AllocProofs.
Import ListNotations.
Local Open Scope Z_scope.
Ltac splits ::= repeat match goal with |- _ /\ _ => split | |- seg_ok _ _ _ => unfold seg_ok end.

Lemma keylt_irrefl a p : keylt a p a p = false.
Proof. unfold keylt. rewrite Z.eqb_refl. apply Z.ltb_irrefl. Qed.

Lemma key_equiv_true h i j b c : h i = Some b -> h j = Some c ->
  key_equiv h i j = true -> bptr b = bptr c.
Proof.
  intros Hb Hc. unfold key_equiv, keylt. rewrite Hb, Hc.
  destruct (Z.eqb_spec (bsize b) (bsize c)) as [E|E].
  - rewrite E, Z.eqb_refl. intro H. apply andb_true_iff in H. destruct H as [H1 H2].
    apply negb_true_iff in H1. apply negb_true_iff in H2.
    apply Z.ltb_ge in H1. apply Z.ltb_ge in H2. lia.
  - destruct (Z.eqb_spec (bsize c) (bsize b)) as [E'|E']; [lia|].
    intro H. apply andb_true_iff in H. destruct H as [H1 H2].
    apply negb_true_iff in H1. apply negb_true_iff in H2.
    apply Z.ltb_ge in H1. apply Z.ltb_ge in H2. lia.
Qed.

Lemma key_equiv_refl h i b : h i = Some b -> key_equiv h i i = true.
Proof. intro Hb. unfold key_equiv. rewrite Hb, keylt_irrefl. reflexivity. Qed.

Definition dropid (i : nat) (l : list nat) : list nat := filter (fun j => negb (Nat.eqb j i)) l.

Lemma dropid_in i l j : In j (dropid i l) <-> In j l /\ j <> i.
Proof.
  unfold dropid. rewrite filter_In, negb_true_iff, Nat.eqb_neq. tauto.
Qed.
Lemma dropid_nd i l : NoDup l -> NoDup (dropid i l).
Proof. apply NoDup_filter. Qed.

Lemma alive_spec h l : alive h l = true <-> forall i, In i l -> exists b, h i = Some b.
Proof.
  unfold alive. rewrite forallb_forall. split; intros H i Hi.
  - specialize (H i Hi). destruct (h i) as [b|]; [eauto | discriminate].
  - destruct (H i Hi) as [b ->]. reflexivity.
Qed.

(** What the pools need: all members alive, and no two with the same address. *)
Definition poolable (h : nat -> option block) (i : nat) (l : list nat) : Prop :=
  exists b, h i = Some b /\
    forall j, In j l -> exists c, h j = Some c /\ (j <> i -> bptr c <> bptr b).

Lemma pool_erase_spec s sm i : poolable (heap s) i (pool_of s sm) ->
  pool_erase s sm i = Some (set_pool s sm (dropid i (pool_of s sm))).
Proof.
  intros (b & Hb & Hl). unfold pool_erase.
  replace (alive (heap s) (i :: pool_of s sm)) with true.
  - f_equal. f_equal. unfold dropid.
    induction (pool_of s sm) as [|j l IH]; simpl; auto.
    rewrite IH by (intros k Hk; apply Hl; right; auto).
    destruct (Hl j (or_introl eq_refl)) as (c & Hc & Hne).
    destruct (Nat.eqb_spec j i) as [->|N].
    + rewrite (key_equiv_refl _ _ _ Hb). reflexivity.
    + destruct (key_equiv (heap s) i j) eqn:E; auto.
      apply (key_equiv_true _ _ _ _ _ Hb Hc) in E. exfalso; apply (Hne N); auto.
  - symmetry. apply alive_spec. intros j [<- | Hj]; eauto.
    destruct (Hl j Hj) as (c & Hc & _); eauto.
Qed.

Lemma pool_insert_spec s sm i : poolable (heap s) i (pool_of s sm) -> ~ In i (pool_of s sm) ->
  pool_insert s sm i = Some (set_pool s sm (i :: pool_of s sm)).
Proof.
  intros (b & Hb & Hl) Hni. unfold pool_insert.
  replace (alive (heap s) (i :: pool_of s sm)) with true.
  - replace (existsb (key_equiv (heap s) i) (pool_of s sm)) with false; auto.
    symmetry. apply not_true_iff_false. intro H. apply existsb_exists in H.
    destruct H as (j & Hj & E). destruct (Hl j Hj) as (c & Hc & Hne).
    apply (key_equiv_true _ _ _ _ _ Hb Hc) in E. apply Hne; auto. intro; subst; auto.
  - symmetry. apply alive_spec. intros j [<- | Hj]; eauto.
    destruct (Hl j Hj) as (c & Hc & _); eauto.
Qed.

Lemma heap_set_pool s sm l : heap (set_pool s sm l) = heap s.
Proof. destruct sm; reflexivity. Qed.
Lemma nxt_set_pool s sm l : nxt (set_pool s sm l) = nxt s.
Proof. destruct sm; reflexivity. Qed.
Lemma held_set_pool s sm l : held (set_pool s sm l) = held s.
Proof. destruct sm; reflexivity. Qed.
Lemma total_set_pool s sm l : total (set_pool s sm l) = total s.
Proof. destruct sm; reflexivity. Qed.
Lemma active_set_pool s sm l : active (set_pool s sm l) = active s.
Proof. destruct sm; reflexivity. Qed.
Lemma pool_of_set_pool s sm l sm' :
  pool_of (set_pool s sm l) sm' = if Bool.eqb sm' sm then l else pool_of s sm'.
Proof. destruct sm, sm'; reflexivity. Qed.
Lemma pool_of_set_heap s h sm : pool_of (set_heap s h) sm = pool_of s sm.
Proof. destruct sm; reflexivity. Qed.
Global Hint Rewrite heap_set_pool nxt_set_pool held_set_pool total_set_pool active_set_pool
  pool_of_set_pool pool_of_set_heap : alloc.

Lemma core_poolable s segs x y i b sm :
  Core s segs x y -> heap s i = Some b -> poolable (heap s) i (pool_of s sm).
Proof.
  intros C Hb. exists b. split; auto. intros j Hj.
  apply (c_pool _ _ _ _ C) in Hj. destruct Hj as (c & Hc & _).
  exists c. split; auto. intros N E.
  destruct (core_blocks_disj _ _ _ _ _ _ _ _ C Hc Hb N) as [H|H];
    destruct (core_block _ _ _ _ _ _ C Hc) as (? & _ & _ & _ & _ & _ & ? & _);
    destruct (core_block _ _ _ _ _ _ C Hb) as (? & _ & _ & _ & _ & _ & ? & _); lia.
Qed.

(** The allocated blocks, which sub-operations on free blocks must not touch. *)
Definition allocd (h : nat -> option block) (i : nat) (p n : Z) : Prop :=
  exists b, h i = Some b /\ balloc b = true /\ bptr b = p /\ bsize b = n.

(** Taking a free block out of its pool. *)
Lemma core_take s segs i b : Core s segs None None -> heap s i = Some b -> balloc b = false ->
  Core (set_pool s (bsmall b) (dropid i (pool_of s (bsmall b)))) segs (Some i) None.
Proof.
  intros C Hb Hf. constructor; autorewrite with alloc.
  - apply (c_seg _ _ _ _ C).
  - apply (c_nd _ _ _ _ C).
  - apply (c_dom _ _ _ _ C).
  - apply (c_held _ _ _ _ C).
  - apply (c_disj _ _ _ _ C).
  - apply (c_nxt _ _ _ _ C).
  - intro sm. autorewrite with alloc. destruct (Bool.eqb sm (bsmall b)).
    + apply dropid_nd. apply (c_pnd _ _ _ _ C).
    + apply (c_pnd _ _ _ _ C).
  - intros sm j. autorewrite with alloc. destruct (Bool.eqb sm (bsmall b)) eqn:E.
    + apply eqb_prop in E. subst sm. rewrite dropid_in, (c_pool _ _ _ _ C). split.
      * intros [(c & Hc & H1 & H2 & _) N]. exists c. splits; auto. congruence.
      * intros (c & Hc & H1 & H2 & H3). split; [|congruence].
        exists c. splits; auto. discriminate.
    + rewrite (c_pool _ _ _ _ C). split.
      * intros (c & Hc & H1 & H2 & _). exists c. splits; auto.
        intro N. injection N as <-. rewrite Hb in Hc. injection Hc as <-.
        subst sm. rewrite eqb_reflx in E. discriminate.
      * intros (c & Hc & H1 & H2 & _). exists c. splits; auto. discriminate.
  - apply (c_total _ _ _ _ C).
  - apply (c_cls _ _ _ _ C).
Qed.

Lemma lower_bound_spec h l size :
  (forall i, In i l -> exists b, h i = Some b /\ 0 < bptr b) ->
  match lower_bound h l size with
  | None => forall i b, In i l -> h i = Some b -> bsize b < size
  | Some i => exists b, In i l /\ h i = Some b /\ size <= bsize b /\
      forall j c, In j l -> h j = Some c -> size <= bsize c -> bsize b <= bsize c
  end.
Proof.
  induction l as [|i l IH]; intros Hl; simpl.
  - intros i b [].
  - assert (Hl' : forall j, In j l -> exists b, h j = Some b /\ 0 < bptr b) by (intros; apply Hl; right; auto).
    specialize (IH Hl').
    destruct (Hl i (or_introl eq_refl)) as (b & Hb & Hp). rewrite Hb.
    destruct (keylt (bsize b) (bptr b) size 0) eqn:K.
    + assert (Hlt : bsize b < size).
      { unfold keylt in K. destruct (Z.eqb_spec (bsize b) size); apply Z.ltb_lt in K; lia. }
      destruct (lower_bound h l size) as [j|].
      * destruct IH as (c & H1 & H2 & H3 & H4). exists c. splits; auto; try (right; auto).
        intros k d [<- | Hk] Hd Hs; [rewrite Hb in Hd; injection Hd as <-; lia | eauto].
      * intros j c [<- | Hj] Hc; [rewrite Hb in Hc; injection Hc as <-; lia | eauto].
    + assert (Hge : size <= bsize b).
      { unfold keylt in K. destruct (Z.eqb_spec (bsize b) size); apply Z.ltb_ge in K; lia. }
      destruct (lower_bound h l size) as [j|].
      * destruct IH as (c & H1 & H2 & H3 & H4). rewrite H2.
        destruct (keylt (bsize c) (bptr c) (bsize b) (bptr b)) eqn:K2.
        -- exists c. splits; auto; try (right; auto).
           assert (bsize c <= bsize b).
           { unfold keylt in K2. destruct (Z.eqb_spec (bsize c) (bsize b)); [lia|]. apply Z.ltb_lt in K2; lia. }
           intros k d [<- | Hk] Hd Hs; [rewrite Hb in Hd; injection Hd as <-; lia | eauto].
        -- exists b. splits; auto.
           assert (bsize b <= bsize c).
           { unfold keylt in K2. destruct (Z.eqb_spec (bsize c) (bsize b)); [lia|]. apply Z.ltb_ge in K2; lia. }
           intros k d [<- | Hk] Hd Hs; [rewrite Hb in Hd; injection Hd as <-; lia |].
           specialize (H4 k d Hk Hd Hs). lia.
      * exists b. splits; auto.
        intros k d [<- | Hk] Hd Hs; [rewrite Hb in Hd; injection Hd as <-; lia |].
        specialize (IH k d Hk Hd). lia.
Qed.

Lemma core_ptr_pos s segs x y i b : Core s segs x y -> heap s i = Some b -> 0 < bptr b.
Proof.
  intros C Hb. destruct (core_block _ _ _ _ _ _ C Hb) as (g & Hg & _ & Hok & H & _).
  destruct Hok as (Hp & _). lia.
Qed.

Lemma getFreeBlock_spec s segs sm size : Core s segs None None ->
  (getFreeBlock s sm size = Some (s, None)
     /\ forall i b, heap s i = Some b -> bsmall b = sm -> balloc b = false -> bsize b < size)
  \/ exists i b s', getFreeBlock s sm size = Some (s', Some i)
     /\ heap s i = Some b /\ bsmall b = sm /\ balloc b = false /\ size <= bsize b
     /\ heap s' = heap s /\ active s' = active s /\ Core s' segs (Some i) None
     /\ (forall j c, heap s j = Some c -> bsmall c = sm -> balloc c = false -> size <= bsize c ->
          bsize b <= bsize c).
Proof.
  intros C. unfold getFreeBlock.
  replace (alive (heap s) (pool_of s sm)) with true.
  2:{ symmetry. apply alive_spec. intros i Hi. apply (c_pool _ _ _ _ C) in Hi.
      destruct Hi as (b & Hb & _); eauto. }
  assert (Hl : forall i, In i (pool_of s sm) -> exists b, heap s i = Some b /\ 0 < bptr b).
  { intros i Hi. apply (c_pool _ _ _ _ C) in Hi. destruct Hi as (b & Hb & _).
    exists b. split; auto. eapply core_ptr_pos; eauto. }
  pose proof (lower_bound_spec _ _ size Hl) as LB.
  destruct (lower_bound (heap s) (pool_of s sm) size) as [i|].
  - right. destruct LB as (b & Hi & Hb & Hs & Hmin).
    apply (c_pool _ _ _ _ C) in Hi. destruct Hi as (b' & Hb' & Hsm & Hf & _).
    rewrite Hb in Hb'; injection Hb' as <-.
    rewrite pool_erase_spec by (eapply core_poolable; eauto).
    exists i, b, (set_pool s sm (dropid i (pool_of s sm))).
    autorewrite with alloc. splits; auto.
    + subst sm. apply core_take; auto.
    + intros j c Hc H1 H2 H3. eapply Hmin; eauto. apply (c_pool _ _ _ _ C).
      exists c. splits; auto. discriminate.
  - left. split; auto. intros i b Hb H1 H2. eapply LB; eauto.
    apply (c_pool _ _ _ _ C). exists b. splits; auto. discriminate.
Qed.

(** A fresh region from the base allocator. *)
Lemma allocBlock_spec s segs sm size pr : Core s segs None None -> 0 < size < 18446744073709551616 -> (512 | size) -> cls sm size ->
  (base_alloc s size pr = None /\ allocBlock s sm size pr = (s, None))
  \/ exists p s', base_alloc s size pr = Some p
     /\ allocBlock s sm size pr = (s', Some (nxt s))
     /\ heap s (nxt s) = None
     /\ heap s' = upd (heap s) (nxt s) (Some (mkB size sm p false None None))
     /\ active s' = active s
     /\ held s' = (p, size) :: held s
     /\ Core s' (mkSeg p size sm [nxt s] :: segs) (Some (nxt s)) None.
Proof.
  intros C Hpos Hdiv Hcls. unfold allocBlock.
  destruct (base_alloc s size pr) as [p|] eqn:E; [right | left; auto].
  assert (Hfresh : heap s (nxt s) = None).
  { destruct (heap s (nxt s)) eqn:F; auto. apply (c_nxt _ _ _ _ C) in F. lia. }
  assert (Hp : 0 < p /\ forall r, In r (held s) -> disj (p, size) r = true).
  { unfold base_alloc in E. destruct pr as [p'|]; [|discriminate].
    destruct ((0 <? p') && forallb (disj (p', size)) (held s)) eqn:F; [|discriminate].
    injection E as ->. apply andb_true_iff in F. destruct F as [F1 F2].
    split; [apply Z.ltb_lt; auto | apply forallb_forall; auto]. }
  eexists p, _. splits; try reflexivity; auto.
  assert (Hnin : ~ In (nxt s) (allids segs)).
  { intro Hin. apply in_flat_map in Hin. destruct Hin as (g & Hg & Hi).
    destruct (c_seg _ _ _ _ C _ Hg) as (_ & _ & _ & Hch & _).
    destruct (chain_in _ _ _ _ _ _ _ _ Hch Hi) as (b & Hb & _). congruence. }
  constructor; simpl.
  - intros g [<- | Hg].
    + splits; simpl; try lia; try discriminate.
      * exists (mkB size sm p false None None). rewrite upd_eq. simpl. splits; auto; try lia.
      * split; [intros j Hj; discriminate | exact I].
    + destruct (c_seg _ _ _ _ C _ Hg) as (H1 & H2 & H3 & H4 & H5).
      assert (Hne : forall i, In i (sids g) -> i <> nxt s).
      { intros i Hi ->. apply Hnin. apply in_flat_map. eauto. }
      splits; auto; try lia.
      * eapply chain_frame; [|exact H4]. intros i Hi. apply upd_neq; auto.
      * eapply coal_frame; [|exact H5]. intros i Hi (b & Hb & Hf & _).
        rewrite upd_neq in Hb by auto. exists b. splits; auto. discriminate.
  - constructor; auto. apply (c_nd _ _ _ _ C).
  - intros i b. unfold upd. destruct (Nat.eqb_spec i (nxt s)) as [->|N]; auto.
    intro Hb. right. eapply (c_dom _ _ _ _ C); eauto.
  - unfold region at 1. simpl. f_equal. apply (c_held _ _ _ _ C).
  - split; [apply Hp | apply (c_disj _ _ _ _ C)].
  - intros i b. unfold upd. destruct (Nat.eqb_spec i (nxt s)) as [->|N]; [lia|].
    intro Hb. apply (c_nxt _ _ _ _ C) in Hb. lia.
  - intro sm'. apply (c_pnd _ _ _ _ C sm').
  - intros sm' i. change (In i (pool_of s sm') <-> exists b, upd (heap s) (nxt s) (Some (mkB size sm p false None None)) i = Some b /\ bsmall b = sm' /\ balloc b = false /\ Some (nxt s) <> Some i).
    rewrite (c_pool _ _ _ _ C). split.
    + intros (b & Hb & H1 & H2 & _). assert (i <> nxt s) by congruence.
      exists b. rewrite upd_neq by auto. splits; auto. congruence.
    + intros (b & Hb & H1 & H2 & H3). rewrite upd_neq in Hb by congruence.
      exists b. splits; auto. discriminate.
  - rewrite (c_total _ _ _ _ C). lia.
  - intros g [<- | Hg]; [exact Hcls | apply (c_cls _ _ _ _ C); auto].
Qed.
