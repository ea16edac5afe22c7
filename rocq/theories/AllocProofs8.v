(** Proofs about the allocator model: histories. *)
From Coq Require Import ZArith List Bool Arith Lia.
From Verif Require Import AllocModel AllocSpec AllocProofs AllocProofs2 AllocProofs3 AllocProofs4 AllocProofs5 AllocProofs6 AllocProofs7.
Import ListNotations.
Local Open Scope Z_scope.

Record Inv (s : st) (lv : list (Z * Z)) (segs : list seg) : Prop := mkInv {
  i_core : Core s segs None None;
  i_and : NoDup (map fst (active s));
  i_act : forall p i, In (p, i) (active s) <-> exists m, allocd (heap s) i p m;
  i_lnd : NoDup (map fst lv);
  i_live : forall p n, In (p, n) lv -> 0 <= n /\ exists i m, allocd (heap s) i p m /\ n <= m;
  i_actl : forall i p m, allocd (heap s) i p m -> exists n, In (p, n) lv }.

Lemma inv_init : Inv init [] [].
Proof.
  constructor.
  - constructor; simpl; try constructor; try tauto; try discriminate.
    + intros []; constructor.
    + destruct sm; simpl; tauto.
    + intros (b & H & _); discriminate.
  - constructor.
  - intros p i. simpl. split; [tauto|]. intros (m & b & H & _). discriminate.
  - constructor.
  - intros p n [].
  - intros i p m (b & H & _). discriminate.
Qed.

Lemma allocd_inj s segs x y i j p m m' : Core s segs x y ->
  allocd (heap s) i p m -> allocd (heap s) j p m' -> i = j.
Proof.
  intros C (b & Hb & _ & P1 & P2) (c & Hc & _ & P3 & P4).
  destruct (Nat.eq_dec i j); auto. exfalso.
  destruct (core_block _ _ _ _ _ _ C Hb) as (_ & _ & _ & _ & _ & _ & ? & _).
  destruct (core_block _ _ _ _ _ _ C Hc) as (_ & _ & _ & _ & _ & _ & ? & _).
  destruct (core_blocks_disj _ _ _ _ _ _ _ _ C Hb Hc) as [D|D]; auto; lia.
Qed.

Lemma find_active_spec l p : NoDup (map fst l) ->
  match find_active l p with
  | Some i => In (p, i) l
  | None => forall i, ~ In (p, i) l
  end.
Proof.
  induction l as [|[q j] l IH]; simpl; intro Nd; [tauto|].
  inversion Nd as [|? ? Hq Nd']; subst. destruct (Z.eqb_spec q p) as [->|N]; auto.
  specialize (IH Nd'). destruct (find_active l p); auto.
  intros i [E|H]; [injection E; auto | eapply IH; eauto].
Qed.

Lemma erase_id {A} (l : list (Z * A)) p : ~ In p (map fst l) -> filter (fun e => negb (fst e =? p)) l = l.
Proof.
  induction l as [|[q j] l IH]; simpl; auto. intro H. destruct (Z.eqb_spec q p); [tauto|].
  simpl. f_equal. apply IH. tauto.
Qed.

Lemma filter_nd {A} (l : list (Z * A)) f : NoDup (map fst l) -> NoDup (map fst (filter f l)).
Proof.
  induction l as [|[q j] l IH]; simpl; auto. intro H. inversion H as [|? ? Hq Nd]; subst.
  destruct (f (q, j)); simpl; auto. constructor; auto.
  intro Hin. apply Hq. apply in_map_iff in Hin. destruct Hin as (e & <- & He). apply filter_In in He.
  apply in_map. tauto.
Qed.

Lemma filter_fst_in {A} (l : list (Z * A)) p q v :
  In (q, v) (filter (fun e => negb (fst e =? p)) l) <-> In (q, v) l /\ q <> p.
Proof. rewrite filter_In. simpl. rewrite negb_true_iff, Z.eqb_neq. tauto. Qed.

Lemma set_active_core s segs x y l : Core s segs x y -> Core (set_active s l) segs x y.
Proof.
  intros [H1 H2 H3 H4 H5 H6 H7 H8 H9 H10]. constructor; auto.
Qed.

(** One step from a good state: it does not get stuck and ends in a good state. *)
Lemma inv_step s lv segs o : Inv s lv segs -> legal o ->
  exists s' e segs', step s o = Some (s', e) /\ Inv s' (live_step lv e) segs'
   /\ (forall g k p m, In g segs -> In k (sids g) -> allocd (heap s) k p m -> In (region g) (held s')).
Proof.
  intros [C And Act Lnd Liv Actl] Hleg. destruct o as [n p1 p2|p]; simpl in *.
  - destruct (malloc_spec s segs n p1 p2 C Hleg) as (s1 & segs1 & r & M1 & M2 & M3 & M4 & M5).
    unfold allocate. rewrite M1.
    destruct r as [k|].
    + destruct M5 as (c & Hc & Hct & Hn & _ & Hnew & Hold & _). rewrite Hc.
      assert (Hk : allocd (heap s1) k (bptr c) (bsize c)) by (exists c; auto).
      assert (Hfresh : forall i, ~ In (bptr c, i) (active s)).
      { intros i Hi. apply Act in Hi. destruct Hi as (m & Ha).
        destruct (Nat.eq_dec i k) as [->|N]; [eapply Hnew; eauto|].
        apply (Hold i (bptr c) m N) in Ha. apply N. eapply allocd_inj; eauto. }
      assert (Hfk : ~ In (bptr c) (map fst (active s))).
      { intro H. apply in_map_iff in H. destruct H as ([q i] & E & Hi). simpl in E. subst q. eapply Hfresh; eauto. }
      eexists _, _, segs1. split; [reflexivity|]. split; [|simpl; rewrite (c_held _ _ _ _ M2); auto].
      unfold erase_active. rewrite M3, erase_id by auto.
      constructor; simpl.
      * apply set_active_core. auto.
      * constructor; auto.
      * intros q i. split.
        -- intros [E|Hi]; [injection E as <- <-; exists (bsize c); auto|].
           pose proof Hi as Hi'. apply Act in Hi. destruct Hi as (m & Ha). exists m.
           apply Hold; auto. intros ->. eapply Hnew; eauto.
        -- intros (m & Ha). destruct (Nat.eq_dec i k) as [->|N].
           ++ left. destruct Ha as (c' & Hc' & _ & <- & _). congruence.
           ++ right. apply Act. exists m. apply Hold; auto.
      * constructor; auto. intro H. apply in_map_iff in H. destruct H as ([q v] & E & Hi). simpl in E. subst q.
        apply Liv in Hi. destruct Hi as (_ & i & m & Ha & _). apply (Hfresh i). apply Act. eauto.
      * intros q v [E|Hi].
        -- injection E as <- <-. split; [lia|]. exists k, (bsize c). auto.
        -- apply Liv in Hi. destruct Hi as (H0 & i & m & Ha & Hle). split; auto. exists i, m. split; auto.
           apply Hold; auto. intros ->. eapply Hnew; eauto.
      * intros i q m Ha. destruct (Nat.eq_dec i k) as [->|N].
        -- exists n. left. destruct Ha as (c' & Hc' & _ & <- & _). congruence.
        -- apply Hold in Ha; auto. apply Actl in Ha. destruct Ha as (v & Hv). exists v; auto.
    + destruct M5 as (Hold & _).
      eexists _, _, segs1. split; [reflexivity|]. split; [|rewrite (c_held _ _ _ _ M2); auto].
      constructor; simpl; auto.
      * rewrite M3; auto.
      * intros q i. rewrite M3, Act. split; intros (m & Ha); exists m; apply Hold; auto.
      * intros q v Hi. apply Liv in Hi. destruct Hi as (H0 & i & m & Ha & Hle). split; auto. exists i, m. split; auto. apply Hold; auto.
      * intros i q m Ha. apply Hold in Ha. eauto.
  - unfold deallocate. pose proof (find_active_spec (active s) p And) as FA.
    destruct (find_active (active s) p) as [i|].
    + pose proof FA as FA'. apply Act in FA. destruct FA as (m & Ha). pose proof Ha as Ha'.
      destruct Ha as (b & Hb & Hbt & Hbp & Hbs).
      destruct (free_spec s segs i b C Hb Hbt) as (s1 & segs1 & F1 & F2 & F3 & F4 & F5 & F6). rewrite F1.
      assert (Hpi : forall q k m', allocd (heap s1) k q m' -> q <> p).
      { intros q k m' Hk ->. destruct (Nat.eq_dec k i) as [->|N]; [eapply F5; eauto|].
        apply (F6 k p m' N) in Hk. exact (N (allocd_inj _ _ _ _ _ _ _ _ _ C Hk Ha')). }
      eexists _, _, segs1. split; [reflexivity|]. split.
      2:{ intros g k q m' Hg _ _. simpl. rewrite F4, (c_held _ _ _ _ C). apply in_map; auto. }
      constructor; simpl.
      * apply set_active_core; auto.
      * unfold erase_active. apply filter_nd. rewrite F3; auto.
      * intros q k. unfold erase_active. rewrite filter_fst_in, F3, Act. split.
        -- intros [(m' & Hk) Nq]. exists m'. apply F6; auto. intros ->. apply Nq.
           destruct Hk as (b' & Hb' & _ & <- & _). congruence.
        -- intros (m' & Hk). split; [|eauto]. exists m'. apply F6; auto. intros ->. eapply F5; eauto.
      * apply filter_nd; auto.
      * intros q v Hi. apply filter_fst_in in Hi. destruct Hi as [Hi Nq]. apply Liv in Hi.
        destruct Hi as (H0 & k & m' & Hk & Hle). split; auto. exists k, m'. split; auto. apply F6; auto.
        intros ->. apply Nq. destruct Hk as (b' & Hb' & _ & <- & _). congruence.
      * intros k q m' Hk. assert (Hk' := Hk). apply Hpi in Hk.
        apply F6 in Hk'; [|intros ->; eapply F5; eauto]. apply Actl in Hk'. destruct Hk' as (v & Hv).
        exists v. apply filter_fst_in; auto.
    + eexists _, _, segs. split; [reflexivity|].
      assert (Hnp : ~ In p (map fst lv)).
      { intro H. apply in_map_iff in H. destruct H as ([q v] & E & Hi). simpl in E. subst q.
        apply Liv in Hi. destruct Hi as (_ & i & m & Ha & _). apply (FA i). apply Act; eauto. }
      simpl. rewrite erase_id by auto. split; [constructor; auto|].
      intros g k q m' Hg _ _. rewrite (c_held _ _ _ _ C). apply in_map; auto.
Qed.

Lemma run_inv ops : forall s lv segs, Inv s lv segs -> Forall legal ops ->
  exists s' es segs', run s ops = Some (s', es) /\ Inv s' (fold_left live_step es lv) segs'.
Proof.
  induction ops as [|o ops IH]; intros s lv segs I Hl; simpl.
  - exists s, [], segs. auto.
  - inversion Hl as [|? ? Ho Hl']; subst.
    destruct (inv_step s lv segs o I Ho) as (s1 & e & segs1 & S1 & I1 & _). rewrite S1.
    destruct (IH s1 _ segs1 I1 Hl') as (s2 & es & segs2 & R & I2). rewrite R.
    exists s2, (e :: es), segs2. auto.
Qed.

Lemma reach_inv ops s es : Forall legal ops -> run init ops = Some (s, es) ->
  exists segs, Inv s (live es) segs.
Proof.
  intros Hl R. destruct (run_inv ops init [] [] inv_init Hl) as (s' & es' & segs' & R' & I).
  rewrite R in R'. injection R' as <- <-. exists segs'. exact I.
Qed.

Lemma no_ub ops : Forall legal ops -> exists s es, run init ops = Some (s, es).
Proof.
  intros Hl. destruct (run_inv ops init [] [] inv_init Hl) as (s' & es' & segs' & R' & I). eauto.
Qed.

(** ** C01 *)
Lemma FOP_intro {A} (R : A -> A -> Prop) (l : list A) (f : A -> Z) :
  NoDup (map f l) -> (forall a b, In a l -> In b l -> f a <> f b -> R a b) -> ForallOrdPairs R l.
Proof.
  induction l as [|x l IH]; simpl; intros Nd H; constructor.
  - inversion Nd as [|? ? Hx _]; subst. apply Forall_forall. intros y Hy. apply H; auto.
    intro E. apply Hx. rewrite E. apply in_map; auto.
  - inversion Nd; subst. apply IH; auto.
Qed.

Lemma no_overlap ops s es : Forall legal ops -> run init ops = Some (s, es) ->
  NoDup (map fst (live es))
  /\ ForallOrdPairs disjoint (live es)
  /\ forall a, In a (live es) -> exists r, In r (held s) /\ inside a r /\ covers r (fst a)
       /\ (512 | fst a - fst r).
Proof.
  intros Hl R. destruct (reach_inv _ _ _ Hl R) as (segs & [C And Act Lnd Liv Actl]).
  split; [auto|]. split.
  - apply FOP_intro with (f := fst); auto.
    intros [p n] [q m] H1 H2 N. simpl in N.
    apply Liv in H1. apply Liv in H2. destruct H1 as (_ & i & z & Hi & Hz). destruct H2 as (_ & j & w & Hj & Hw).
    destruct Hi as (b & Hb & _ & P1 & P2). destruct Hj as (c & Hc & _ & P3 & P4).
    assert (Nij : i <> j) by congruence.
    destruct (core_blocks_disj _ _ _ _ _ _ _ _ C Hb Hc Nij) as [D|D]; unfold disjoint, covers; simpl; intros x [X1 X2]; lia.
  - intros [p n] H. apply Liv in H. destruct H as (H0 & i & z & Hi & Hz). destruct Hi as (b & Hb & _ & P1 & P2).
    destruct (core_block _ _ _ _ _ _ C Hb) as (g & Hg & _ & _ & G1 & G2 & G3 & G4 & G5 & _).
    exists (region g). rewrite (c_held _ _ _ _ C). split; [apply in_map; auto|].
    unfold inside, covers, region; simpl. subst. splits; auto; lia.
Qed.

(** ** C02/C03: the account *)
Definition tile_of (h : nat -> option block) (i : nat) : tile :=
  match h i with Some b => (bptr b, bsize b, balloc b) | None => (0, 0, false) end.

Lemma chain_tiles h sm l : forall pv p nx e, chain h sm pv p l nx e -> tiles p e (map (tile_of h) l).
Proof.
  induction l as [|i l IH]; simpl; intros pv p nx e; auto.
  intros (b & H1 & H2 & H3 & H4 & H5 & H6 & H7 & H8). unfold tile_of at 1. rewrite H1. splits; auto.
  eapply IH; eauto.
Qed.

Lemma coal_coalesced h l : (forall i, In i l -> exists b, h i = Some b) ->
  coal h None l -> coalesced (map (tile_of h) l).
Proof.
  induction l as [|i l IH]; intros Hl; simpl.
  - intros _ pre q1 m1 u1 q2 m2 u2 post E. destruct pre; discriminate.
  - intros [H1 H2] pre q1 m1 u1 q2 m2 u2 post E. destruct pre as [|t pre].
    + simpl in E. injection E as E1 E2. destruct l as [|j l]; [discriminate|]. simpl in E2. injection E2 as E2 _.
      destruct (Hl i (or_introl eq_refl)) as (b & Hb). destruct (Hl j (or_intror (or_introl eq_refl))) as (c & Hc).
      unfold tile_of in E1, E2. rewrite Hb in E1. rewrite Hc in E2. injection E1 as _ _ <-. injection E2 as _ _ <-.
      destruct (balloc b) eqn:B1; auto. destruct (balloc c) eqn:B2; auto. exfalso.
      apply (H1 j eq_refl). split; [exists b | exists c]; splits; auto; discriminate.
    + simpl in E. injection E as _ E. eapply IH; eauto. intros k Hk; apply Hl; right; auto.
Qed.

Definition lay_of (s : st) (segs : list seg) : list ((Z * Z) * list tile) :=
  map (fun g => (region g, map (tile_of (heap s)) (sids g))) segs.

Lemma account_inv s lv segs : Inv s lv segs -> account s lv (lay_of s segs).
Proof.
  intros [C And Act Lnd Liv Actl].
  assert (HL : forall r ts, In (r, ts) (lay_of s segs) ->
            exists g, In g segs /\ r = region g /\ ts = map (tile_of (heap s)) (sids g)).
  { intros r ts H. apply in_map_iff in H. destruct H as (g & E & Hg). injection E as <- <-. eauto. }
  assert (HB : forall i b, heap s i = Some b -> exists g, In g segs /\ In i (sids g)
            /\ In (region g, map (tile_of (heap s)) (sids g)) (lay_of s segs)
            /\ In (bptr b, bsize b, balloc b) (map (tile_of (heap s)) (sids g))).
  { intros i b Hb. pose proof (c_dom _ _ _ _ C _ _ Hb) as Hi. apply in_flat_map in Hi. destruct Hi as (g & Hg & Hi).
    exists g. splits; auto.
    - apply in_map_iff. exists g; auto.
    - apply in_map_iff. exists i. unfold tile_of. rewrite Hb. auto. }
  assert (HG : forall g i, In g segs -> In i (sids g) -> exists b, heap s i = Some b).
  { intros g i Hg Hi. destruct (c_seg _ _ _ _ C _ Hg) as (_ & _ & _ & H4 & _).
    destruct (chain_in _ _ _ _ _ _ _ _ H4 Hi) as (b & Hb & _). eauto. }
  assert (HT : forall r ts p m u, In (r, ts) (lay_of s segs) -> In (p, m, u) ts ->
            exists i b, heap s i = Some b /\ bptr b = p /\ bsize b = m /\ balloc b = u).
  { intros r ts p m u H1 H2. apply HL in H1. destruct H1 as (g & Hg & -> & ->).
    apply in_map_iff in H2. destruct H2 as (i & E & Hi). destruct (HG g i Hg Hi) as (b & Hb).
    exists i, b. unfold tile_of in E. rewrite Hb in E. injection E as <- <- <-. auto. }
  constructor.
  - unfold lay_of. rewrite map_map. simpl. rewrite (c_held _ _ _ _ C). reflexivity.
  - intros r ts H. apply HL in H. destruct H as (g & Hg & -> & ->).
    destruct (c_seg _ _ _ _ C _ Hg) as (_ & _ & _ & H4 & _). eapply chain_tiles; eauto.
  - intros r ts H. apply HL in H. destruct H as (g & Hg & -> & ->).
    destruct (c_seg _ _ _ _ C _ Hg) as (_ & _ & _ & _ & H5). apply coal_coalesced; auto. eauto.
  - intros p n H. apply Liv in H. destruct H as (_ & i & m & (b & Hb & Hbt & P1 & P2) & Hle).
    destruct (HB i b Hb) as (g & Hg & Hi & L1 & L2). exists (region g), (map (tile_of (heap s)) (sids g)), m.
    splits; auto. rewrite <- P1, <- P2, <- Hbt. auto.
  - intros r ts p m H1 H2. destruct (HT _ _ _ _ _ H1 H2) as (i & b & Hb & P1 & P2 & P3).
    apply (Actl i p m). exists b; auto.
  - intros r ts p m H1 H2. destruct (HT _ _ _ _ _ H1 H2) as (i & b & Hb & P1 & P2 & P3).
    exists (bsmall b), i, b. splits; auto. apply (c_pool _ _ _ _ C). exists b. splits; auto. discriminate.
  - intros sm p m (i & b & Hi & Hb & P1 & P2). apply (c_pool _ _ _ _ C) in Hi.
    destruct Hi as (b' & Hb' & _ & Hf & _). rewrite Hb in Hb'; injection Hb' as <-.
    destruct (HB i b Hb) as (g & Hg & Hi & L1 & L2). exists (region g), (map (tile_of (heap s)) (sids g)).
    split; auto. rewrite <- P1, <- P2, <- Hf. auto.
Qed.

Lemma account_reach ops s es : Forall legal ops -> run init ops = Some (s, es) ->
  exists lay, account s (live es) lay.
Proof.
  intros Hl R. destruct (reach_inv _ _ _ Hl R) as (segs & I). exists (lay_of s segs). apply account_inv; auto.
Qed.

Lemma total_reach ops s es : Forall legal ops -> run init ops = Some (s, es) ->
  total s = fold_right Z.add 0 (map snd (held s)).
Proof.
  intros Hl R. destruct (reach_inv _ _ _ Hl R) as (segs & I). destruct I as [C _ _ _ _ _].
  rewrite (c_total _ _ _ _ C), (c_held _ _ _ _ C), map_map. reflexivity.
Qed.

(** A region given back to the base allocator holds no live allocation. *)
Lemma release_safe ops s es o s' e : Forall legal ops -> legal o ->
  run init ops = Some (s, es) -> step s o = Some (s', e) ->
  forall r, In r (held s) -> ~ In r (held s') -> forall p n, In (p, n) (live es) -> ~ covers r p.
Proof.
  intros Hl Ho R S r Hr Hr' p n Hp Hcov.
  destruct (reach_inv _ _ _ Hl R) as (segs & I).
  destruct (inv_step s _ segs o I Ho) as (s1 & e1 & segs1 & S1 & _ & K).
  rewrite S in S1. injection S1 as <- <-.
  destruct I as [C And Act Lnd Liv Actl].
  apply Liv in Hp. destruct Hp as (_ & i & m & Ha & _). pose proof Ha as Ha'.
  destruct Ha as (b & Hb & _ & P1 & P2).
  destruct (core_block _ _ _ _ _ _ C Hb) as (g & Hg & Hi & _ & G1 & G2 & G3 & _).
  rewrite (c_held _ _ _ _ C) in Hr. apply in_map_iff in Hr. destruct Hr as (g' & <- & Hg').
  assert (region g = region g').
  { destruct (in_dec (fun x y : Z * Z => ltac:(decide equality; apply Z.eq_dec)) (region g) [region g']) as [H|H].
    - destruct H as [->|[]]; auto.
    - exfalso. assert (N : region g <> region g') by (intro X; apply H; left; auto).
      pose proof (pdisj_in _ (region g) (region g') (c_disj _ _ _ _ C)) as D.
      rewrite (c_held _ _ _ _ C) in D. specialize (D (in_map _ _ _ Hg) (in_map _ _ _ Hg') N).
      unfold disj, region in D. simpl in D. unfold covers, region in Hcov. simpl in Hcov.
      apply orb_true_iff in D. destruct D as [D|D]; apply Z.leb_le in D; lia. }
  apply Hr'. rewrite <- H. eapply K; eauto.
Qed.

(** Everything freed: the destructor hands every region back. *)
Lemma destroy_all ops s es : Forall legal ops -> run init ops = Some (s, es) ->
  live es = [] -> exists s', destroy s = Some s' /\ held s' = [] /\ total s' = 0.
Proof.
  intros Hl R Hnil. destruct (reach_inv _ _ _ Hl R) as (segs & [C And Act Lnd Liv Actl]).
  rewrite Hnil in *.
  assert (Hno : forall i p m, ~ allocd (heap s) i p m).
  { intros i p m H. apply Actl in H. destruct H as (n & []). }
  destruct (releaseCached_spec s segs C) as (s1 & segs1 & D1 & D2 & D3 & D4 & D5 & D6 & D7).
  unfold destroy. rewrite D1.
  assert (Hfree : forall i b, heap s1 i = Some b -> balloc b = false).
  { intros i b Hb. destruct (balloc b) eqn:B; auto. exfalso.
    apply (Hno i (bptr b) (bsize b)). apply (shrinks_allocd _ _ i _ _ D5). exists b; auto. }
  assert (segs1 = []) as ->.
  { destruct segs1 as [|g segs1]; auto. exfalso.
    destruct (c_seg _ _ _ _ D2 g (or_introl eq_refl)) as (X1 & X2 & X3 & X4 & X5).
    destruct (sids g) as [|i l]; [congruence|]. simpl in X4. destruct X4 as (b & Hb & _ & _ & _ & Y1 & Y2 & _ & Y3).
    pose proof (D7 i b Hb (Hfree _ _ Hb)) as Sp. destruct l as [|j l].
    - unfold isSplit in Sp. simpl in Y2. rewrite Y1, Y2 in Sp. discriminate.
    - simpl in Y3. destruct Y3 as (c & Hc & _). simpl in X5. destruct X5 as [X5 _].
      apply (X5 j eq_refl). split; [exists b | exists c]; splits; auto; try discriminate; eauto. }
  assert (Hpe : forall sm, pool_of s1 sm = []).
  { intro sm. destruct (pool_of s1 sm) as [|i l] eqn:E; auto. exfalso.
    assert (Hi : In i (pool_of s1 sm)) by (rewrite E; left; auto).
    apply (c_pool _ _ _ _ D2) in Hi. destruct Hi as (b & Hb & _). apply (c_dom _ _ _ _ D2) in Hb. destruct Hb. }
  assert (active s = []) as Ha0.
  { destruct (active s) as [|[p i] l]; auto. exfalso. destruct (Act p i) as [A _].
    destruct (A (or_introl eq_refl)) as (m & H). eapply Hno; eauto. }
  rewrite D3, Ha0. pose proof (Hpe false) as P1. pose proof (Hpe true) as P2. simpl in P1, P2. rewrite P1, P2.
  exists s1. splits; auto.
  - rewrite (c_held _ _ _ _ D2). reflexivity.
  - rewrite (c_total _ _ _ _ D2). reflexivity.
Qed.

Lemma destroy_only ops s es : Forall legal ops -> run init ops = Some (s, es) ->
  destroy s <> None -> live es = [].
Proof.
  intros Hl R Hd. destruct (reach_inv _ _ _ Hl R) as (segs & [C And Act Lnd Liv Actl]).
  destruct (releaseCached_spec s segs C) as (s1 & segs1 & D1 & D2 & D3 & D4 & D5 & D6 & D7).
  unfold destroy in Hd. rewrite D1, D3 in Hd.
  destruct (live es) as [|[p n] l] eqn:E; auto. exfalso.
  destruct (Liv p n (or_introl eq_refl)) as (_ & i & m & Ha & _).
  assert (In (p, i) (active s)) as H by (apply Act; eauto).
  destruct (active s); [destruct H | congruence].
Qed.

(** Freeing an address that is not a live allocation changes nothing. *)
Lemma free_unknown ops s es p : Forall legal ops -> run init ops = Some (s, es) ->
  ~ In p (map fst (live es)) -> step s (Free p) = Some (s, EFree p).
Proof.
  intros Hl R Hn. destruct (reach_inv _ _ _ Hl R) as (segs & [C And Act Lnd Liv Actl]).
  simpl. unfold deallocate. pose proof (find_active_spec (active s) p And) as FA.
  destruct (find_active (active s) p) as [i|]; auto.
  exfalso. apply Act in FA. destruct FA as (m & Ha). apply Actl in Ha. destruct Ha as (n & Hi).
  apply Hn. apply in_map_iff. exists (p, n); auto.
Qed.

(** Coalesced tiles without a used one are a single tile. *)
Lemma single_free_tile from upto ts : tiles from upto ts -> coalesced ts -> from < upto ->
  (forall p m, ~ In (p, m, true) ts) -> ts = [(from, upto - from, false)].
Proof.
  intros T Co Hlt Hn. destruct ts as [|[[q m] u] ts]; simpl in T; [lia|]. destruct T as (-> & Hm & T).
  destruct u; [exfalso; eapply Hn; left; reflexivity|].
  destruct ts as [|[[q2 m2] u2] ts].
  - simpl in T. f_equal. f_equal. f_equal. lia.
  - exfalso. destruct u2; [eapply Hn; right; left; reflexivity|].
    destruct (Co [] _ _ _ _ _ _ ts eq_refl); discriminate.
Qed.

Lemma region_coalesces ops s es r : Forall legal ops -> run init ops = Some (s, es) ->
  In r (held s) -> (forall p n, In (p, n) (live es) -> ~ covers r p) ->
  exists sm, cached s sm (fst r) (snd r).
Proof.
  intros Hl R Hr Hno. destruct (reach_inv _ _ _ Hl R) as (segs & I).
  pose proof (account_inv _ _ _ I) as A. destruct I as [C And Act Lnd Liv Actl].
  rewrite <- (acc_regions _ _ _ A) in Hr. apply in_map_iff in Hr. destruct Hr as ([r' ts] & E & Hin). simpl in E. subst r'.
  pose proof (acc_tiled _ _ _ A _ _ Hin) as T. pose proof (acc_coalesced _ _ _ A _ _ Hin) as Co.
  assert (0 < snd r) as Hpos.
  { apply in_map_iff in Hin. destruct Hin as (g & E & Hg). injection E as <- _.
    destruct (c_seg _ _ _ _ C _ Hg) as (_ & ? & _). simpl. lia. }
  assert (Hrange : forall ts from upto p m u, tiles from upto ts -> In (p, m, u) ts -> from <= p < upto).
  { clear. induction ts as [|[[q m'] u'] ts IH]; simpl; intros from upto p m u H Hin; [tauto|].
    destruct H as (-> & Hm & H). 
    assert (Hle : forall l a b, tiles a b l -> a <= b).
    { clear. induction l as [|[[q m] u] l IH]; simpl; intros a b H; [lia|]. destruct H as (_ & ? & H). apply IH in H. lia. }
    destruct Hin as [E|Hin]; [injection E as <- <- <-; apply Hle in H; lia|].
    specialize (IH _ _ _ _ _ H Hin). lia. }
  assert (ts = [(fst r, fst r + snd r - fst r, false)]) as ->.
  { apply single_free_tile; auto; [lia|]. intros p m Hp.
    destruct (acc_used _ _ _ A _ _ _ _ Hin Hp) as (n & Hpn). apply (Hno p n Hpn).
    unfold covers. eapply Hrange; eauto. }
  destruct (acc_free _ _ _ A _ _ (fst r) (fst r + snd r - fst r) Hin (or_introl eq_refl)) as (sm & H).
  exists sm. replace (snd r) with (fst r + snd r - fst r) by lia. auto.
Qed.

(** A request that some cached block of its class can hold is served from the
    cache, best fit, without asking the base allocator. *)
Lemma cache_hit ops s es n p1 p2 q m : Forall legal ops -> run init ops = Some (s, es) ->
  0 <= n < 9223372036854775808 ->
  cached s (n <=? 1048576) q m -> n <= m ->
  exists s' p z, step s (Alloc n p1 p2) = Some (s', EAlloc n (Some p)) /\ held s' = held s
    /\ cached s (n <=? 1048576) p z /\ n <= z <= m.
Proof.
  intros Hl R Hn (i & b & Hi & Hb & P1 & P2) Hle.
  destruct (reach_inv _ _ _ Hl R) as (segs & I). destruct I as [C And Act Lnd Liv Actl].
  destruct (malloc_spec s segs n p1 p2 C Hn) as (s1 & segs1 & r & M1 & M2 & M3 & M4 & M5).
  apply (c_pool _ _ _ _ C) in Hi. destruct Hi as (b' & Hb' & Hsm & Hf & _). rewrite Hb in Hb'; injection Hb' as <-.
  destruct (roundSize_spec n Hn) as (R1 & R2 & R3). fold (rsz n) in *.
  assert (Hmin : forall z, n <= z -> 0 < z -> (512 | z) -> rsz n <= z).
  { intros z Hz Hz0 [w Hw]. unfold rsz, roundSize. rewrite u64_small by lia. unfold kMinBlockSize.
    destruct (Z.ltb_spec n 512); [lia|]. rewrite (u64_small (n + 512 - 1)) by lia.
    pose proof (Z.mul_div_le (n + 512 - 1) 512 ltac:(lia)).
    assert ((n + 512 - 1) / 512 <= w) by (apply Z.lt_succ_r; apply Z.div_lt_upper_bound; lia).
    rewrite u64_small; [lia|]. split; [|lia]. pose proof (Z.div_pos (n + 512 - 1) 512). lia. }
  assert (Hcl : getPool (rsz n) = (n <=? 1048576)).
  { unfold getPool, kSmallSize. destruct (Z.leb_spec n 1048576) as [L|L].
    - apply Z.leb_le. apply Hmin; try lia. exists 2048; reflexivity.
    - apply Z.leb_gt. lia. }
  destruct (core_block _ _ _ _ _ _ C Hb) as (_ & _ & _ & _ & _ & _ & G3 & G4 & _).
  assert (F : fits s n i b).
  { unfold fits. splits; auto; [congruence|]. apply Hmin; auto; lia. }
  destruct r as [k|]; [|exfalso; destruct M5 as (_ & N & _); eapply N; eauto].
  destruct M5 as (c & Hc & Hct & Hnc & _ & _ & _ & Hfit).
  destruct (Hfit i b F) as (Hreg & i' & b' & (F1 & F2 & F3 & F4) & Hp & Hs).
  unfold step, allocate. rewrite M1, Hc.
  exists (set_active s1 ((bptr c, k) :: erase_active (active s1) (bptr c))), (bptr c), (bsize b').
  splits; auto.
  - simpl. rewrite (c_held _ _ _ _ M2), (c_held _ _ _ _ C). auto.
  - exists i', b'. splits; auto. rewrite <- Hcl. apply (c_pool _ _ _ _ C). exists b'. splits; auto. discriminate.
  - lia.
  - lia.
Qed.

Lemma region_reused ops s es r n p1 p2 : Forall legal ops -> run init ops = Some (s, es) ->
  In r (held s) -> (forall p n, In (p, n) (live es) -> ~ covers r p) ->
  0 <= n <= snd r -> n < 9223372036854775808 -> same_class n (snd r) ->
  exists s' p, step s (Alloc n p1 p2) = Some (s', EAlloc n (Some p)) /\ held s' = held s.
Proof.
  intros Hl R Hr Hno Hn Hlt Hcl.
  assert (X : exists sm, cached s sm (fst r) (snd r) /\ cls sm (snd r) /\ snd r < 18446744073709551616).
  { destruct (region_coalesces _ _ _ _ Hl R Hr Hno) as (sm & Hc). exists sm. split; auto.
    destruct (reach_inv _ _ _ Hl R) as (segs & I). destruct I as [C And Act Lnd Liv Actl].
    destruct Hc as (i & b & Hi & Hb & P1 & P2). apply (c_pool _ _ _ _ C) in Hi.
    destruct Hi as (b' & Hb' & Hsm & _). rewrite Hb in Hb'; injection Hb' as <-.
    destruct (core_block _ _ _ _ _ _ C Hb) as (g & Hg & _ & Hok & G1 & G2 & G3 & _ & _ & G6).
    assert (Hrg : region g = r).
    { rewrite (c_held _ _ _ _ C) in Hr. apply in_map_iff in Hr. destruct Hr as (g' & <- & Hg').
      destruct (in_dec (fun x y : Z * Z => ltac:(decide equality; apply Z.eq_dec)) (region g) [region g']) as [H|H].
      - destruct H as [->|[]]; auto.
      - exfalso. assert (N : region g <> region g') by (intro X; apply H; left; auto).
        pose proof (pdisj_in _ (region g) (region g') (c_disj _ _ _ _ C)) as D.
        rewrite (c_held _ _ _ _ C) in D. specialize (D (in_map _ _ _ Hg) (in_map _ _ _ Hg') N).
        unfold disj, region in D. simpl in D. simpl in P1, P2.
        apply orb_true_iff in D. destruct D as [D|D]; apply Z.leb_le in D; lia. }
    pose proof (c_cls _ _ _ _ C g Hg) as Cl. destruct Hok as (_ & Hz & _).
    rewrite <- Hrg. simpl. rewrite <- Hsm, G6. split; auto. lia. }
  destruct X as (sm & Hc & Cl & Hz).
  assert (Hsm : sm = (n <=? 1048576)).
  { unfold same_class, cls in *. destruct sm; destruct (Z.leb_spec n 1048576); auto; lia. }
  rewrite Hsm in Hc.
  destruct (cache_hit ops s es n p1 p2 _ _ Hl R (conj (proj1 Hn) Hlt) Hc (proj2 Hn)) as (s' & p & z & S & Hh & _).
  eauto.
Qed.
