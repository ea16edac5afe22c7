(* Kernels whose threads neither wait nor share: what they leave is read off
   the loads and stores of each thread. *)
From Coq Require Import List Arith ZArith Bool Lia.
From Verif Require Import ShapeModel ShapeSpec ShapeProofs TensorModel TensorSpec TensorLemmas
  BcastModel GpuModel GpuSpec GpuProofs CudaModel CudaSpec GpuLemmas CudaProofs GpuOrder CudaFillModel.
Import ListNotations.

Section Items.
Context {V : Type}.

(* A thread that, run alone, gets to an access that has no defined effect. *)
Inductive fails : thr V -> (addr -> cell V) -> Prop :=
  | fails_trap : forall m, fails Trap m
  | fails_ld : forall a k m, (forall v, m a <> Some (Some v)) -> fails (Ld a k) m
  | fails_st : forall a v k m, m a = None -> fails (St a v k) m
  | fails_ld_next : forall a v k m, m a = Some (Some v) -> fails (k v) m -> fails (Ld a k) m
  | fails_st_next : forall a v k m, m a <> None -> fails k (upd m a (Some (Some v))) -> fails (St a v k) m.

Theorem fails_crash : forall (l : launch V) m b t, b < grid l -> t < bdim l -> fails (code l b t) m -> may_crash l m.
Proof.
  intros l m b t Hb Ht H.
  assert (G : forall p mm, fails p mm -> forall s, pr s b t = p -> mem s = mm -> exists s', reach l s s' /\ bad l s').
  { clear H. intros p mm H. induction H as [mm|a k mm N|a v k mm N|a v k mm E H IH|a v k mm E H IH]; intros s Ep Em.
    - exists s. split; [constructor|]. exists b, t. rewrite Ep. auto.
    - exists s. split; [constructor|]. exists b, t. rewrite Ep, Em. auto.
    - exists s. split; [constructor|]. exists b, t. rewrite Ep, Em. auto.
    - destruct (IH (mkState (mem s) (shm s) (updt (pr s) b t (k v)))) as (s' & R & B).
      + apply updt_same.
      + exact Em.
      + exists s'. split; [|exact B]. eapply reach_trans; [|exact R]. eapply reach_step; [constructor|].
        apply (step_ld l s b t a v k); auto. rewrite Em. exact E.
    - destruct (IH (mkState (upd (mem s) a (Some (Some v))) (shm s) (updt (pr s) b t k))) as (s' & R & B).
      + apply updt_same.
      + cbn [mem]. rewrite Em. reflexivity.
      + exists s'. split; [|exact B]. eapply reach_trans; [|exact R]. eapply reach_step; [constructor|].
        apply (step_st l s b t a v k); auto. rewrite Em. exact E. }
  apply (G _ _ H (start l m)); reflexivity.
Qed.

(* Items 0 to n-1: each has one location, base + i of out, and its value; every
   store is of an item, and every item is stored. *)
Theorem covers_at : forall (l : launch V) m out base n (f : Z -> V),
  accepted l ->
  (forall b t, b < grid l -> t < bdim l -> exists R W, plan (code l b t) m = Some (R, W) /\
     (forall a, In a R -> fst a = out -> ~ (base <= snd a < base + n)%Z) /\
     forall a v, In (a, v) W -> exists i, (0 <= i < n)%Z /\ a = (out, base + i)%Z /\ v = f i) ->
  (forall i, (0 <= i < n)%Z -> exists b t, b < grid l /\ t < bdim l /\
     forall R W, plan (code l b t) m = Some (R, W) -> In ((out, base + i)%Z, f i) W) ->
  always l m (fun m' =>
    (forall i, (0 <= i < n)%Z -> m' (out, base + i)%Z = Some (Some (f i))) /\
    (forall a, (forall i, (0 <= i < n)%Z -> a <> (out, base + i)%Z) -> m' a = m a)).
Proof.
  intros l m out base n f ACC HP HC.
  set (Rd := fun b t => match plan (code l b t) m with Some (R, _) => R | None => [] end).
  set (Wr := fun b t => match plan (code l b t) m with Some (_, W) => W | None => [] end).
  assert (E : forall b t, b < grid l -> t < bdim l -> plan (code l b t) m = Some (Rd b t, Wr b t)).
  { intros b t Hb Ht. destruct (HP b t Hb Ht) as (R & W & E & _). unfold Rd, Wr. rewrite E. reflexivity. }
  assert (HW : forall b t a v, b < grid l -> t < bdim l -> In (a, v) (Wr b t) ->
             exists i, (0 <= i < n)%Z /\ a = (out, base + i)%Z /\ v = f i).
  { intros b t a v Hb Ht Hin. destruct (HP b t Hb Ht) as (R & W & E' & _ & H). rewrite (E b t Hb Ht) in E'.
    injection E' as _ <-. apply H, Hin. }
  eapply always_mono.
  - apply (any_order l m Rd Wr ACC E).
    intros b t b' t' a v Hb Ht Hb' Ht' Ha Hin. destruct (HW b' t' a v Hb' Ht' Hin) as (i & Hi & -> & _).
    destruct (HP b t Hb Ht) as (R & W & E' & H & _). rewrite (E b t Hb Ht) in E'. injection E' as <- _.
    apply (H _ Ha); [reflexivity|cbn [snd]; lia].
  - intros m' Hm. cbv beta in Hm. split.
    + intros i Hi. destruct (Hm (out, base + i)%Z) as [(b & t & v & Hb & Ht & Hin & Em)|[N _]].
      * destruct (HW b t _ v Hb Ht Hin) as (j & Hj & e & ->). injection e as e.
        rewrite Em. replace j with i by lia. reflexivity.
      * exfalso. destruct (HC i Hi) as (b & t & Hb & Ht & H). apply (N b t (f i) Hb Ht).
        apply (H _ _ (E b t Hb Ht)).
    + intros a Ha. destruct (Hm a) as [(b & t & v & Hb & Ht & Hin & Em)|[_ Em]]; [|exact Em].
      destruct (HW b t _ v Hb Ht Hin) as (i & Hi & -> & _). exfalso. apply (Ha i Hi). reflexivity.
Qed.

(* Every store puts into out the element that belongs there, and every element
   of the result is stored. *)
Theorem covers : forall (l : launch V) m out sh F,
  accepted l -> room m out (numel sh) ->
  (forall b t, b < grid l -> t < bdim l -> exists R W, plan (code l b t) m = Some (R, W) /\
     (forall a, In a R -> fst a <> out) /\
     forall a v, In (a, v) W -> exists idx, valid sh idx /\ a = (out, Z.of_nat (ravel sh idx)) /\ v = F idx) ->
  (forall idx, valid sh idx -> exists b t, b < grid l /\ t < bdim l /\
     forall R W, plan (code l b t) m = Some (R, W) -> In ((out, Z.of_nat (ravel sh idx)), F idx) W) ->
  computes l m out sh F.
Proof.
  intros l m out sh F ACC ROOM HP HC. unfold computes. eapply always_mono.
  - apply (covers_at l m out 0 (Z.of_nat (numel sh)) (fun i => F (offsetToIndices sh (Z.to_nat i))) ACC).
    + intros b t Hb Ht. destruct (HP b t Hb Ht) as (R & W & E & H1 & H2). exists R, W. split; [exact E|]. split.
      * intros a Ha e. exfalso. apply (H1 a Ha e).
      * intros a v Hin. destruct (H2 a v Hin) as (idx & Hv & -> & ->). exists (Z.of_nat (ravel sh idx)).
        pose proof (ravel_lt sh idx Hv). split; [lia|]. rewrite Nat2Z.id, o2i_ravel by exact Hv. auto.
    + intros i Hi. assert (Hv : valid sh (offsetToIndices sh (Z.to_nat i))) by (apply o2i_valid; lia).
      destruct (HC _ Hv) as (b & t & Hb & Ht & H). exists b, t. split; [exact Hb|]. split; [exact Ht|].
      intros R W E. specialize (H R W E). rewrite ravel_o2i in H by lia. rewrite Z2Nat.id in H by lia. exact H.
  - intros m' [H1 H2]. cbv beta in *. cbn [Z.add] in H1, H2.
    destruct (filled m m' out (numel sh) (fun i => F (offsetToIndices sh i)) ROOM) as [A B].
    + intros i Hi. apply H1, Hi.
    + intros a Ha. apply H2. intros i Hi. apply Ha, Hi.
    + split; [|exact B]. unfold has. rewrite <- (map_seq_indices sh F). exact A.
Qed.

Open Scope Z_scope.

Lemma is1d_accepted : forall (l : launch V) n P, is1d l n P -> 0 < n <= 2 ^ 32 -> accepted l.
Proof.
  intros l n P (K1 & K2 & K3 & K4) Hn. destruct (grid_ok n Hn) as [E B]. split; [|split]; rewrite ?K1, ?K2.
  - lia.
  - rewrite E. rewrite Z2Nat.id by lia. change (2 ^ 31 - 1) with (255 * 2 ^ 23 + (2 ^ 23 - 1)). lia.
  - unfold blockSize. lia.
Qed.

(* the thread of item i *)
Lemma item_thread : forall (l : launch V) n P i, is1d l n P -> 0 < n <= 2 ^ 32 -> 0 <= i < n ->
  exists b t, (b < grid l)%nat /\ (t < bdim l)%nat /\ gidx blockSize b t = i /\ code l b t = P i.
Proof.
  intros l n P i (K1 & K2 & K3 & K4) Hn Hi. destruct (grid_ok n Hn) as [E B].
  assert (Hb : (Z.to_nat (i / 512) < grid l)%nat).
  { rewrite K1, E. assert (i / 512 < (n + 511) / 512); [|pose proof (Z.div_pos i 512); lia].
    replace (n + 511) with (n - 1 + 1 * 512) by lia. rewrite Z.div_add by lia.
    assert (i / 512 <= (n - 1) / 512) by (apply Z.div_le_mono; lia). lia. }
  assert (Ht : (Z.to_nat (i mod 512) < blockSize)%nat).
  { pose proof (Z.mod_pos_bound i 512). assert (Z.of_nat blockSize = 512) by reflexivity. lia. }
  assert (Ei : gidx blockSize (Z.to_nat (i / 512)) (Z.to_nat (i mod 512)) = i).
  { rewrite K1 in Hb. rewrite (gidx_ok n) by assumption. pose proof (Z.mod_pos_bound i 512). pose proof (Z.div_pos i 512).
    rewrite !Z2Nat.id by lia. pose proof (Z.div_mod i 512). lia. }
  exists (Z.to_nat (i / 512)), (Z.to_nat (i mod 512)). rewrite K2, K4, Ei.
  destruct (Z.ltb_spec i n); [auto|lia].
Qed.

Lemma item_code : forall (l : launch V) n P b t, is1d l n P -> 
  code l b t = Done \/ exists i, 0 <= i < n /\ gidx blockSize b t = i /\ code l b t = P i.
Proof.
  intros l n P b t (K1 & K2 & K3 & K4). rewrite K4. destruct (Z.ltb_spec (gidx blockSize b t) n); auto.
  right. exists (gidx blockSize b t). split; [|auto]. split; [|assumption]. apply Z.mod_pos_bound. lia.
Qed.

(* One thread per element, with any loads before its store. *)
Theorem gathers_at : forall (l : launch V) m out sh F P,
  is1d l (Z.of_nat (numel sh)) P -> 0 < Z.of_nat (numel sh) <= 2 ^ 32 -> room m out (numel sh) ->
  (forall idx, valid sh idx -> exists R,
     plan (P (Z.of_nat (ravel sh idx))) m = Some (R, [((out, Z.of_nat (ravel sh idx)), F idx)]) /\
     forall a, In a R -> fst a <> out) ->
  computes l m out sh F.
Proof.
  intros l m out sh F P K Hn ROOM HP. apply covers; auto.
  - eapply is1d_accepted; eauto.
  - intros b t Hb Ht. destruct (item_code l _ P b t K) as [->|(i & Hi & _ & ->)].
    + exists [], []. split; [reflexivity|]. split; intros ? *; intros [].
    + destruct (HP (offsetToIndices sh (Z.to_nat i))) as (R & E & H); [apply o2i_valid; lia|].
      rewrite ravel_o2i in E by lia. rewrite Z2Nat.id in E by lia. exists R. eexists. split; [exact E|].
      split; [exact H|]. intros a v [e|[]]. injection e as <- <-.
      exists (offsetToIndices sh (Z.to_nat i)). split; [apply o2i_valid; lia|].
      rewrite ravel_o2i by lia. rewrite Z2Nat.id by lia. auto.
  - intros idx Hv. pose proof (ravel_lt sh idx Hv) as Hi.
    destruct (item_thread l _ P (Z.of_nat (ravel sh idx)) K Hn) as (b & t & Hb & Ht & _ & E); [lia|].
    exists b, t. split; [exact Hb|]. split; [exact Ht|]. intros R W EP. rewrite E in EP.
    destruct (HP idx Hv) as (R' & EP' & _). rewrite EP' in EP. injection EP as _ <-. left. reflexivity.
Qed.

(* Every location ends up with one of the values stored to it. *)
Theorem scatters : forall (l : launch V) m n P (R : Z -> list addr) (W : Z -> list (addr * V)),
  is1d l n P -> 0 < n <= 2 ^ 32 ->
  (forall i, 0 <= i < n -> plan (P i) m = Some (R i, W i)) ->
  (forall i j a v, 0 <= i < n -> 0 <= j < n -> In a (R i) -> ~ In (a, v) (W j)) ->
  always l m (fun m' => forall a,
    (exists i v, 0 <= i < n /\ In (a, v) (W i) /\ m' a = Some (Some v)) \/
    ((forall i v, 0 <= i < n -> ~ In (a, v) (W i)) /\ m' a = m a)) /\
  (forall i, 0 <= i < n -> NoDup (map fst (W i)) ->
     sometimes l m (fun m' => forall a v, In (a, v) (W i) -> m' a = Some (Some v))).
Proof.
  intros l m n P R W K Hn HP HA.
  assert (ACC : accepted l) by (eapply is1d_accepted; eauto).
  set (Rd := fun b t => if gidx blockSize b t <? n then R (gidx blockSize b t) else []).
  set (Wr := fun b t => if gidx blockSize b t <? n then W (gidx blockSize b t) else []).
  assert (G0 : forall b t, 0 <= gidx blockSize b t) by (intros; apply Z.mod_pos_bound; lia).
  assert (E : forall b t, (b < grid l)%nat -> (t < bdim l)%nat -> plan (code l b t) m = Some (Rd b t, Wr b t)).
  { intros b t Hb Ht. destruct K as (K1 & K2 & K3 & K4). rewrite K4. unfold Rd, Wr.
    destruct (Z.ltb_spec (gidx blockSize b t) n); [apply HP; auto|reflexivity]. }
  assert (A : forall b t b' t' a v, (b < grid l)%nat -> (t < bdim l)%nat -> (b' < grid l)%nat -> (t' < bdim l)%nat ->
            In a (Rd b t) -> ~ In (a, v) (Wr b' t')).
  { intros b t b' t' a v _ _ _ _. unfold Rd, Wr. destruct (Z.ltb_spec (gidx blockSize b t) n); [|intros []].
    destruct (Z.ltb_spec (gidx blockSize b' t') n); [|intros _ []]. apply HA; auto. }
  split.
  - eapply always_mono; [apply (any_order l m Rd Wr ACC E A)|].
    intros m' Hm a. cbv beta in Hm. destruct (Hm a) as [(b & t & v & Hb & Ht & Hin & Em)|[N Em]].
    + left. unfold Wr in Hin. destruct (Z.ltb_spec (gidx blockSize b t) n); [|destruct Hin].
      exists (gidx blockSize b t), v. auto.
    + right. split; [|exact Em]. intros i v Hi Hin.
      destruct (item_thread l n P i K Hn Hi) as (b & t & Hb & Ht & Eg & _).
      apply (N b t v Hb Ht). unfold Wr. rewrite Eg. destruct (Z.ltb_spec i n); [exact Hin|lia].
  - intros i Hi N. destruct (item_thread l n P i K Hn Hi) as (b & t & Hb & Ht & Eg & _).
    assert (EW : Wr b t = W i) by (unfold Wr; rewrite Eg; destruct (Z.ltb_spec i n); [reflexivity|lia]).
    pose proof (last_thread l m Rd Wr E A b t Hb Ht) as L. rewrite EW in L. apply L, N.
Qed.

(* ---- four items per thread ---- *)

Lemma grid4_ok : forall n, 0 < n <= 2 ^ 32 ->
  gridSize (Z.of_nat blockSize) n 4 = (n + 2047) / 2048 /\ 0 < (n + 2047) / 2048 <= 2 ^ 21.
Proof.
  intros n Hn. change (Z.of_nat blockSize) with 512. unfold gridSize.
  assert (B : 0 < (n + 2047) / 2048 <= 2 ^ 21).
  { split.
    - apply Z.div_str_pos. lia.
    - apply Z.lt_succ_r. apply Z.div_lt_upper_bound; [lia|]. change (2 ^ 32) with (2048 * 2 ^ 21) in Hn. lia. }
  split; [|exact B].
  replace (n + 512 * 4 - 1) with (n + 2047) by lia. replace (512 * 4) with 2048 by lia.
  rewrite (Z.mod_small (n + 2047)) by (change (2 ^ 64) with (2 ^ 32 * 2 ^ 32); lia).
  apply Z.mod_small. change (2 ^ 32) with (2048 * 2 ^ 21). lia.
Qed.

Lemma index4_ok : forall n b t, 0 < n <= 2 ^ 32 -> (b < Z.to_nat (gridSize (Z.of_nat blockSize) n 4))%nat ->
  (t < blockSize)%nat -> (gidx blockSize b t * 4) mod 2 ^ 32 = (Z.of_nat b * 512 + Z.of_nat t) * 4 /\
  (Z.of_nat b * 512 + Z.of_nat t) * 4 + 3 < 2 ^ 32.
Proof.
  intros n b t Hn Hb Ht. destruct (grid4_ok n Hn) as [E B]. rewrite E in Hb.
  unfold gidx. change (Z.of_nat blockSize) with 512.
  assert (Ht' : Z.of_nat t < 512) by (change 512 with (Z.of_nat blockSize); lia).
  assert ((Z.of_nat b * 512 + Z.of_nat t) * 4 + 3 < 2 ^ 32) by (change (2 ^ 32) with (2048 * 2 ^ 21); lia).
  rewrite (Z.mod_small (Z.of_nat b * 512 + Z.of_nat t)) by lia. rewrite Z.mod_small by lia. auto.
Qed.

Lemma kernel4_accepted : forall n (P : Z -> thr V), 0 < n <= 2 ^ 32 -> accepted (kernel4 n P).
Proof.
  intros n P Hn. destruct (grid4_ok n Hn) as [E B]. split; [|split]; cbn [grid bdim kernel4].
  - lia.
  - rewrite E. rewrite Z2Nat.id by lia. change (2 ^ 31 - 1) with (1023 * 2 ^ 21 + (2 ^ 21 - 1)). lia.
  - unfold blockSize. lia.
Qed.

(* the items of a thread *)
Definition mine (index n : Z) : list Z := filter (fun k => index + k <? n) [0; 1; 2; 3].

Lemma each4_plan : forall index n put m (R : Z -> list addr) (w : Z -> addr * V),
  0 <= index -> index + 3 < 2 ^ 32 ->
  (forall k r R' W', 0 <= k < 4 -> index + k < n -> plan r m = Some (R', W') ->
     plan (put k (index + k) r) m = Some (R k ++ R', w k :: W')) ->
  plan (each4 index n put) m = Some (flat_map R (mine index n), map w (mine index n)).
Proof.
  intros index n put m R w Hi Hs HP. unfold each4, mine.
  rewrite !Z.mod_small by lia. cbn [filter].
  assert (D : plan (Done : thr V) m = Some ([], [])) by reflexivity.
  destruct (Z.ltb_spec (index + 3) n), (Z.ltb_spec (index + 0) n), (Z.ltb_spec (index + 1) n), (Z.ltb_spec (index + 2) n);
    try lia; cbn [flat_map map]; repeat (apply HP; [lia|lia|]); exact D.
Qed.

Lemma in_mine : forall index n k, In k (mine index n) <-> 0 <= k < 4 /\ index + k < n.
Proof.
  intros index n k. unfold mine. rewrite filter_In. cbn [In]. destruct (Z.ltb_spec (index + k) n); split; intros H'; intuition (try lia; try discriminate).
Qed.

(* Four elements per thread. *)
Theorem fours_at : forall (l : launch V) m out base n f (P : Z -> thr V),
  l = kernel4 n P -> 0 < n <= 2 ^ 32 ->
  (forall index, 0 <= index -> index + 3 < 2 ^ 32 -> index mod 4 = 0 -> exists R,
     plan (P index) m = Some (R, map (fun k => ((out, base + (index + k)), f (index + k))) (mine index n)) /\
     forall a, In a R -> fst a = out -> ~ (base <= snd a < base + n)) ->
  always l m (fun m' =>
    (forall i, (0 <= i < n)%Z -> m' (out, base + i)%Z = Some (Some (f i))) /\
    (forall a, (forall i, (0 <= i < n)%Z -> a <> (out, base + i)%Z) -> m' a = m a)).
Proof.
  intros l m out base n f P -> Hn HP. apply covers_at.
  - apply kernel4_accepted, Hn.
  - intros b t Hb Ht. cbn [grid bdim code kernel4] in *. destruct (index4_ok _ b t Hn Hb Ht) as [Ei Hl]. rewrite Ei.
    destruct (HP ((Z.of_nat b * 512 + Z.of_nat t) * 4)) as (R & E & HR); [lia|lia|apply Z.mod_mul; lia|].
    exists R. eexists. split; [exact E|]. split; [exact HR|].
    intros a v Hin. apply in_map_iff in Hin as (k & e & Hk). injection e as <- <-. apply in_mine in Hk.
    eexists. split; [|split; reflexivity]. lia.
  - intros i Hi. destruct (grid4_ok _ Hn) as [EG BG].
    assert (Hb : (Z.to_nat (i / 2048) < Z.to_nat (gridSize (Z.of_nat blockSize) n 4))%nat).
    { rewrite EG. assert (i / 2048 < (n + 2047) / 2048); [|pose proof (Z.div_pos i 2048); lia].
      replace (n + 2047) with (n - 1 + 1 * 2048) by lia. rewrite Z.div_add by lia.
      assert (i / 2048 <= (n - 1) / 2048) by (apply Z.div_le_mono; lia). lia. }
    pose proof (Z.mod_pos_bound i 2048 ltac:(lia)) as M1.
    assert (M2 : 0 <= i mod 2048 / 4 < 512) by (split; [apply Z.div_pos; lia|apply Z.div_lt_upper_bound; lia]).
    assert (Ht : (Z.to_nat (i mod 2048 / 4) < blockSize)%nat) by (assert (Z.of_nat blockSize = 512) by reflexivity; lia).
    exists (Z.to_nat (i / 2048)), (Z.to_nat (i mod 2048 / 4)). split; [exact Hb|]. split; [exact Ht|].
    intros R W E. cbn [code kernel4] in E. destruct (index4_ok _ _ _ Hn Hb Ht) as [Ei Hl]. rewrite Ei in E.
    pose proof (Z.div_pos i 2048 ltac:(lia) ltac:(lia)) as D0.
    rewrite !Z2Nat.id in E, Hl by lia.
    set (index := (i / 2048 * 512 + i mod 2048 / 4) * 4) in *.
    assert (Ek : i = index + i mod 4).
    { unfold index. pose proof (Z.div_mod i 2048). pose proof (Z.div_mod (i mod 2048) 4).
      replace (i mod 4) with (i mod 2048 mod 4); [lia|]. symmetry. change 2048 with (4 * 512). rewrite Z.rem_mul_r by lia.
      rewrite Z.mul_comm, Z.mod_add, Z.mod_mod by lia. reflexivity. }
    pose proof (Z.mod_pos_bound i 4 ltac:(lia)) as M4.
    destruct (HP index) as (R' & E' & _); [lia|exact Hl|unfold index; apply Z.mod_mul; lia|].
    rewrite E' in E. injection E as _ <-. apply in_map_iff. exists (i mod 4). split.
    + rewrite <- Ek. reflexivity.
    + apply in_mine. split; [exact M4|]. rewrite <- Ek. lia.
Qed.

Theorem fours : forall (l : launch V) m out sh F (P : Z -> thr V),
  l = kernel4 (Z.of_nat (numel sh)) P -> 0 < Z.of_nat (numel sh) <= 2 ^ 32 -> room m out (numel sh) ->
  (forall index, 0 <= index -> index + 3 < 2 ^ 32 -> index mod 4 = 0 -> exists R,
     plan (P index) m = Some (R, map (fun k => ((out, index + k), F (offsetToIndices sh (Z.to_nat (index + k)))))
                                  (mine index (Z.of_nat (numel sh)))) /\
     forall a, In a R -> fst a <> out) ->
  computes l m out sh F.
Proof.
  intros l m out sh F P E Hn ROOM HP. unfold computes. eapply always_mono.
  - apply (fours_at l m out 0 (Z.of_nat (numel sh)) (fun i => F (offsetToIndices sh (Z.to_nat i))) P E Hn).
    intros index H0 H3 H4. destruct (HP index H0 H3 H4) as (R & E' & HR). exists R. split; [exact E'|].
    intros a Ha e. exfalso. apply (HR a Ha e).
  - intros m' [H1 H2]. cbv beta in *. cbn [Z.add] in H1, H2.
    destruct (filled m m' out (numel sh) (fun i => F (offsetToIndices sh i)) ROOM) as [A B].
    + intros i Hi. apply H1, Hi.
    + intros a Ha. apply H2. intros i Hi. apply Ha, Hi.
    + split; [|exact B]. unfold has. rewrite <- (map_seq_indices sh F). exact A.
Qed.
End Items.
