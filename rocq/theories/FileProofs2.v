From Coq Require Import ZArith List Bool Arith Lia ZifyBool ZifyNat.
From Verif Require Import StoreModel StoreSpec StoreProofs FileModel FileSpec FileProofs.
Import ListNotations.
Open Scope Z_scope.

(** * One call at a time *)
Definition at_ (s : fsys) (p : nat) (d : disk) (t : pstate) : Prop := disk_ s = d /\ proc s p = t /\ forall q, q <> p -> proc s q = PReady.
Lemma at_go : forall s p d t d' t', at_ s p d t -> at_ (go s d' p t') p d' t'.
Proof. intros s p d t d' t' (H1 & H2 & H3). repeat split; cbn. - apply upd_same. - intros q N. rewrite upd_other; auto. Qed.
Definition busy (d : disk) (t : pstate) : Prop := match t with PReturn _ _ => False | PCalled (OGet k) => lookup (dir d) k <> None | _ => True end.
Lemma fc_step : forall s p d t n ns d' t', at_ s p d t -> busy d t -> (forall s0, disk_ s0 = d -> proc s0 p = t -> fstep s0 p n = Some (go s0 d' p t')) ->
  exists s', finishCall (n :: ns) s p = finishCall ns s' p /\ at_ s' p d' t'.
Proof.
  intros s p d t n ns d' t' HA HB HF. pose proof HA as (H1 & H2 & H3). exists (go s d' p t'). split; [|eapply at_go; eauto]. cbn [finishCall fact]. rewrite (HF s H1 H2). rewrite H2.
  destruct t as [|[]| | | | | | | | | |]; cbn in HB; try contradiction; auto. rewrite H1. destruct (lookup (dir d) k); [reflexivity|contradiction].
Qed.
Lemma fc_return : forall s p d o r n ns, at_ s p d (PReturn o r) -> exists s', finishCall (n :: ns) s p = Some (s', r) /\ at_ s' p d PReady.
Proof. intros s p d o r n ns HA. pose proof HA as (H1 & H2 & H3). exists (go s d p PReady). cbn [finishCall fact]. rewrite H2, H1. split; auto. eapply at_go; eauto. Qed.
Lemma fc_closing : forall s p d o i r ns, at_ s p d (PClosing o i r) -> (2 <= length ns)%nat -> exists s', finishCall ns s p = Some (s', r) /\ at_ s' p (closeFile d p i) PReady.
Proof.
  intros s p d o i r ns HA HL. destruct ns as [|n [|n2 ns]]; cbn in HL; try lia.
  destruct (fc_step s p d _ n (n2 :: ns) (closeFile d p i) (PReturn o r) HA I) as (s1 & -> & A1). { intros s0 E0 E1. unfold fstep. rewrite E1, E0. reflexivity. }
  destruct (fc_return s1 p _ o r n2 ns A1) as (s2 & -> & A2). eauto.
Qed.
(** Disks that agree. *)
Definition same_disk (d d' : disk) : Prop := dir d' = dir d /\ fresh d' = fresh d /\ (forall j, data d' j = data d j) /\ (forall j, lock d' j = lock d j).
Lemma fc_writing : forall rest ns s p d o i off r, at_ s p d (PWriting o i i off rest r) -> (length rest + 3 <= length ns)%nat -> length (data d i) = off -> lock d i = Some p \/ lock d i = None ->
  exists s' d', finishCall ns s p = Some (s', r) /\ at_ s' p d' PReady /\ dir d' = dir d /\ fresh d' = fresh d /\ data d' i = data d i ++ rest /\ (forall j, j <> i -> data d' j = data d j) /\
    lock d' i = None /\ (forall j, j <> i -> lock d' j = lock d j).
Proof.
  intros rest. remember (length rest) as L eqn:EL. revert rest EL. induction L as [L IH] using lt_wf_ind. intros rest EL ns s p d o i off r HA HL HD HK. destruct ns as [|n ns]; [cbn in HL; lia|]. destruct rest as [|b rest].
  - destruct (fc_step s p d _ n ns (closeFile d p i) (PClosing o i r) HA I) as (s1 & -> & A1). { intros s0 E0 E1. unfold fstep. rewrite E1, E0. reflexivity. }
    destruct (fc_closing s1 p _ o i r ns A1) as (s2 & -> & A2); [cbn in HL, EL; lia|]. eexists _, _. split; [reflexivity|]. split; [eassumption|].
    assert (E : exists f, closeFile d p i = mkDisk (dir d) (data d) f (fresh d) /\ f i = None /\ forall j, j <> i -> f j = lock d j).
    { unfold closeFile. destruct HK as [HK|HK]; rewrite HK.
      - rewrite Nat.eqb_refl. eexists. split; [reflexivity|]. split; [apply upd_same|]. intros j N. apply upd_other. auto.
      - exists (lock d). destruct d. auto. }
    destruct E as (f & E & Ef & Eg). rewrite E. assert (E2 : closeFile (mkDisk (dir d) (data d) f (fresh d)) p i = mkDisk (dir d) (data d) f (fresh d)) by (unfold closeFile; cbn [lock]; rewrite Ef; reflexivity).
    rewrite E2. cbn. rewrite app_nil_r. repeat split; auto.
  - set (rest0 := b :: rest) in *. set (n' := S n).
    destruct (fc_step s p d _ n ns (writeFile d i off (firstn n' rest0)) (PWriting o i i (off + length (firstn n' rest0)) (skipn n' rest0) r) HA I) as (s1 & -> & A1). { intros s0 E0 E1. unfold fstep. rewrite E1, E0. reflexivity. }
    assert (HW : data (writeFile d i off (firstn n' rest0)) i = data d i ++ firstn n' rest0) by (cbn; rewrite upd_same, <- HD, writeAt_end; reflexivity).
    assert (HL' : (length (skipn n' rest0) < L)%nat) by (rewrite skipn_length; subst L; unfold n', rest0; cbn [length]; lia).
    destruct (IH _ HL' (skipn n' rest0) eq_refl ns s1 p _ o i _ r A1) as (s' & d' & F & A' & B1 & B2 & B3 & B4 & B5 & B6); auto.
    + cbn in HL. lia.
    + rewrite HW, app_length, HD. reflexivity.
    + exists s', d'. split; auto. split; auto. cbn [dir fresh writeFile] in B1, B2. repeat split; auto.
      * rewrite B3, HW, <- app_assoc, firstn_skipn. reflexivity.
      * intros j N. rewrite B4 by auto. cbn. apply upd_other. auto.
Qed.

Lemma lookup_drop_same : forall d k, lookup (drop d k) k = None.
Proof. induction d as [|[k' i] d IH]; intros k; auto. unfold drop in *. cbn. destruct (key_eqb k k') eqn:E; cbn; auto. rewrite E. auto. Qed.
Lemma lookup_drop_other : forall d k k', k' <> k -> lookup (drop d k) k' = lookup d k'.
Proof.
  induction d as [|[k0 v] d IH]; intros k k' H; auto. unfold drop in *. cbn. destruct (key_eqb k k0) eqn:E; cbn.
  - apply key_eqb_eq in E. subst k0. rewrite (key_eqb_neq k' k) by auto. auto.
  - rewrite IH by auto. reflexivity.
Qed.
Lemma lookup_in : forall d k, lookup d k <> None <-> In k (map fst d).
Proof.
  induction d as [|[k0 v] d IH]; intros k; [cbn; tauto|]. cbn. destruct (key_eqb k k0) eqn:E.
  - apply key_eqb_eq in E. subst. split; auto. discriminate.
  - rewrite IH. split; auto. intros [->|H]; auto. rewrite key_eqb_refl in E. discriminate.
Qed.
Lemma drop_nodup : forall d k, NoDup (map fst d) -> NoDup (map fst (drop d k)).
Proof.
  induction d as [|[k0 v] d IH]; intros k H; auto. inversion H; subst. unfold drop in *. cbn. destruct (key_eqb k k0); cbn; auto. constructor; auto.
  intros HI. apply H2. clear - HI. induction d as [|[a b] d IH]; auto. cbn in *. destruct (key_eqb k a); cbn in *; auto. destruct HI; auto.
Qed.
(** The first two steps of set, add and delete, and of get. *)
Lemma fc_open : forall s p o k n n2 ns, quiet s -> (match o with OSet k' _ | OAdd k' _ | ODelete k' => k' = k | OGet k' => k' = k /\ lookup (dir (disk_ s)) k <> None | _ => False end) ->
  exists s1 d1 i, callAlone (n :: n2 :: ns) s p o = finishCall ns s1 p /\ at_ s1 p d1 (PLocked o i) /\ dok d1 /\ NoDup (map fst (dir d1)) /\ lookup (dir d1) k = Some i /\ lock d1 i = Some p /\ (forall j, j <> i -> lock d1 j = None) /\
    data d1 i = dflt (contents s k) /\ (forall k', k' <> k -> content d1 k' = contents s k') /\ (lookup (dir (disk_ s)) k = None -> forall k', k' <> k -> lookup (dir d1) k' = lookup (dir (disk_ s)) k') /\ (lookup (dir (disk_ s)) k <> None -> dir d1 = dir (disk_ s)).
Proof.
  intros s p o k n n2 ns [Q1 Q2 Q3 Q4] HO. unfold callAlone. cbn [fact]. rewrite Q1.
  assert (A0 : at_ (go s (disk_ s) p (PCalled o)) p (disk_ s) (PCalled o)) by (repeat split; cbn; [apply upd_same|intros q N; rewrite upd_other by auto; apply Q1]).
  destruct (openCreate (disk_ s) k) as [d1 i] eqn:EO. destruct (openCreate_spec _ _ _ _ Q3 EO) as (D1 & D2 & D3 & D4 & D5 & D6 & D7).
  destruct (fc_step _ p _ _ n (n2 :: ns) d1 (POpened o i) A0) as (s1 & -> & A1).
  { destruct o; cbn; auto. destruct HO as [-> HO]. auto. }
  { intros s0 E0 E1. unfold fstep. rewrite E1, E0. destruct o; try contradiction; try (subst k0; rewrite EO; reflexivity). destruct HO as [-> HO]. destruct (lookup (dir (disk_ s)) k); [|contradiction]. rewrite EO. reflexivity. }
  set (d2 := mkDisk (dir d1) (data d1) (upd (lock d1) i (Some p)) (fresh d1)).
  destruct (fc_step s1 p d1 _ n2 ns d2 (PLocked o i) A1 I) as (s2 & -> & A2).
  { intros s0 E0 E1. unfold fstep. rewrite E1, E0. unfold setLock. assert (EK : lock d1 i = None) by (rewrite D3; apply Q2). rewrite EK. reflexivity. }
  exists s2, d2, i. split; auto. split; auto. split; [|split; [|split; [|split; [|split; [|split; [|split; [|split]]]]]]].
  - destruct D1 as [F1 F2 F3]. constructor; cbn; auto. intros j q. unfold upd. destruct (Nat.eqb_spec j i); [subst; intros _; eauto|apply F3].
  - cbn. unfold openCreate in EO. destruct (lookup (dir (disk_ s)) k) eqn:EL; injection EO as <- <-; cbn; auto. constructor; auto. intros HI. apply lookup_in in HI. contradiction.
  - auto.
  - cbn. apply upd_same.
  - intros j N. cbn. rewrite upd_other, D3 by auto. apply Q2.
  - cbn. unfold contents, content. unfold openCreate in EO. destruct (lookup (dir (disk_ s)) k) eqn:EL; injection EO as <- <-; cbn; auto. apply upd_same.
  - intros k' N. unfold contents, content, d2. cbn [dir data]. unfold openCreate in EO. destruct (lookup (dir (disk_ s)) k) eqn:EL; injection EO as <- <-; auto. cbn [dir data]. rewrite lookup_cons_other by auto. destruct (lookup (dir (disk_ s)) k') as [j|] eqn:EJ; cbn; auto. f_equal. apply upd_other. apply (dk_fresh _ Q3) in EJ. lia.
  - intros EN k' N. cbn. unfold openCreate in EO. rewrite EN in EO. injection EO as <- <-. cbn [dir]. apply lookup_cons_other. auto.
  - intros EN. cbn. unfold openCreate in EO. destruct (lookup (dir (disk_ s)) k); [|contradiction]. injection EO as <- <-. reflexivity.
Qed.
Lemma quiet_end : forall s p d, at_ s p d PReady -> dok d -> NoDup (map fst (dir d)) -> (forall j, lock d j = None) -> quiet s.
Proof. intros s p d (H1 & H2 & H3) HD HN HL. subst d. constructor; auto. intros q. destruct (Nat.eq_dec q p) as [->|N]; auto. Qed.
Lemma dok_ext : forall d d', dok d -> dir d' = dir d -> fresh d' = fresh d -> (forall j q, lock d' j = Some q -> lock d j = Some q) -> dok d'.
Proof. intros d d' [D1 D2 D3] E1 E2 E3. constructor; rewrite ?E1, ?E2; auto. intros j q Hj. apply E3 in Hj. eauto. Qed.
(** Opening for writing and writing. *)
Lemma fc_write : forall s p d o k i t v r n ns, at_ s p d t -> busy d t -> (forall s0, disk_ s0 = d -> proc s0 p = t -> fstep s0 p n = let (d1, j) := openTrunc d k in Some (go s0 d1 p (PWriting o i j 0 v r))) ->
  dok d -> NoDup (map fst (dir d)) -> lookup (dir d) k = Some i -> (lock d i = Some p \/ lock d i = None) -> (forall j, j <> i -> lock d j = None) -> (length v + 3 <= length ns)%nat ->
  exists s', finishCall (n :: ns) s p = Some (s', r) /\ quiet s' /\ contents s' k = Some v /\ (forall k', k' <> k -> contents s' k' = content d k').
Proof.
  intros s p d o k i t v r n ns HA HB HF HD HN HL HK HK2 HLen. unfold openTrunc, openCreate in HF. rewrite HL in HF.
  destruct (fc_step s p d t n ns _ _ HA HB HF) as (s1 & -> & A1).
  destruct (fc_writing v ns s1 p _ o i O r A1) as (s2 & d2 & -> & A2 & B1 & B2 & B3 & B4 & B5 & B6); auto; [cbn; rewrite upd_same; reflexivity|]. cbn [dir fresh data lock] in *. rewrite upd_same in B3. cbn [app] in B3.
  exists s2. split; auto. split; [|split].
  - apply (quiet_end s2 p d2); auto.
    + apply (dok_ext d); auto. intros j q Hj. destruct (Nat.eq_dec j i) as [->|N]; [congruence|]. rewrite B6 in Hj by auto. auto.
    + rewrite B1. auto.
    + intros j. destruct (Nat.eq_dec j i) as [->|N]; auto. rewrite B6 by auto. auto.
  - unfold contents, content. destruct A2 as (-> & _). rewrite B1, HL. cbn. rewrite B3. reflexivity.
  - intros k' N. unfold contents, content. destruct A2 as (-> & _). rewrite B1. destruct (lookup (dir d) k') as [j|] eqn:EJ; cbn; auto. f_equal. assert (j <> i) by (intros ->; apply N; eapply dk_inj; eauto). rewrite B4 by auto. apply upd_other. auto.
Qed.
Ltac two ns HL := destruct ns as [|n [|n2 ns]]; [cbn in HL; lia|cbn in HL; lia|].
Lemma call_set : forall s p k v ns, quiet s -> (length v + 6 <= length ns)%nat ->
  exists s', callAlone ns s p (OSet k v) = Some (s', RDone) /\ quiet s' /\ seq_step (contents s) (OSet k v) RDone (contents s').
Proof.
  intros s p k v ns HQ HL. two ns HL. destruct (fc_open s p (OSet k v) k n n2 ns HQ eq_refl) as (s1 & d1 & i & -> & A1 & D & N & L & K & K2 & _ & C & _).
  destruct ns as [|n3 ns]; [cbn in HL; lia|]. destruct (fc_write s1 p d1 (OSet k v) k i _ v RDone n3 ns A1 I) as (s2 & -> & Q & E1 & E2); auto.
  - intros s0 E0 E1. unfold fstep. rewrite E1, E0. reflexivity.
  - cbn in HL. lia.
  - exists s2. split; auto. split; auto. cbn. repeat split; auto. intros k' N'. rewrite E2; auto.
Qed.
Definition amount (m : amap) (k : key) : option Z := match m k with None => Some 0 | Some v => readNumber63 v end.
Lemma closed_locks : forall d p i, lock d i = Some p -> (forall j, j <> i -> lock d j = None) -> forall j, lock (closeFile d p i) j = None.
Proof. intros d p i H H2 j. unfold closeFile. rewrite H, Nat.eqb_refl. cbn. unfold upd. destruct (Nat.eqb_spec j i); auto. Qed.
Lemma call_add : forall s p k a z ns, quiet s -> amount (contents s) k = Some z -> in64 (z + a) = true -> (length (to_string (z + a)) + 8 <= length ns)%nat ->
  exists s', callAlone ns s p (OAdd k a) = Some (s', RInt (z + a)) /\ quiet s' /\ contents s' k = Some (to_string (z + a)) /\ changed_only (contents s) (contents s') k.
Proof.
  intros s p k a z ns HQ HZ H64 HL. two ns HL. destruct (fc_open s p (OAdd k a) k n n2 ns HQ eq_refl) as (s1 & d1 & i & -> & A1 & D & N & L & K & K2 & DI & C & _).
  destruct ns as [|n3 [|n4 [|n5 ns]]]; try (cbn in HL; lia).
  destruct (fc_step s1 p d1 _ n3 (n4 :: n5 :: ns) d1 (PReading (OAdd k a) i i) A1 I) as (s2 & -> & A2). { intros s0 E0 E1. unfold fstep. rewrite E1, E0, L. reflexivity. }
  destruct (fc_step s2 p d1 _ n4 (n5 :: ns) (closeFile d1 p i) (PAdded (OAdd k a) i (z + a)) A2 I) as (s3 & -> & A3).
  { intros s0 E0 E1. unfold fstep. rewrite E1, E0. assert (E : readNumber63 (data d1 i) = Some z) by (rewrite DI; unfold amount in HZ; destruct (contents s k); cbn; [auto|injection HZ as <-; reflexivity]). rewrite E, H64. reflexivity. }
  destruct (closeFile_spec d1 p i) as (E1 & E2 & E3 & E4 & E5).
  destruct (fc_write s3 p (closeFile d1 p i) (OAdd k a) k i _ (to_string (z + a)) (RInt (z + a)) n5 ns A3 I) as (s4 & -> & Q & F1 & F2).
  - intros s0 G0 G1. unfold fstep. rewrite G1, G0. reflexivity.
  - apply dok_close. auto.
  - rewrite E1. auto.
  - rewrite E1. auto.
  - right. apply closed_locks; auto.
  - intros j _. apply closed_locks; auto.
  - cbn in HL. lia.
  - exists s4. split; auto. split; auto. split; auto. intros k' N'. rewrite F2 by auto. rewrite <- C by auto. unfold content. rewrite E1, E2. reflexivity.
Qed.
Lemma closeFile_unlocked : forall d p i, lock d i = None -> closeFile d p i = d. Proof. intros d p i H. unfold closeFile. rewrite H. reflexivity. Qed.
Lemma call_get : forall s p k v ns, quiet s -> contents s k = Some v -> (8 <= length ns)%nat ->
  exists s', callAlone ns s p (OGet k) = Some (s', RValue v) /\ quiet s' /\ unchanged (contents s) (contents s').
Proof.
  intros s p k v ns HQ HV HL. two ns HL. assert (EX : lookup (dir (disk_ s)) k <> None) by (unfold contents, content in HV; destruct (lookup (dir (disk_ s)) k); [discriminate|discriminate HV]).
  destruct (fc_open s p (OGet k) k n n2 ns HQ (conj eq_refl EX)) as (s1 & d1 & i & -> & A1 & D & N & L & K & K2 & DI & C & _).
  destruct ns as [|n3 [|n4 [|n5 [|n6 ns]]]]; try (cbn in HL; lia). rewrite HV in DI. cbn [dflt] in DI.
  destruct (fc_step s1 p d1 _ n3 (n4 :: n5 :: n6 :: ns) d1 (PReading (OGet k) i i) A1 I) as (s2 & -> & A2). { intros s0 E0 E1. unfold fstep. rewrite E1, E0, L. reflexivity. }
  destruct (fc_step s2 p d1 _ n4 (n5 :: n6 :: ns) d1 (PSized (OGet k) i i (length v)) A2 I) as (s3 & -> & A3). { intros s0 E0 E1. unfold fstep. rewrite E1, E0, DI. reflexivity. }
  destruct (fc_step s3 p d1 _ n5 (n6 :: ns) d1 (PRead (OGet k) i i v) A3 I) as (s4 & -> & A4). { intros s0 E0 E1. unfold fstep. rewrite E1, E0, DI. rewrite firstn_all, Nat.eqb_refl. reflexivity. }
  destruct (fc_step s4 p d1 _ n6 ns (closeFile d1 p i) (PClosing (OGet k) i (RValue v)) A4 I) as (s5 & -> & A5). { intros s0 E0 E1. unfold fstep. rewrite E1, E0. reflexivity. }
  destruct (fc_closing s5 p _ (OGet k) i (RValue v) ns A5) as (s6 & -> & A6). { cbn in HL. lia. }
  rewrite closeFile_unlocked in A6 by (apply closed_locks; auto). destruct (closeFile_spec d1 p i) as (E1 & E2 & E3 & E4 & E5).
  exists s6. split; auto. split.
  - apply (quiet_end s6 p _ A6); [apply dok_close; auto|rewrite E1; auto|apply closed_locks; auto].
  - intros k'. unfold contents at 1. destruct A6 as (-> & _). unfold content. rewrite E1, E2. fold (content d1 k'). destruct (list_eq_dec Z.eq_dec k' k) as [->|N']; [|apply C; auto]. rewrite HV. unfold content. rewrite L. cbn. rewrite DI. reflexivity.
Qed.
Lemma call_get_absent : forall s p k ns, quiet s -> contents s k = None -> (2 <= length ns)%nat ->
  exists s', callAlone ns s p (OGet k) = Some (s', RValue []) /\ quiet s' /\ unchanged (contents s) (contents s').
Proof.
  intros s p k ns [Q1 Q2 Q3 Q4] HV HL. two ns HL. unfold callAlone. cbn [fact]. rewrite Q1. assert (EX : lookup (dir (disk_ s)) k = None) by (unfold contents, content in HV; destruct (lookup (dir (disk_ s)) k); [discriminate HV|reflexivity]).
  cbn [finishCall fact go proc disk_]. rewrite upd_same, EX. cbn [go proc disk_]. rewrite upd_same. eexists. split; [reflexivity|]. split.
  - constructor; cbn; auto. intros q. unfold upd. destruct (q =? p)%nat; auto.
  - intros k'. reflexivity.
Qed.
Lemma call_delete : forall s p k ns, quiet s -> (5 <= length ns)%nat ->
  exists s', callAlone ns s p (ODelete k) = Some (s', RBool true) /\ quiet s' /\ contents s' k = None /\ changed_only (contents s) (contents s') k.
Proof.
  intros s p k ns HQ HL. two ns HL. destruct (fc_open s p (ODelete k) k n n2 ns HQ eq_refl) as (s1 & d1 & i & -> & A1 & D & N & L & K & K2 & DI & C & _).
  destruct ns as [|n3 ns]; [cbn in HL; lia|]. set (d2 := mkDisk (drop (dir d1) k) (data d1) (lock d1) (fresh d1)).
  destruct (fc_step s1 p d1 _ n3 ns d2 (PClosing (ODelete k) i (RBool true)) A1 I) as (s2 & -> & A2). { intros s0 E0 E1. unfold fstep. rewrite E1, E0. unfold unlink. rewrite L. reflexivity. }
  destruct (fc_closing s2 p _ (ODelete k) i (RBool true) ns A2) as (s3 & -> & A3). { cbn in HL. lia. }
  destruct (closeFile_spec d2 p i) as (E1 & E2 & E3 & E4 & E5). assert (DO : forall k' j, lookup (drop (dir d1) k) k' = Some j -> lookup (dir d1) k' = Some j).
  { intros k' j. destruct (list_eq_dec Z.eq_dec k' k) as [->|N']; [rewrite lookup_drop_same; discriminate|rewrite lookup_drop_other by auto; auto]. }
  exists s3. split; auto. split; [|split].
  - apply (quiet_end s3 p _ A3).
    + apply dok_close. destruct D as [D1 D2 D3]. constructor; cbn; auto; eauto.
    + rewrite E1. cbn. apply drop_nodup. auto.
    + apply closed_locks; auto.
  - unfold contents, content. destruct A3 as (-> & _). rewrite E1. cbn. rewrite lookup_drop_same. reflexivity.
  - intros k' N'. unfold contents at 1. destruct A3 as (-> & _). unfold content. rewrite E1, E2. cbn. rewrite lookup_drop_other by auto. apply C. auto.
Qed.
Lemma call_check : forall s p ks ns, quiet s -> (length ks + 3 <= length ns)%nat ->
  exists s' b, callAlone ns s p (OCheck ks) = Some (s', RBool b) /\ quiet s' /\ unchanged (contents s) (contents s') /\ (b = true <-> all_present (contents s) ks).
Proof.
  intros s p ks ns [Q1 Q2 Q3 Q4] HL. unfold callAlone. cbn [fact]. rewrite Q1. set (d := disk_ s). set (o := OCheck ks).
  assert (A0 : at_ (go s d p (PCalled o)) p d (PCalled o)) by (repeat split; cbn; [apply upd_same|intros q N; rewrite upd_other by auto; apply Q1]). destruct ns as [|n ns]; [cbn in HL; lia|].
  destruct (fc_step _ p d _ n ns d (PChecking o ks) A0 I) as (s1 & -> & A1). { intros s0 E0 E1. unfold fstep. rewrite E1, E0. reflexivity. }
  assert (G : forall l ns s1, at_ s1 p d (PChecking o l) -> (length l + 2 <= length ns)%nat -> exists s' b, finishCall ns s1 p = Some (s', RBool b) /\ at_ s' p d PReady /\ (b = true <-> all_present (content d) l)).
  { clear s1 A1 ns HL. induction l as [|k l IH]; intros ns s1 A1 HL.
    - destruct ns as [|m ns]; [cbn in HL; lia|]. destruct (fc_step s1 p d _ m ns d (PReturn o (RBool true)) A1 I) as (s2 & -> & A2). { intros s0 E0 E1. unfold fstep. rewrite E1, E0. reflexivity. }
      destruct ns as [|m2 ns]; [cbn in HL; lia|]. destruct (fc_return s2 p d o (RBool true) m2 ns A2) as (s3 & -> & A3). exists s3, true. split; [reflexivity|]. split; [auto|]. split; auto. intros _ x [].
    - destruct ns as [|m ns]; [cbn in HL; lia|]. destruct (lookup (dir d) k) as [i|] eqn:EL.
      + destruct (fc_step s1 p d _ m ns d (PChecking o l) A1 I) as (s2 & -> & A2). { intros s0 E0 E1. unfold fstep. rewrite E1, E0, EL. reflexivity. }
        destruct (IH ns s2 A2) as (s3 & b & F & A3 & E); [cbn in HL; lia|]. exists s3, b. split; [auto|]. split; [auto|]. split.
        * intros Hb x [<-|Hx]; [unfold content; rewrite EL; discriminate|apply E; auto].
        * intros Hx. apply E. intros x Hi. apply Hx. right. auto.
      + destruct (fc_step s1 p d _ m ns d (PReturn o (RBool false)) A1 I) as (s2 & -> & A2). { intros s0 E0 E1. unfold fstep. rewrite E1, E0, EL. reflexivity. }
        destruct ns as [|m2 ns]; [cbn in HL; lia|]. destruct (fc_return s2 p d o (RBool false) m2 ns A2) as (s3 & -> & A3). exists s3, false. split; [auto|]. split; [auto|]. split; [discriminate|]. intros Hx. exfalso. apply (Hx k); [left; auto|]. unfold content. rewrite EL. reflexivity. }
  destruct (G ks ns s1 A1) as (s2 & b & F & A2 & E); [cbn in HL; lia|]. exists s2, b. split; [auto|]. split; [|split; [|exact E]].
  - apply (quiet_end s2 p d A2); auto.
  - intros k. unfold contents. destruct A2 as (-> & _). reflexivity.
Qed.
Lemma call_num : forall s p ns, quiet s -> (2 <= length ns)%nat ->
  exists s' l, callAlone ns s p ONumKeys = Some (s', RInt (Z.of_nat (length l))) /\ quiet s' /\ unchanged (contents s) (contents s') /\ NoDup l /\ (forall k, In k l <-> contents s k <> None).
Proof.
  intros s p ns [Q1 Q2 Q3 Q4] HL. two ns HL. unfold callAlone. cbn [fact]. rewrite Q1.
  assert (A0 : at_ (go s (disk_ s) p (PCalled ONumKeys)) p (disk_ s) (PCalled ONumKeys)) by (repeat split; cbn; [apply upd_same|intros q N; rewrite upd_other by auto; apply Q1]).
  destruct (fc_step _ p _ _ n (n2 :: ns) (disk_ s) (PReturn ONumKeys (RInt (Z.of_nat (length (dir (disk_ s)))))) A0 I) as (s1 & -> & A1). { intros s0 E0 E1. unfold fstep. rewrite E1, E0. reflexivity. }
  destruct (fc_return s1 p _ ONumKeys _ n2 ns A1) as (s2 & -> & A2). exists s2, (map fst (dir (disk_ s))). rewrite map_length. split; [reflexivity|]. split; [|split; [|split; auto]].
  - apply (quiet_end s2 p _ A2); auto.
  - intros k. unfold contents. destruct A2 as (-> & _). reflexivity.
  - intros k. rewrite <- lookup_in. unfold contents, content. destruct (lookup (dir (disk_ s)) k); cbn; split; intros H; try discriminate; try contradiction; auto.
Qed.
