From Coq Require Import ZArith List Bool Arith Lia ZifyBool ZifyNat.
From Verif Require Import StoreModel StoreSpec StoreProofs FileModel FileSpec.
Import ListNotations.
Open Scope Z_scope.

Lemma upd_same : forall A (f : nat -> A) i x, upd f i x i = x. Proof. intros. unfold upd. rewrite Nat.eqb_refl. reflexivity. Qed.
Lemma upd_other : forall A (f : nat -> A) i x j, j <> i -> upd f i x j = f j. Proof. intros. unfold upd. destruct (Nat.eqb_spec j i); auto. contradiction. Qed.
Lemma lookup_cons_same : forall d k i, lookup ((k, i) :: d) k = Some i. Proof. intros. cbn. rewrite key_eqb_refl. reflexivity. Qed.
Lemma lookup_cons_other : forall d k i k', k' <> k -> lookup ((k, i) :: d) k' = lookup d k'. Proof. intros. cbn. rewrite key_eqb_neq by auto. reflexivity. Qed.

Definition setget (o : op) : option key := match o with OSet k _ | OGet k => Some k | _ => None end.
Definition pok (d : disk) (p : nat) (t : pstate) : Prop :=
  match t with
  | PReady => True
  | PCalled o => exists k, setget o = Some k
  | PChecking _ _ => False
  | POpened o i => exists k, setget o = Some k /\ lookup (dir d) k = Some i
  | PLocked o i => exists k, setget o = Some k /\ lookup (dir d) k = Some i /\ lock d i = Some p
  | PWriting o i j off rest r => exists k v, o = OSet k v /\ r = RDone /\ j = i /\ lookup (dir d) k = Some i /\ lock d i = Some p /\ (off <= length v)%nat /\ rest = skipn off v /\ data d i = firstn off v
  | PReading o i j => exists k, o = OGet k /\ j = i /\ lookup (dir d) k = Some i /\ lock d i = Some p
  | PSized o i j sz => exists k, o = OGet k /\ j = i /\ lookup (dir d) k = Some i /\ lock d i = Some p /\ sz = length (data d i)
  | PRead o i j v => exists k, o = OGet k /\ j = i /\ lookup (dir d) k = Some i /\ lock d i = Some p
  | PAdded _ _ _ => False
  | PClosing _ _ _ | PReturn _ _ => True
  end.
Lemma pok_frame : forall d d' p t, (forall k i, lookup (dir d) k = Some i -> lookup (dir d') k = Some i) ->
  (forall i, lock d i = Some p -> lock d' i = Some p /\ data d' i = data d i) -> pok d p t -> pok d' p t.
Proof.
  intros d d' p t HL HK. destruct t; cbn; auto.
  - intros (k & H1 & H2). eauto.
  - intros (k & H1 & H2 & H3). destruct (HK _ H3). eauto.
  - intros (k & v & H1 & H2 & -> & H4 & H5 & H6 & H7 & H8). destruct (HK _ H5) as [A B]. exists k, v. rewrite B. repeat split; auto.
  - intros (k & H1 & -> & H3 & H4). destruct (HK _ H4). exists k. auto.
  - intros (k & H1 & -> & H3 & H4 & H5). destruct (HK _ H4) as [A B]. exists k. rewrite B. auto.
  - intros (k & H1 & -> & H3 & H4). destruct (HK _ H4). exists k. auto.
Qed.
Definition fphase (t : pstate) : phase :=
  match t with
  | PReady => PIdle
  | PCalled o | PChecking o _ | POpened o _ | PLocked o _ | PWriting o _ _ _ _ _ | PReading o _ _ | PSized o _ _ _ | PAdded o _ _ => PInv o
  | PRead o _ _ v => PLin o (RValue v)
  | PClosing o _ r | PReturn o r => PLin o r
  end.
Definition writes (t : pstate) (i : nat) : Prop := match t with PWriting _ _ j _ _ _ => j = i | _ => False end.
Definition dflt (x : option value) : list byte := match x with Some v => v | None => [] end.
Record flin (s : fsys) (l : list xevent) (m : amap) : Prop := {
  fl_disk : dok (disk_ s);
  fl_proc : forall p, pok (disk_ s) p (proc s p);
  fl_data : forall k i, lookup (dir (disk_ s)) k = Some i -> (forall p, ~ writes (proc s p) i) -> data (disk_ s) i = dflt (m k);
  fl_absent : forall k, lookup (dir (disk_ s)) k = None -> m k = None;
  fl_phase : forall p, phases p l (fphase (proc s p));
  fl_seq : file_run (fun _ => None) (points l) m
}.
(** The process steps without a point. *)
Lemma flin_silent : forall s l m p t d, flin s l m -> fphase t = fphase (proc s p) -> dok d -> pok d p t ->
  (forall k i, lookup (dir (disk_ s)) k = Some i -> lookup (dir d) k = Some i) ->
  (forall q i, q <> p -> lock (disk_ s) i = Some q -> lock d i = Some q /\ data d i = data (disk_ s) i) ->
  (forall k i, lookup (dir d) k = Some i -> (forall q, ~ writes (upd (proc s) p t q) i) -> data d i = dflt (m k)) ->
  flin (go s d p t) l m.
Proof.
  intros s l m p t d [H1 H2 H3 H4 H5 H6] HT HD HP HL HK HDt. constructor; cbn [go disk_ proc]; auto.
  - intros q. destruct (Nat.eq_dec q p) as [->|N]; [rewrite upd_same; auto|rewrite upd_other by auto]. apply (pok_frame (disk_ s)); auto.
  - intros k Hk. apply H4. destruct (lookup (dir (disk_ s)) k) as [i|] eqn:E; auto. apply HL in E. congruence.
  - intros q. destruct (Nat.eq_dec q p) as [->|N]; [rewrite upd_same, HT; auto|rewrite upd_other by auto; auto].
Qed.
(** The process reaches its point. *)
Lemma flin_point : forall s l m p t d o r m', flin s l m -> fphase (proc s p) = PInv o -> fphase t = PLin o r -> dok d -> pok d p t ->
  (forall k i, lookup (dir (disk_ s)) k = Some i -> lookup (dir d) k = Some i) ->
  (forall q i, q <> p -> lock (disk_ s) i = Some q -> lock d i = Some q /\ data d i = data (disk_ s) i) ->
  (forall k i, lookup (dir d) k = Some i -> (forall q, ~ writes (upd (proc s) p t q) i) -> data d i = dflt (m' k)) ->
  (forall k, lookup (dir d) k = None -> m' k = None) -> file_step m o r m' -> flin (go s d p t) (l ++ [XLin p o r]) m'.
Proof.
  intros s l m p t d o r m' [H1 H2 H3 H4 H5 H6] HI HT HD HP HL HK HDt HA HS. constructor; cbn [go disk_ proc]; auto.
  - intros q. destruct (Nat.eq_dec q p) as [->|N]; [rewrite upd_same; auto|rewrite upd_other by auto]. apply (pok_frame (disk_ s)); auto.
  - intros q. destruct (Nat.eq_dec q p) as [->|N]; [rewrite upd_same, HT|rewrite upd_other by auto].
    + eapply ph_snoc; [apply H5|]. rewrite HI. constructor.
    + eapply ph_snoc; [apply H5|]. constructor. auto.
  - rewrite points_app. cbn. eapply file_snoc; eauto.
Qed.

Lemma openCreate_spec : forall d k d' i, dok d -> openCreate d k = (d', i) ->
  dok d' /\ lookup (dir d') k = Some i /\ lock d' = lock d /\ (forall k' j, lookup (dir d) k' = Some j -> lookup (dir d') k' = Some j) /\
  (forall j, (j < fresh d)%nat -> data d' j = data d j) /\
  (forall k' j, lookup (dir d') k' = Some j -> lookup (dir d) k' = Some j \/ (lookup (dir d) k' = None /\ k' = k /\ j = fresh d /\ data d' j = [])) /\ (fresh d <= fresh d')%nat.
Proof.
  intros d k d' i [D1 D2 D3] H. unfold openCreate in H. destruct (lookup (dir d) k) as [j|] eqn:E; injection H as <- <-.
  - repeat split; auto. 
  - assert (HN : forall k' j, lookup ((k, fresh d) :: dir d) k' = Some j -> lookup (dir d) k' = Some j \/ (lookup (dir d) k' = None /\ k' = k /\ j = fresh d)).
    { intros k' j H. destruct (list_eq_dec Z.eq_dec k' k) as [->|N]; [rewrite lookup_cons_same in H; injection H as <-; auto|rewrite lookup_cons_other in H by auto; auto]. }
    split; [|split; [apply lookup_cons_same|split; [reflexivity|split; [|split; [|split; [|cbn; lia]]]]]].
    + constructor; cbn [dir fresh lock].
      * intros k' j Hj. apply HN in Hj. destruct Hj as [Hj|(_ & _ & ->)]; [apply D1 in Hj; lia|lia].
      * intros k1 k2 j A B. apply HN in A. apply HN in B. destruct A as [A|(A0 & EA & FA)]; destruct B as [B|(B0 & EB & FB)]; [eauto|apply D1 in A; lia|apply D1 in B; lia|congruence].
      * intros j q Hj. apply D3 in Hj. lia.
    + intros k' j Hj. cbn [dir]. rewrite lookup_cons_other; auto. intros ->. congruence.
    + intros j Hj. cbn [data]. apply upd_other. lia.
    + intros k' j Hj. cbn [dir data] in *. apply HN in Hj. destruct Hj as [Hj|(A & B & C)]; auto. right. subst. repeat split; auto. apply upd_same.
Qed.
Lemma setLock_spec : forall d p i d', setLock d p i = Some d' -> (lock d i = None \/ lock d i = Some p) /\ lock d' i = Some p /\ (forall j, j <> i -> lock d' j = lock d j) /\ dir d' = dir d /\ data d' = data d /\ fresh d' = fresh d.
Proof.
  intros d p i d' H. unfold setLock in H. destruct (lock d i) as [q|] eqn:E.
  - destruct (Nat.eqb_spec q p); [|discriminate]. injection H as <-. subst. auto 10.
  - injection H as <-. cbn. rewrite upd_same. repeat split; auto. intros. apply upd_other. auto.
Qed.
Lemma closeFile_spec : forall d p i, dir (closeFile d p i) = dir d /\ data (closeFile d p i) = data d /\ fresh (closeFile d p i) = fresh d /\
  (forall j q, q <> p -> lock d j = Some q -> lock (closeFile d p i) j = Some q) /\ (forall j q, lock (closeFile d p i) j = Some q -> lock d j = Some q).
Proof.
  intros d p i. unfold closeFile. destruct (lock d i) as [q|] eqn:E; [|auto 10]. destruct (Nat.eqb_spec q p); [|auto 10]. subst q. cbn. repeat split; auto.
  - intros j q N Hj. rewrite upd_other; auto. intros ->. congruence.
  - intros j q. unfold upd. destruct (Nat.eqb_spec j i); [discriminate|auto].
Qed.
Lemma dok_close : forall d p i, dok d -> dok (closeFile d p i).
Proof.
  intros d p i [D1 D2 D3]. destruct (closeFile_spec d p i) as (E1 & E2 & E3 & E4 & E5). constructor.
  - rewrite E1, E3. auto.
  - rewrite E1. auto.
  - intros j q Hj. rewrite E3. apply E5 in Hj. eauto.
Qed.
Lemma writeAt_end : forall l b, writeAt l (length l) b = l ++ b.
Proof. intros l b. unfold writeAt. rewrite firstn_all, Nat.sub_diag. cbn [repeat app]. rewrite skipn_all2 by lia. rewrite app_nil_r. reflexivity. Qed.
Lemma firstn_step : forall (v : list byte) off n, (off <= length v)%nat -> firstn off v ++ firstn n (skipn off v) = firstn (off + length (firstn n (skipn off v))) v.
Proof.
  intros v off n. revert v. induction off as [|off IH]; intros v H.
  - cbn [firstn skipn app Nat.add]. rewrite firstn_length. destruct (Nat.min_spec n (length v)) as [[A ->]|[A ->]]; auto. rewrite firstn_all. apply firstn_all2. auto.
  - destruct v as [|b v]; [cbn in H; lia|]. cbn [firstn skipn app Nat.add]. f_equal. apply IH. cbn in H. lia.
Qed.
Lemma skipn_skipn' : forall (v : list byte) a b, skipn a (skipn b v) = skipn (b + a) v.
Proof. intros v a b. revert v. induction b as [|b IH]; intros v; auto. destruct v; cbn [skipn Nat.add]; [apply skipn_nil|apply IH]. Qed.
Lemma skipn_step : forall (v : list byte) off n, skipn n (skipn off v) = skipn (off + length (firstn n (skipn off v))) v.
Proof.
  intros v off n. rewrite firstn_length. destruct (Nat.min_spec n (length (skipn off v))) as [[A ->]|[A ->]]; [apply skipn_skipn'|].
  rewrite (skipn_all2 (n := n)) by auto. rewrite <- skipn_skipn'. rewrite skipn_all. reflexivity.
Qed.

Lemma fstep_flin : forall s l m p n s', flin s l m -> fstep s p n = Some s' -> exists x m', visible x = [] /\ flin s' (l ++ x) m'.
Proof.
  intros s l m p n s' HF H. pose proof HF as [D HP HD HA HPh HS]. pose proof (HP p) as P. unfold fstep in H.
  assert (SIL : forall t d, s' = go s d p t -> fphase t = fphase (proc s p) -> dok d -> pok d p t ->
    (forall k i, lookup (dir (disk_ s)) k = Some i -> lookup (dir d) k = Some i) ->
    (forall q i, q <> p -> lock (disk_ s) i = Some q -> lock d i = Some q /\ data d i = data (disk_ s) i) ->
    (forall k i, lookup (dir d) k = Some i -> (forall q, ~ writes (upd (proc s) p t q) i) -> data d i = dflt (m k)) -> exists x m', visible x = [] /\ flin s' (l ++ x) m').
  { intros t d -> A1 A2 A3 A4 A5 A6. exists [], m. split; auto. rewrite app_nil_r. apply flin_silent; auto. }
  assert (OTH : forall t, (forall i, ~ writes (proc s p) i) -> forall i, (forall q, ~ writes (upd (proc s) p t q) i) -> forall q, ~ writes (proc s q) i).
  { intros t HN i HW q. destruct (Nat.eq_dec q p) as [->|N]; auto. specialize (HW q). rewrite upd_other in HW by auto. auto. }
  destruct (proc s p) as [|o|o ks|o i|o i|o i j off rest r|o i j|o i j sz|o i j v|o i z|o i r|o r] eqn:ET; try discriminate; cbn [pok] in P.
  - (* called *) assert (OC : forall k, setget o = Some k -> Some (let (d1, i) := openCreate (disk_ s) k in go s d1 p (POpened o i)) = Some s' -> exists x m', visible x = [] /\ flin s' (l ++ x) m').
    { intros k Ek E. destruct (openCreate (disk_ s) k) as [d1 i] eqn:EO. injection E as E. destruct (openCreate_spec _ _ _ _ D EO) as (A1 & A2 & A3 & A4 & A5 & A6 & A7). apply (SIL (POpened o i) d1); auto; cbn [pok]; eauto.
      - intros q i0 N Hq. rewrite A3. split; auto. apply A5. eapply dk_lock; eauto.
      - intros k' i0 Hi HW. destruct (A6 _ _ Hi) as [Hi'|(B1 & -> & -> & B4)]; [|rewrite B4, HA by auto; reflexivity]. rewrite A5 by (eapply dk_fresh; eauto). apply HD; auto. apply (OTH (POpened o i)); auto. }
    destruct P as [k Ek]. destruct o as [k0 v|k0|k0 a|ks|ks|k0|]; cbn in Ek; try discriminate; injection Ek as ->.
    + apply (OC k); auto. destruct (openCreate (disk_ s) k). exact H.
    + destruct (lookup (dir (disk_ s)) k) eqn:EL; [apply (OC k); auto; destruct (openCreate (disk_ s) k); exact H|]. injection H as <-. exists [], m. split; auto. rewrite app_nil_r. auto.
  - (* checking *) contradiction.
  - (* opened *) destruct P as (k & Ek & EL). destruct (setLock (disk_ s) p i) as [d1|] eqn:E; [|discriminate]. injection H as <-. destruct (setLock_spec _ _ _ _ E) as (A1 & A2 & A3 & A4 & A5 & A6).
    apply (SIL (PLocked o i) d1); auto.
    + destruct D as [D1 D2 D3]. constructor; rewrite ?A4, ?A6; eauto. intros j q Hj. destruct (Nat.eq_dec j i) as [->|N]; [eauto|rewrite A3 in Hj by auto; eauto].
    + cbn. rewrite A4. eauto.
    + rewrite A4. auto.
    + intros q j N Hj. rewrite A5. split; auto. rewrite A3; auto. intros ->. destruct A1; congruence.
    + intros k' j Hj HW. rewrite A4 in Hj. rewrite A5. apply HD; auto. apply (OTH (PLocked o i)); auto.
  - (* locked *) destruct P as (k & Ek & EL & EK). destruct o as [k0 v|k0|k0 a|ks|ks|k0|]; cbn in Ek; try discriminate; injection Ek as ->.
    + unfold openTrunc in H. unfold openCreate in H. rewrite EL in H. injection H as <-. eapply SIL; [reflexivity|reflexivity| | | | |].
      * destruct D. constructor; cbn; auto.
      * cbn. exists k, v. rewrite upd_same. repeat split; auto. lia.
      * cbn. auto.
      * intros q j N Hj. cbn. split; auto. apply upd_other. intros ->. congruence.
      * intros k' j Hj HW. cbn in *. destruct (Nat.eq_dec j i) as [->|N]; [exfalso; apply (HW p); rewrite upd_same; reflexivity|]. rewrite upd_other by auto. apply HD; auto.
        intros q Hq. destruct (Nat.eq_dec q p) as [->|N']; [rewrite ET in Hq; exact Hq|]. apply (HW q). rewrite upd_other; auto.
    + rewrite EL in H. injection H as <-. eapply SIL; [reflexivity|reflexivity|auto| |auto|auto|].
      * cbn. eauto 10.
      * intros k' j Hj HW. apply HD; auto. apply (OTH (PReading (OGet k) i i)); auto.
  - (* writing *) destruct P as (k & v & -> & -> & -> & EL & EK & HO & -> & ED). destruct (skipn off v) as [|b0 rest] eqn:ER.
    + injection H as <-. assert (E : firstn off v = v) by (apply firstn_all2; apply (f_equal (@length _)) in ER; rewrite skipn_length in ER; cbn in ER; lia). rewrite E in ED.
      destruct (closeFile_spec (disk_ s) p i) as (E1 & E2 & E3 & E4 & E5).
      exists [XLin p (OSet k v) RDone], (fun k' => if list_eq_dec Z.eq_dec k' k then Some v else m k'). split; auto. apply flin_point with m; auto; cbn [pok fphase]; auto.
      * rewrite ET. reflexivity.
      * apply dok_close. auto.
      * rewrite E1. auto.
      * intros q j N Hj. rewrite E2. auto.
      * intros k' j Hj HW. rewrite E1 in Hj. rewrite E2. destruct (list_eq_dec Z.eq_dec k' k) as [->|N]; [assert (j = i) by congruence; subst; auto|]. apply HD; auto.
        intros q Hq. destruct (Nat.eq_dec q p) as [->|N']; [rewrite ET in Hq; cbn in Hq; subst j; apply N; eapply dk_inj; eauto|]. apply (HW q). rewrite upd_other; auto.
      * intros k'. rewrite E1. intros Hk. destruct (list_eq_dec Z.eq_dec k' k) as [->|N]; [congruence|auto].
      * cbn. split; auto. destruct (list_eq_dec Z.eq_dec k k) as [_|N]; [|contradiction]. split; auto. intros k' N. destruct (list_eq_dec Z.eq_dec k' k); auto. contradiction.
    + rewrite <- ER in H. cbv beta zeta in H. generalize dependent (S n). intros n' H. assert (ELn : length (data (disk_ s) i) = off) by (rewrite ED, firstn_length; lia). injection H as <-. eapply SIL; [reflexivity|reflexivity| | | | |].
      * destruct D. constructor; cbn; auto.
      * cbn [pok]. exists k, v. cbn [dir lock data writeFile]. rewrite upd_same. repeat split; auto.
        -- rewrite firstn_length, skipn_length. lia.
        -- apply skipn_step.
        -- rewrite <- ELn at 1. rewrite writeAt_end. rewrite ED. apply firstn_step. auto.
      * cbn. auto.
      * intros q j N Hj. cbn. split; auto. apply upd_other. intros ->. congruence.
      * intros k' j Hj HW. cbn in *. destruct (Nat.eq_dec j i) as [->|N]; [exfalso; apply (HW p); rewrite upd_same; reflexivity|]. rewrite upd_other by auto. apply HD; auto.
        intros q Hq. destruct (Nat.eq_dec q p) as [->|N']; [rewrite ET in Hq; cbn in Hq; auto|]. apply (HW q). rewrite upd_other; auto.
  - (* reading *) destruct P as (k & -> & -> & EL & EK). injection H as <-. eapply SIL; [reflexivity|reflexivity|auto| |auto|auto|].
    + cbn. eauto 10.
    + intros k' j Hj HW. apply HD; auto. apply (OTH (PSized (OGet k) i i (length (data (disk_ s) i)))); auto.
  - (* sized *) destruct P as (k & -> & -> & EL & EK & ->). injection H as <-. rewrite firstn_all, Nat.eqb_refl.
    assert (EV : data (disk_ s) i = dflt (m k)).
    { apply HD; auto. intros q Hq. destruct (proc s q) eqn:EQ; cbn in Hq; try contradiction. subst j. pose proof (HP q) as Pq. rewrite EQ in Pq. destruct Pq as (k' & v' & _ & _ & -> & _ & LQ & _). assert (q = p) by congruence. subst q. congruence. }
    exists [XLin p (OGet k) (RValue (data (disk_ s) i))], m. split; auto. apply flin_point with m; auto; cbn [pok fphase]; auto.
    + rewrite ET. reflexivity.
    + eauto 10.
    + intros k' j Hj HW. apply HD; auto. intros q. destruct (Nat.eq_dec q p) as [->|N]; [rewrite ET; auto|]. specialize (HW q). rewrite upd_other in HW; auto.
    + cbn. split; [intros ?; reflexivity|]. rewrite EV. destruct (m k) as [v|]; [right; eauto|left; auto].
  - (* read *) destruct P as (k & -> & -> & EL & EK). injection H as <-. destruct (closeFile_spec (disk_ s) p i) as (E1 & E2 & E3 & E4 & E5). eapply SIL; [reflexivity|reflexivity|apply dok_close; auto|exact I| | |].
    + rewrite E1. auto.
    + intros q j N Hj. rewrite E2. auto.
    + intros k' j Hj HW. rewrite E1 in Hj. rewrite E2. apply HD; auto. eapply OTH; eauto.
  - (* added *) contradiction.
  - (* closing *) injection H as <-. destruct (closeFile_spec (disk_ s) p i) as (E1 & E2 & E3 & E4 & E5). eapply SIL; [reflexivity|reflexivity|apply dok_close; auto|exact I| | |].
    + rewrite E1. auto.
    + intros q j N Hj. rewrite E2. auto.
    + intros k' j Hj HW. rewrite E1 in Hj. rewrite E2. apply HD; auto. eapply OTH; eauto.
Qed.
Lemma fact_flin : forall s l m a s' ev, flin s l m -> fact s a = Some (s', ev) -> (forall p o, a = FCall p o -> exists k, setget o = Some k) ->
  exists x m', visible x = ev /\ flin s' (l ++ x) m'.
Proof.
  intros s l m a s' ev HF H HC. pose proof HF as [D HP HD HA HPh HS]. destruct a as [p o|p n|p|p]; cbn [fact] in H.
  - destruct (proc s p) eqn:ET; try discriminate. injection H as <- <-. exists [XInv p o], m. split; auto. constructor; cbn [go disk_ proc]; auto.
    + intros q. destruct (Nat.eq_dec q p) as [->|N]; [rewrite upd_same; cbn; eauto|rewrite upd_other by auto; auto].
    + intros k i Hi HW. apply HD; auto. intros q. destruct (Nat.eq_dec q p) as [->|N]; [rewrite ET; auto|]. specialize (HW q). rewrite upd_other in HW; auto.
    + intros q. destruct (Nat.eq_dec q p) as [->|N]; [rewrite upd_same|rewrite upd_other by auto].
      * eapply ph_snoc; [apply HPh|]. rewrite ET. constructor.
      * eapply ph_snoc; [apply HPh|]. constructor. auto.
    + rewrite points_app. cbn. rewrite app_nil_r. auto.
  - destruct (fstep s p n) as [s1|] eqn:E; [|discriminate]. injection H as <- <-. eapply fstep_flin; eauto.
  - destruct (proc s p) as [|[]| | | | | | | | | |] eqn:ET; try discriminate. destruct (lookup (dir (disk_ s)) k) eqn:EL; [discriminate|]. injection H as <- <-.
    exists [XLin p (OGet k) (RValue [])], m. split; auto. apply flin_point with m; auto; cbn [pok fphase]; auto.
    + rewrite ET. reflexivity.
    + intros k' i Hi HW. apply HD; auto. intros q. destruct (Nat.eq_dec q p) as [->|N]; [rewrite ET; auto|]. specialize (HW q). rewrite upd_other in HW; auto.
    + cbn. split; [intros ?; reflexivity|]. left. auto.
  - destruct (proc s p) as [| | | | | | | | | | |o r] eqn:ET; try discriminate. injection H as <- <-. exists [XRes p o r], m. split; auto. constructor; cbn [go disk_ proc]; auto.
    + intros q. destruct (Nat.eq_dec q p) as [->|N]; [rewrite upd_same; cbn; eauto|rewrite upd_other by auto; auto].
    + intros k i Hi HW. apply HD; auto. intros q. destruct (Nat.eq_dec q p) as [->|N]; [rewrite ET; auto|]. specialize (HW q). rewrite upd_other in HW; auto.
    + intros q. destruct (Nat.eq_dec q p) as [->|N]; [rewrite upd_same|rewrite upd_other by auto].
      * eapply ph_snoc; [apply HPh|]. rewrite ET. constructor.
      * eapply ph_snoc; [apply HPh|]. constructor. auto.
    + rewrite points_app. cbn. rewrite app_nil_r. auto.
Qed.
Lemma frun_flin : forall acts s l m s' tr, flin s l m -> frun s acts = Some (s', tr) -> (forall p o, In (FCall p o) acts -> exists k, setget o = Some k) ->
  exists x m', visible x = tr /\ flin s' (l ++ x) m'.
Proof.
  induction acts as [|a acts IH]; intros s l m s' tr HF H HC; cbn [frun] in H.
  - injection H as <- <-. exists [], m. rewrite app_nil_r. auto.
  - destruct (fact s a) as [[s1 e1]|] eqn:E; [|discriminate]. destruct (frun s1 acts) as [[s2 e2]|] eqn:E2; [|discriminate]. injection H as <- <-.
    destruct (fact_flin s l m a s1 e1 HF E) as (x & m1 & V & HF1). { intros p o ->. apply (HC p o). left. auto. }
    destruct (IH s1 (l ++ x) m1 s2 e2 HF1 E2) as (y & m2 & V2 & HF2). { intros p o HI. apply (HC p o). right. auto. }
    exists (x ++ y), m2. rewrite visible_app, V, V2. split; auto. rewrite app_assoc. auto.
Qed.
Lemma finit_flin : flin finit [] (fun _ => None).
Proof.
  constructor; cbn; auto; try discriminate.
  - constructor; cbn; discriminate.
  - intros p. constructor.
  - constructor. intros k. reflexivity.
Qed.
Lemma set_get_linearizable : forall acts s tr, (forall p o, In (FCall p o) acts -> (exists k v, o = OSet k v) \/ exists k, o = OGet k) -> frun finit acts = Some (s, tr) -> file_linearizable tr.
Proof.
  intros acts s tr HC H. destruct (frun_flin acts finit [] _ s tr finit_flin H) as (x & m & V & [_ _ _ _ HP HS]).
  - intros p o HI. destruct (HC p o HI) as [(k & v & ->)|(k & ->)]; exists k; reflexivity.
  - exists x. split; auto. split; [eauto|]. exists m. auto.
Qed.
