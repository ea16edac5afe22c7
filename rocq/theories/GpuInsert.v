(* Barriers that are not there.  A schedule of a program with more barriers is a
   schedule of the program; and where one warp is the whole block, a barrier
   before a shuffle changes nothing. *)
From Coq Require Import List Arith ZArith Bool Lia Relations Wellfounded.
From Verif Require Import GpuModel GpuSpec GpuProofs GpuLemmas.
Import ListNotations.
Local Open Scope nat_scope.

Section Insert.
Context {V : Type}.
Notation thr := (thr V).

(* ---- the first program is the second with more barriers: true stands for a
   barrier of both, false for one more ---- *)
Inductive slower : list bool -> thr -> thr -> Prop :=
  | s_done : slower [] Done Done
  | s_ld : forall bs a k' k, (forall v, slower bs (k' v) (k v)) -> slower bs (Ld a k') (Ld a k)
  | s_st : forall bs a v k' k, slower bs k' k -> slower bs (St a v k') (St a v k)
  | s_sld : forall bs a k' k, (forall v, slower bs (k' v) (k v)) -> slower bs (SLd a k') (SLd a k)
  | s_sst : forall bs a v k' k, slower bs k' k -> slower bs (SSt a v k') (SSt a v k)
  | s_shfl : forall bs v d k' k, (forall v, slower bs (k' v) (k v)) -> slower bs (Shfl v d k') (Shfl v d k)
  | s_trap : forall bs, slower bs Trap Trap
  | s_sync : forall bs k' k, slower bs k' k -> slower (true :: bs) (Sync k') (Sync k)
  | s_more : forall bs k' P, slower bs k' P -> slower (false :: bs) (Sync k') P.


Variables l' l : launch V.
Hypothesis EG : grid l' = grid l.
Hypothesis EB : bdim l' = bdim l.
Hypothesis ES : shar l' = shar l.

Definition follows (s' s : state V) : Prop :=
  mem s = mem s' /\ (forall b, b < grid l -> forall a, shm s b a = shm s' b a) /\
  forall b, b < grid l -> exists bs, forall t, t < bdim l -> slower bs (pr s' b t) (pr s b t).

Lemma follows_set : forall s' s b t P' P M M' N N', follows s' s -> b < grid l -> t < bdim l ->
  (forall bs, slower bs (pr s' b t) (pr s b t) -> slower bs P' P) -> M = M' -> (forall b, b < grid l -> forall a, N b a = N' b a) ->
  follows (mkState M' N' (updt (pr s') b t P')) (mkState M N (updt (pr s) b t P)).
Proof.
  intros s' s b t P' P M M' N N' (_ & _ & F) Hb Ht H EM EN. split; [exact EM|]. split; [exact EN|]. cbn [pr]. intros b0 Hb0. destruct (F b0 Hb0) as [bs HB]. exists bs. intros t0 Ht0. unfold updt.
  destruct (Nat.eqb_spec b b0) as [<-|]; [|apply HB, Ht0]. destruct (Nat.eqb_spec t t0) as [<-|]; [|apply HB, Ht0]. cbn [andb]. apply H, HB, Ht0.
Qed.

Lemma follow : forall s' s s1', follows s' s -> step l' s' s1' -> exists s1, reach l s s1 /\ follows s1' s1.
Proof.
  intros s' s s1' FO H. pose proof FO as (EM & EN & F).
  inversion H as [s0 b t a v k Hb Ht Ep Em|s0 b t a v k Hb Ht Ep Em|s0 b t a v k Hb Ht Ep Em|s0 b t a v k Hb Ht Ep Em|s0 b w Hb Hw Hs|s0 b Hb Hq Hx]; subst s0 s1'; rewrite ?EG, ?EB in *.
  - destruct (F b Hb) as [bs HB]. pose proof (HB t Ht) as X. rewrite Ep in X. inversion X as [|? ? ? k0 HK| | | | | | |]; subst.
    exists (mkState (mem s) (shm s) (updt (pr s) b t (k0 v))). split; [eapply reach_step; [constructor|]; apply (step_ld l s b t a v k0); auto; rewrite EM; exact Em|].
    apply follows_set; auto. intros bs0 Y. rewrite Ep, <- H3 in Y. inversion Y; subst; auto.
  - destruct (F b Hb) as [bs HB]. pose proof (HB t Ht) as X. rewrite Ep in X. inversion X as [| |? ? ? ? k0 HK| | | | | |]; subst.
    exists (mkState (upd (mem s) a (Some (Some v))) (shm s) (updt (pr s) b t k0)). split; [eapply reach_step; [constructor|]; apply (step_st l s b t a v k0); auto; rewrite EM; exact Em|].
    apply follows_set; auto; [|rewrite EM; reflexivity]. intros bs0 Y. rewrite Ep, <- H4 in Y. inversion Y; subst; auto.
  - destruct (F b Hb) as [bs HB]. pose proof (HB t Ht) as X. rewrite Ep in X. inversion X as [| | |? ? ? k0 HK| | | | |]; subst.
    exists (mkState (mem s) (shm s) (updt (pr s) b t (k0 v))). split; [eapply reach_step; [constructor|]; apply (step_sld l s b t a v k0); auto; rewrite EN by exact Hb; exact Em|].
    apply follows_set; auto. intros bs0 Y. rewrite Ep, <- H3 in Y. inversion Y; subst; auto.
  - destruct (F b Hb) as [bs HB]. pose proof (HB t Ht) as X. rewrite Ep in X. inversion X as [| | | |? ? ? ? k0 HK| | | |]; subst.
    exists (mkState (mem s) (upds (shm s) b a (Some (Some v))) (updt (pr s) b t k0)). split; [eapply reach_step; [constructor|]; apply (step_sst l s b t a v k0); auto; rewrite EN by exact Hb; exact Em|].
    apply follows_set; auto.
    + intros bs0 Y. rewrite Ep, <- H4 in Y. inversion Y; subst; auto.
    + intros b0 Hb0 a0. unfold upds. destruct (Nat.eqb_spec b b0) as [<-|]; [|apply EN, Hb0]. unfold upd. destruct (addr_eqb a a0); [reflexivity|apply EN, Hb].
  - destruct (F b Hb) as [bs HB].
    assert (HS : forall t, t / 32 = w -> exists v d k' k, pr s' b t = Shfl v d k' /\ pr s b t = Shfl v d k /\ forall v, slower bs (k' v) (k v)).
    { intros t Ht. pose proof (lane_fits _ _ _ Hw Ht) as Hl. specialize (Hs t Ht). pose proof (HB t Hl) as X. destruct (pr s' b t) as [| | | | | |v d k'|]; try contradiction. inversion X; subst. eauto 10. }
    exists (mkState (mem s) (shm s) (fun b' t => if (b =? b') && (t / 32 =? w) then shuffled (pr s b) t else pr s b' t)). split.
    + eapply reach_step; [constructor|]. apply (step_shfl l s b w); auto. intros t Ht. destruct (HS t Ht) as (v & d & k' & k & _ & -> & _). exact I.
    + split; [exact EM|]. split; [exact EN|]. cbn [pr]. intros b0 Hb0. destruct (Nat.eqb_spec b b0) as [<-|Nb]; [|apply F, Hb0]. exists bs. intros t Ht. cbn [andb]. destruct (Nat.eqb_spec (t / 32) w) as [E|Nw]; [|apply HB, Ht].
      unfold shuffled. destruct (HS t E) as (v & d & k' & k & -> & -> & HK).
      assert (E2 : src t d / 32 = w). { unfold src. destruct (Nat.ltb_spec (t mod 32 + d) 32) as [Hd|Hd]; [|exact E]. pose proof (Nat.div_mod t 32 ltac:(lia)). symmetry. apply (Nat.div_unique _ _ _ (t mod 32 + d)); lia. }
      destruct (HS (src t d) E2) as (v2 & d2 & k2' & k2 & -> & -> & _). apply HK.
  - destruct (F b Hb) as [bs HB]. destruct Hx as (t0 & Ht0 & Hx). pose proof (HB t0 Ht0) as X0. destruct (pr s' b t0) as [| | | | |k0'| |] eqn:E0; try contradiction.
    destruct bs as [|[] bs]; [inversion X0| |].
    + assert (HQ : forall t, t < bdim l -> exists k' k, pr s' b t = Sync k' /\ pr s b t = Sync k /\ slower bs k' k).
      { intros t Ht. specialize (Hq t Ht). pose proof (HB t Ht) as X. destruct (pr s' b t) as [| | | | |k'| |]; try contradiction; inversion X; subst; eauto. }
      exists (mkState (mem s) (shm s) (fun b' t => if b =? b' then released (pr s b t) else pr s b' t)). split.
      * eapply reach_step; [constructor|]. apply (step_sync l s b); auto.
        -- intros t Ht. destruct (HQ t Ht) as (k' & k & _ & -> & _). exact I.
        -- exists t0. split; [exact Ht0|]. destruct (HQ t0 Ht0) as (k' & k & _ & -> & _). exact I.
      * split; [exact EM|]. split; [exact EN|]. cbn [pr]. intros b0 Hb0. destruct (Nat.eqb_spec b b0) as [<-|Nb]; [|apply F, Hb0]. exists bs. intros t Ht. destruct (HQ t Ht) as (k' & k & -> & -> & HK). exact HK.
    + assert (HQ : forall t, t < bdim l -> exists k', pr s' b t = Sync k' /\ slower bs k' (pr s b t)).
      { intros t Ht. specialize (Hq t Ht). pose proof (HB t Ht) as X. destruct (pr s' b t) as [| | | | |k'| |]; try contradiction; inversion X; subst; eauto. }
      exists s. split; [constructor|]. split; [exact EM|]. split; [exact EN|]. cbn [pr]. intros b0 Hb0. destruct (Nat.eqb_spec b b0) as [<-|Nb]; [|apply F, Hb0]. exists bs. intros t Ht. destruct (HQ t Ht) as (k' & -> & HK). exact HK.
Qed.

Theorem more_barriers : forall m Q, (forall b, b < grid l -> exists bs, forall t, t < bdim l -> slower bs (code l' b t) (code l b t)) -> sometimes l' m Q -> sometimes l m Q.
Proof.
  intros m Q HC (s' & R & FI & HQ).
  assert (X : exists s, reach l (start l m) s /\ follows s' s).
  { clear FI HQ. induction R as [|s1 s2 R IH St].
    - exists (start l m). split; [constructor|]. split; [reflexivity|]. split; [|exact HC]. intros b _ a. unfold start. cbn [shm]. rewrite ES. reflexivity.
    - destruct IH as (s & R1 & F1). destruct (follow s1 s s2 F1 St) as (s3 & R2 & F2). exists s3. split; [eapply reach_trans; eauto|exact F2]. }
  destruct X as (s & R1 & EM & _ & F). exists s. split; [exact R1|]. split; [|rewrite EM; exact HQ].
  intros b t Hb Ht. destruct (F b Hb) as [bs HB]. pose proof (HB t Ht) as X. rewrite (FI b t) in X by (rewrite ?EG, ?EB; assumption). inversion X. reflexivity.
Qed.
End Insert.

Section Alone.
Context {V : Type}.
Notation thr := (thr V).

Inductive mark := Msync | Mshfl | Mboth.

(* the first program is the second with barriers before some of the shuffles *)
Inductive careful : list mark -> thr -> thr -> Prop :=
  | c_done : careful [] Done Done
  | c_ld : forall bs a k' k, (forall v, careful bs (k' v) (k v)) -> careful bs (Ld a k') (Ld a k)
  | c_st : forall bs a v k' k, careful bs k' k -> careful bs (St a v k') (St a v k)
  | c_sld : forall bs a k' k, (forall v, careful bs (k' v) (k v)) -> careful bs (SLd a k') (SLd a k)
  | c_sst : forall bs a v k' k, careful bs k' k -> careful bs (SSt a v k') (SSt a v k)
  | c_trap : forall bs, careful bs Trap Trap
  | c_sync : forall bs k' k, careful bs k' k -> careful (Msync :: bs) (Sync k') (Sync k)
  | c_shfl : forall bs v d k' k, (forall v, careful bs (k' v) (k v)) -> careful (Mshfl :: bs) (Shfl v d k') (Shfl v d k)
  | c_both : forall bs v d k' k, (forall v, careful bs (k' v) (k v)) -> careful (Mboth :: bs) (Sync (Shfl v d k')) (Shfl v d k).

Variables l' l : launch V.
Hypothesis EG : grid l' = grid l.
Hypothesis EB : bdim l' = 32.
Hypothesis EB' : bdim l = 32.
Hypothesis ES : shar l' = shar l.

Definition alike (s' s : state V) : Prop :=
  mem s = mem s' /\ (forall b, b < grid l -> forall a, shm s b a = shm s' b a) /\
  forall b, b < grid l -> exists bs, forall t, t < 32 -> careful bs (pr s' b t) (pr s b t).

Lemma alike_set : forall s' s b t P' P M M' N N', alike s' s -> b < grid l -> t < 32 ->
  (forall bs, careful bs (pr s' b t) (pr s b t) -> careful bs P' P) -> M = M' -> (forall b, b < grid l -> forall a, N b a = N' b a) ->
  alike (mkState M' N' (updt (pr s') b t P')) (mkState M N (updt (pr s) b t P)).
Proof.
  intros s' s b t P' P M M' N N' (_ & _ & F) Hb Ht H EM EN. split; [exact EM|]. split; [exact EN|]. cbn [pr]. intros b0 Hb0. destruct (F b0 Hb0) as [bs HB]. exists bs. intros t0 Ht0. unfold updt.
  destruct (Nat.eqb_spec b b0) as [<-|]; [|apply HB, Ht0]. destruct (Nat.eqb_spec t t0) as [<-|]; [|apply HB, Ht0]. cbn [andb]. apply H, HB, Ht0.
Qed.

Lemma one_warp : forall t, t / 32 = 0 <-> t < 32.
Proof. intros t. split; intros H; [pose proof (Nat.div_mod t 32); pose proof (Nat.mod_upper_bound t 32); lia|apply Nat.div_small, H]. Qed.
Lemma src_one : forall t d, t < 32 -> src t d < 32.
Proof. intros t d H. unfold src. rewrite Nat.mod_small by exact H. destruct (Nat.ltb_spec (t + d) 32); lia. Qed.

Lemma lead : forall s' s s1, alike s' s -> step l s s1 -> exists s1', clos_trans _ (fun x y => step l' y x) s1' s' /\ reach l' s' s1' /\ alike s1' s1.
Proof.
  intros s' s s1 FO H. pose proof FO as (EM & EN & F).
  inversion H as [s0 b t a v k Hb Ht Ep Em|s0 b t a v k Hb Ht Ep Em|s0 b t a v k Hb Ht Ep Em|s0 b t a v k Hb Ht Ep Em|s0 b w Hb Hw Hs|s0 b Hb Hq Hx]; subst s0 s1; rewrite ?EB' in *.
  - destruct (F b Hb) as [bs HB]. pose proof (HB t Ht) as X. rewrite Ep in X. inversion X as [|? ? k0 ? HK| | | | | | |]; subst.
    assert (St : step l' s' (mkState (mem s') (shm s') (updt (pr s') b t (k0 v)))) by (apply (step_ld l' s' b t a v k0); rewrite ?EG, ?EB; auto; rewrite <- EM; exact Em).
    eexists. split; [apply t_step; exact St|]. split; [eapply reach_step; [constructor|exact St]|].
    apply alike_set; auto. intros bs0 Y. rewrite Ep, <- H1 in Y. inversion Y; subst; auto.
  - destruct (F b Hb) as [bs HB]. pose proof (HB t Ht) as X. rewrite Ep in X. inversion X as [| |? ? ? k0 ? HK| | | | | |]; subst.
    assert (St : step l' s' (mkState (upd (mem s') a (Some (Some v))) (shm s') (updt (pr s') b t k0))) by (apply (step_st l' s' b t a v k0); rewrite ?EG, ?EB; auto; rewrite <- EM; exact Em).
    eexists. split; [apply t_step; exact St|]. split; [eapply reach_step; [constructor|exact St]|].
    apply alike_set; auto; [|rewrite EM; reflexivity]. intros bs0 Y. rewrite Ep, <- H1 in Y. inversion Y; subst; auto.
  - destruct (F b Hb) as [bs HB]. pose proof (HB t Ht) as X. rewrite Ep in X. inversion X as [| | |? ? k0 ? HK| | | | |]; subst.
    assert (St : step l' s' (mkState (mem s') (shm s') (updt (pr s') b t (k0 v)))) by (apply (step_sld l' s' b t a v k0); rewrite ?EG, ?EB; auto; rewrite <- EN by exact Hb; exact Em).
    eexists. split; [apply t_step; exact St|]. split; [eapply reach_step; [constructor|exact St]|].
    apply alike_set; auto. intros bs0 Y. rewrite Ep, <- H1 in Y. inversion Y; subst; auto.
  - destruct (F b Hb) as [bs HB]. pose proof (HB t Ht) as X. rewrite Ep in X. inversion X as [| | | |? ? ? k0 ? HK| | | |]; subst.
    assert (St : step l' s' (mkState (mem s') (upds (shm s') b a (Some (Some v))) (updt (pr s') b t k0))) by (apply (step_sst l' s' b t a v k0); rewrite ?EG, ?EB; auto; rewrite <- EN by exact Hb; exact Em).
    eexists. split; [apply t_step; exact St|]. split; [eapply reach_step; [constructor|exact St]|].
    apply alike_set; auto.
    + intros bs0 Y. rewrite Ep, <- H1 in Y. inversion Y; subst; auto.
    + intros b0 Hb0 a0. unfold upds. destruct (Nat.eqb_spec b b0) as [<-|]; [|apply EN, Hb0]. unfold upd. destruct (addr_eqb a a0); [reflexivity|apply EN, Hb].
  - assert (w = 0) as -> by lia. destruct (F b Hb) as [bs HB].
    assert (HS : forall t, t < 32 -> exists v d k, pr s b t = Shfl v d k) by (intros t Ht; specialize (Hs t (proj2 (one_warp t) Ht)); destruct (pr s b t); try contradiction; eauto).
    assert (HA : exists bs0, (forall t, t < 32 -> exists v d k' k, pr s' b t = Shfl v d k' /\ pr s b t = Shfl v d k /\ forall v, careful bs0 (k' v) (k v)) \/
                             (forall t, t < 32 -> exists v d k' k, pr s' b t = Sync (Shfl v d k') /\ pr s b t = Shfl v d k /\ forall v, careful bs0 (k' v) (k v))).
    { destruct (HS 0 ltac:(lia)) as (v0 & d0 & k0 & E0). pose proof (HB 0 ltac:(lia)) as X0. rewrite E0 in X0.
      inversion X0 as [| | | | | | |bs0 ? ? k0' ? HK|bs0 ? ? k0' ? HK]; subst; exists bs0; [left|right]; intros t Ht; destruct (HS t Ht) as (v & d & k & E); pose proof (HB t Ht) as X; rewrite E in X; inversion X; subst; eauto 10. }
    destruct HA as [bs0 [HA|HA]].
    + assert (St : step l' s' (mkState (mem s') (shm s') (fun b' t => if (b =? b') && (t / 32 =? 0) then shuffled (pr s' b) t else pr s' b' t))).
      { apply (step_shfl l' s' b 0); rewrite ?EG, ?EB; auto. intros t Ht. apply one_warp in Ht. destruct (HA t Ht) as (v & d & k' & k & -> & _). exact I. }
      eexists. split; [apply t_step; exact St|]. split; [eapply reach_step; [constructor|exact St]|].
      split; [exact EM|]. split; [exact EN|]. cbn [pr]. intros b0 Hb0. destruct (Nat.eqb_spec b b0) as [<-|Nb]; [|apply F, Hb0]. exists bs0. intros t Ht. cbn [andb].
      rewrite (proj2 (one_warp t) Ht), Nat.eqb_refl. unfold shuffled. destruct (HA t Ht) as (v & d & k' & k & -> & -> & HK). destruct (HA (src t d) (src_one t d Ht)) as (v2 & d2 & k2' & k2 & -> & -> & _). apply HK.
    + set (s2 := mkState (mem s') (shm s') (fun b' t => if b =? b' then released (pr s' b t) else pr s' b' t)).
      assert (St : step l' s' s2).
      { apply (step_sync l' s' b); rewrite ?EG, ?EB; auto.
        - intros t Ht. destruct (HA t Ht) as (v & d & k' & k & -> & _). exact I.
        - exists 0. split; [lia|]. destruct (HA 0 ltac:(lia)) as (v & d & k' & k & -> & _). exact I. }
      assert (St2 : step l' s2 (mkState (mem s2) (shm s2) (fun b' t => if (b =? b') && (t / 32 =? 0) then shuffled (pr s2 b) t else pr s2 b' t))).
      { apply (step_shfl l' s2 b 0); rewrite ?EG, ?EB; auto. intros t Ht. apply one_warp in Ht. unfold s2. cbn [pr]. rewrite Nat.eqb_refl. destruct (HA t Ht) as (v & d & k' & k & -> & _). exact I. }
      eexists. split; [eapply t_trans; [apply t_step; exact St2|apply t_step; exact St]|]. split; [eapply reach_step; [eapply reach_step; [constructor|exact St]|exact St2]|].
      split; [exact EM|]. split; [exact EN|]. cbn [pr]. intros b0 Hb0. destruct (Nat.eqb_spec b b0) as [<-|Nb].
      * exists bs0. intros t Ht. cbn [andb]. rewrite (proj2 (one_warp t) Ht), Nat.eqb_refl. unfold shuffled, s2. cbn [pr]. rewrite Nat.eqb_refl.
        destruct (HA t Ht) as (v & d & k' & k & -> & -> & HK). cbn [released]. destruct (HA (src t d) (src_one t d Ht)) as (v2 & d2 & k2' & k2 & -> & -> & _). cbn [released]. apply HK.
      * cbn [andb]. unfold s2. cbn [pr]. destruct (Nat.eqb_spec b b0); [contradiction|]. apply F, Hb0.
  - destruct (F b Hb) as [bs HB]. destruct Hx as (t0 & Ht0 & Hx). pose proof (HB t0 Ht0) as X0. destruct (pr s b t0) as [| | | | |k0| |] eqn:E0; try contradiction.
    inversion X0 as [| | | | | |bs0 k0' ? HK0| |]; subst.
    assert (HQ : forall t, t < 32 -> exists k' k, pr s' b t = Sync k' /\ pr s b t = Sync k /\ careful bs0 k' k).
    { intros t Ht. specialize (Hq t Ht). pose proof (HB t Ht) as X. destruct (pr s b t) as [| | | | |k| |]; try contradiction; inversion X; subst; eauto. }
    assert (St : step l' s' (mkState (mem s') (shm s') (fun b' t => if b =? b' then released (pr s' b t) else pr s' b' t))).
    { apply (step_sync l' s' b); rewrite ?EG, ?EB; auto.
      - intros t Ht. destruct (HQ t Ht) as (k' & k & -> & _). exact I.
      - exists t0. split; [exact Ht0|]. destruct (HQ t0 Ht0) as (k' & k & -> & _). exact I. }
    eexists. split; [apply t_step; exact St|]. split; [eapply reach_step; [constructor|exact St]|].
    split; [exact EM|]. split; [exact EN|]. cbn [pr]. intros b0 Hb0. destruct (Nat.eqb_spec b b0) as [<-|Nb]; [|apply F, Hb0]. exists bs0. intros t Ht. destruct (HQ t Ht) as (k' & k & -> & -> & HK). exact HK.
Qed.

Lemma alike_acc : forall s', Acc (clos_trans _ (fun x y => step l' y x)) s' -> forall s, alike s' s -> Acc (fun x y => step l y x) s.
Proof.
  intros s' A. induction A as [s' _ IH]. intros s F. constructor. intros s1 St. destruct (lead s' s s1 F St) as (s1' & C & _ & F1). apply (IH s1' C s1 F1).
Qed.

Theorem needless_barriers : forall m Q, (forall b, b < grid l -> exists bs, forall t, t < 32 -> careful bs (code l' b t) (code l b t)) -> always l' m Q -> always l m Q.
Proof.
  intros m Q HC (A & B & C).
  assert (F0 : alike (start l' m) (start l m)). { split; [reflexivity|]. split; [|exact HC]. intros b _ a. unfold start. cbn [shm]. rewrite ES. reflexivity. }
  split; [|split].
  - unfold accepted in *. rewrite EG, EB in A. rewrite EB'. exact A.
  - apply (alike_acc (start l' m)); [apply Acc_clos_trans, B|exact F0].
  - intros s R. assert (X : exists s', reach l' (start l' m) s' /\ alike s' s).
    { induction R as [|s1 s2 R IH St]; [exists (start l' m); split; [constructor|exact F0]|]. destruct IH as (s1' & R1 & F1). destruct (lead s1' s1 s2 F1 St) as (s2' & _ & R2 & F2). exists s2'. split; [eapply reach_trans; eauto|exact F2]. }
    destruct X as (s' & R' & EM & EN & F). destruct (C s' R') as (NB & PR & FI). 
    assert (FF : finished l' s' <-> finished l s).
    { split; intros H b t Hb Ht; rewrite ?EG, ?EB, ?EB' in *.
      - destruct (F b Hb) as [bs HB]. pose proof (HB t Ht) as X. rewrite (H b t) in X by (rewrite ?EG, ?EB; assumption). inversion X. reflexivity.
      - destruct (F b Hb) as [bs HB]. pose proof (HB t Ht) as X. rewrite (H b t) in X by (rewrite ?EB'; assumption). inversion X. reflexivity. }
    split; [|split].
    + intros (b & t & Hb & Ht & H). rewrite EB' in Ht. apply NB. exists b, t. rewrite EG, EB. split; [exact Hb|]. split; [exact Ht|]. destruct (F b Hb) as [bs HB]. pose proof (HB t Ht) as X.
      destruct (pr s b t); try contradiction; inversion X; subst; rewrite <- ?EM, <- ?EN by exact Hb; exact H.
    + destruct PR as [H|[s1' St]]; [left; apply FF, H|]. right.
      inversion St as [s0 b t a v k Hb Ht Ep Em|s0 b t a v k Hb Ht Ep Em|s0 b t a v k Hb Ht Ep Em|s0 b t a v k Hb Ht Ep Em|s0 b w Hb Hw Hs|s0 b Hb Hq Hx]; subst s0; rewrite ?EG, ?EB in *; destruct (F b Hb) as [bs HB].
      * pose proof (HB t Ht) as X. rewrite Ep in X. inversion X; subst. eexists. eapply (step_ld l s b t a v); rewrite ?EB'; eauto. rewrite EM. exact Em.
      * pose proof (HB t Ht) as X. rewrite Ep in X. inversion X; subst. eexists. eapply (step_st l s b t a v); rewrite ?EB'; eauto. rewrite EM. exact Em.
      * pose proof (HB t Ht) as X. rewrite Ep in X. inversion X; subst. eexists. eapply (step_sld l s b t a v); rewrite ?EB'; eauto. rewrite EN by exact Hb. exact Em.
      * pose proof (HB t Ht) as X. rewrite Ep in X. inversion X; subst. eexists. eapply (step_sst l s b t a v); rewrite ?EB'; eauto. rewrite EN by exact Hb. exact Em.
      * assert (w = 0) as -> by lia. eexists. apply (step_shfl l s b 0); rewrite ?EB'; auto. intros t Ht. specialize (Hs t Ht). apply one_warp in Ht. pose proof (HB t Ht) as X. destruct (pr s' b t); try contradiction. inversion X. exact I.
      * destruct Hx as (t0 & Ht0 & Hx). pose proof (HB t0 Ht0) as X0. destruct (pr s' b t0) as [| | | | |k0| |] eqn:E0; try contradiction. inversion X0 as [| | | | | |bs0 ? ? HK|?|bs0 v d k0' ? HK]; subst.
        -- eexists. apply (step_sync l s b); rewrite ?EB'; auto.
           ++ intros t Ht. specialize (Hq t Ht). pose proof (HB t Ht) as X. destruct (pr s' b t); try contradiction; inversion X; exact I.
           ++ exists t0. split; [exact Ht0|]. rewrite <- H2. exact I.
        -- eexists. apply (step_shfl l s b 0); rewrite ?EB'; auto. intros t Ht. apply one_warp in Ht. specialize (Hq t Ht). pose proof (HB t Ht) as X. destruct (pr s' b t); try contradiction; inversion X; exact I.
    + intros H. rewrite EM. apply FI, FF, H.
Qed.
End Alone.
