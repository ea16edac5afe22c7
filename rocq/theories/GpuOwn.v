(* A buffer of which every block uses only its own part is as good as shared memory. *)
From Coq Require Import List Arith ZArith Bool Lia.
From Verif Require Import GpuModel GpuSpec GpuProofs GpuLemmas.
Import ListNotations.
Local Open Scope nat_scope.

Section Own.
Context {V : Type} (tmp n : nat).

(* the thread with its part of tmp in shared memory *)
Fixpoint priv (b : nat) (P : thr V) : thr V :=
  match P with
  | Done => Done
  | Ld a k => if fst a =? tmp then SLd (tmp, snd a - Z.of_nat (b * n))%Z (fun v => priv b (k v)) else Ld a (fun v => priv b (k v))
  | St a v k => if fst a =? tmp then SSt (tmp, snd a - Z.of_nat (b * n))%Z v (priv b k) else St a v (priv b k)
  | Sync k => Sync (priv b k)
  | _ => Trap
  end.

Definition area (a : addr) : bool := (fst a =? tmp) && (0 <=? snd a)%Z && (snd a <? Z.of_nat n)%Z.
Definition privLaunch (l : launch V) : launch V := mkLaunch (grid l) (bdim l) area (fun b t => priv b (code l b t)).

Lemma area_true a : area a = true <-> fst a = tmp /\ (0 <= snd a < Z.of_nat n)%Z.
Proof. unfold area. rewrite !andb_true_iff, Nat.eqb_eq, Z.leb_le, Z.ltb_lt. tauto. Qed.

Definition gaddr (b : nat) (a : addr) : addr := (tmp, snd a + Z.of_nat (b * n))%Z.

Record like2 (G : nat) (s s' : state V) : Prop := mkLike {
  k_pr : forall b t, pr s' b t = priv b (pr s b t);
  k_mem : forall a, fst a <> tmp -> mem s' a = mem s a;
  k_in : forall b a, b < G -> area a = true -> shm s' b a <> None /\ mem s (gaddr b a) <> None /\ forall v, shm s' b a = Some (Some v) -> mem s (gaddr b a) = Some (Some v);
  k_out : forall b a, area a = false -> shm s' b a = None
}.

Lemma released_priv b P : released (priv b P) = priv b (released P).
Proof. destruct P; cbn [priv released]; try reflexivity; destruct (fst a =? tmp); reflexivity. Qed.
Lemma quiet_priv b P : quiet (priv b P) -> quiet P.
Proof. destruct P; cbn [priv quiet]; try tauto; destruct (fst a =? tmp); cbn; tauto. Qed.
Lemma quiet_priv' b P : quiet P -> quiet (priv b P).
Proof. destruct P; cbn [priv quiet]; tauto. Qed.
Lemma waiting_priv b P : waiting (priv b P) <-> waiting P.
Proof. destruct P; cbn [priv waiting]; try tauto; destruct (fst a =? tmp); cbn; tauto. Qed.

Lemma gaddr_inj b b' a a' : area a = true -> area a' = true -> gaddr b a = gaddr b' a' -> b = b' /\ a = a'.
Proof.
  intros A A' E. apply area_true in A as [A1 A2]. apply area_true in A' as [A3 A4]. unfold gaddr in E. injection E as E.
  assert (b = b') by nia. split; [assumption|]. destruct a, a'; cbn in *. subst. f_equal. lia.
Qed.
Lemma gaddr_back b a : fst a = tmp -> gaddr b (tmp, snd a - Z.of_nat (b * n))%Z = a.
Proof. intros E. unfold gaddr. cbn. destruct a as [p z]. cbn in *. subst. f_equal. lia. Qed.

Variable l : launch V.
Notation l' := (privLaunch l).

Lemma updt_priv (f f' : nat -> nat -> thr V) b t P : (forall b t, f' b t = priv b (f b t)) -> forall b1 t1, updt f' b t (priv b P) b1 t1 = priv b1 (updt f b t P b1 t1).
Proof. intros H b1 t1. unfold updt. destruct (Nat.eqb_spec b b1) as [<-|]; cbn [andb]; [|apply H]. destruct (t =? t1); [reflexivity|apply H]. Qed.

Lemma like_step s s' s1 : like2 (grid l) s s' -> ~ bad l' s' -> step l s s1 -> exists s1', step l' s' s1' /\ like2 (grid l) s1 s1'.
Proof.
  intros K NB St. destruct St as [s b t a v k Hb Ht Hp Hm|s b t a v k Hb Ht Hp Hm|s b t a v k Hb Ht Hp Hm|s b t a v k Hb Ht Hp Hm|s b w Hb Hw Hs|s b Hb Hq Hx].
  - pose proof (k_pr _ _ _ K b t) as E. rewrite Hp in E. cbn [priv] in E. destruct (Nat.eqb_spec (fst a) tmp) as [Ea|Na].
    + set (a' := (tmp, snd a - Z.of_nat (b * n))%Z) in *.
      assert (HA : exists v', shm s' b a' = Some (Some v')).
      { destruct (shm s' b a') as [[v'|]|] eqn:EC; [eauto| |]; exfalso; apply NB; exists b, t; (split; [exact Hb|split; [exact Ht|]]); rewrite E; intros x; rewrite EC; discriminate. }
      destruct HA as [v' HA]. assert (AR : area a' = true) by (destruct (area a') eqn:X; [reflexivity|rewrite (k_out _ _ _ K b _ X) in HA; discriminate]).
      pose proof (proj2 (proj2 (k_in _ _ _ K b a' Hb AR)) v' HA) as HM. unfold a' in HM. rewrite gaddr_back in HM by exact Ea. rewrite Hm in HM. injection HM as <-.
      exists (mkState (mem s') (shm s') (updt (pr s') b t (priv b (k v)))). split; [apply (step_sld l' s' b t a' v (fun v => priv b (k v))); auto|].
      constructor; cbn [pr mem shm]; [|apply K..]. apply updt_priv, K.
    + exists (mkState (mem s') (shm s') (updt (pr s') b t (priv b (k v)))). split.
      * apply (step_ld l' s' b t a v (fun v => priv b (k v))); auto. rewrite (k_mem _ _ _ K a Na). exact Hm.
      * constructor; cbn [pr mem shm]; [|apply K..]. apply updt_priv, K.
  - pose proof (k_pr _ _ _ K b t) as E. rewrite Hp in E. cbn [priv] in E. destruct (Nat.eqb_spec (fst a) tmp) as [Ea|Na].
    + set (a' := (tmp, snd a - Z.of_nat (b * n))%Z) in *.
      assert (HA : shm s' b a' <> None).
      { intros EC. apply NB. exists b, t. split; [exact Hb|split; [exact Ht|]]. rewrite E. exact EC. }
      assert (AR : area a' = true) by (destruct (area a') eqn:X; [reflexivity|rewrite (k_out _ _ _ K b _ X) in HA; contradiction]).
      exists (mkState (mem s') (upds (shm s') b a' (Some (Some v))) (updt (pr s') b t (priv b k))). split; [apply (step_sst l' s' b t a' v (priv b k)); auto|].
      constructor; cbn [pr mem shm].
      * apply updt_priv, K.
      * intros x Nx. rewrite (k_mem _ _ _ K x Nx). rewrite upd_other; [reflexivity|congruence].
      * intros b1 a1 Hb1 A1. destruct (k_in _ _ _ K b1 a1 Hb1 A1) as (I1 & I2 & I3). unfold upds. destruct (Nat.eqb_spec b b1) as [<-|Nb].
        -- destruct (addr_dec a' a1) as [<-|N1].
           ++ rewrite upd_same. replace (gaddr b a') with a by (symmetry; apply gaddr_back; exact Ea). rewrite upd_same. repeat split; try discriminate. intros w X. exact X.
           ++ rewrite upd_other by exact N1. rewrite upd_other; [auto|]. rewrite <- (gaddr_back b a Ea). intros X. apply gaddr_inj in X; [|assumption..]. apply N1, X.
        -- rewrite upd_other; [auto|]. rewrite <- (gaddr_back b a Ea). intros X. apply gaddr_inj in X; [|assumption..]. apply Nb, X.
      * intros b1 a1 A1. pose proof (k_out _ _ _ K b1 a1 A1) as O. unfold upds. destruct (Nat.eqb_spec b b1) as [<-|Nb]; [|exact O]. rewrite upd_other; [exact O|]. intros <-. congruence.
    + exists (mkState (upd (mem s') a (Some (Some v))) (shm s') (updt (pr s') b t (priv b k))). split.
      * apply (step_st l' s' b t a v (priv b k)); auto. rewrite (k_mem _ _ _ K a Na). exact Hm.
      * constructor; cbn [pr mem shm].
        -- apply updt_priv, K.
        -- intros x Nx. unfold upd. destruct (addr_eqb a x); [reflexivity|apply K, Nx].
        -- intros b1 a1 Hb1 A1. rewrite upd_other; [apply K; assumption|]. intros ->. apply Na. reflexivity.
        -- apply K.
  - exfalso. apply NB. exists b, t. split; [exact Hb|split; [exact Ht|]]. rewrite (k_pr _ _ _ K), Hp. exact I.
  - exfalso. apply NB. exists b, t. split; [exact Hb|split; [exact Ht|]]. rewrite (k_pr _ _ _ K), Hp. exact I.
  - exfalso. apply NB. exists b, (32 * w). split; [exact Hb|split; [cbn; lia|]]. rewrite (k_pr _ _ _ K). specialize (Hs (32 * w)).
    rewrite Nat.mul_comm, Nat.div_mul in Hs by lia. specialize (Hs eq_refl). rewrite (Nat.mul_comm 32 w). destruct (pr s b (w * 32)); try contradiction. exact I.
  - exists (mkState (mem s') (shm s') (fun b' t => if b =? b' then released (pr s' b t) else pr s' b' t)). split.
    + apply (step_sync l' s' b Hb).
      * intros t Ht. rewrite (k_pr _ _ _ K). apply quiet_priv', Hq, Ht.
      * destruct Hx as (t & Ht & Hx). exists t. split; [exact Ht|]. rewrite (k_pr _ _ _ K). apply waiting_priv, Hx.
    + constructor; cbn [pr mem shm]; [|apply K..]. intros b1 t1. destruct (Nat.eqb_spec b b1) as [<-|]; rewrite (k_pr _ _ _ K); [apply released_priv|reflexivity].
Qed.

Lemma like_bad s s' : like2 (grid l) s s' -> ~ bad l' s' -> ~ bad l s.
Proof.
  intros K NB (b & t & Hb & Ht & H). apply NB. exists b, t. split; [exact Hb|split; [exact Ht|]]. rewrite (k_pr _ _ _ K).
  destruct (pr s b t) as [|a k|a v k|a k|a v k|k|v d k|]; cbn [priv]; try contradiction; try exact I.
  - destruct (Nat.eqb_spec (fst a) tmp) as [Ea|Na].
    + intros v E. set (a' := (tmp, snd a - Z.of_nat (b * n))%Z) in *.
      assert (AR : area a' = true) by (destruct (area a') eqn:X; [reflexivity|rewrite (k_out _ _ _ K b _ X) in E; discriminate]).
      pose proof (proj2 (proj2 (k_in _ _ _ K b a' Hb AR)) v E) as HM. unfold a' in HM. rewrite gaddr_back in HM by exact Ea. apply (H v HM).
    + intros v. rewrite (k_mem _ _ _ K a Na). apply H.
  - destruct (Nat.eqb_spec (fst a) tmp) as [Ea|Na].
    + set (a' := (tmp, snd a - Z.of_nat (b * n))%Z) in *. destruct (area a') eqn:AR; [|apply (k_out _ _ _ K b _ AR)].
      exfalso. apply (proj1 (proj2 (k_in _ _ _ K b a' Hb AR))). unfold a'. rewrite gaddr_back by exact Ea. exact H.
    + rewrite (k_mem _ _ _ K a Na). exact H.
Qed.

Lemma like_progress s s' : like2 (grid l) s s' -> ~ bad l' s' -> (finished l' s' \/ exists s1, step l' s' s1) -> finished l s \/ exists s1, step l s s1.
Proof.
  intros K NB [F|(s1 & St)].
  - left. intros b t Hb Ht. specialize (F b t Hb Ht). rewrite (k_pr _ _ _ K) in F. destruct (pr s b t); cbn [priv] in F; try discriminate; try reflexivity; destruct (fst a =? tmp); discriminate.
  - right. pose proof (like_bad s s' K NB) as NB'.
    assert (MOVE : forall b t, b < grid l -> t < bdim l -> match pr s b t with Ld _ _ | St _ _ _ => True | _ => False end -> exists s1, step l s s1).
    { intros b t Hb Ht H. destruct (pr s b t) as [|a k|a v k|a k|a v k|k|v d k|] eqn:P; try contradiction.
      - destruct (mem s a) as [[v|]|] eqn:E; [eexists; eapply step_ld; eauto| |]; exfalso; apply NB'; exists b, t; (split; [exact Hb|split; [exact Ht|]]); rewrite P; intros w X; congruence.
      - destruct (mem s a) as [c|] eqn:E; [eexists; eapply step_st; eauto; congruence|]. exfalso. apply NB'. exists b, t. split; [exact Hb|split; [exact Ht|]]. rewrite P. exact E. }
    remember s' as s0 eqn:E0. destruct St as [s0 b t a v k Hb Ht Hp Hm|s0 b t a v k Hb Ht Hp Hm|s0 b t a v k Hb Ht Hp Hm|s0 b t a v k Hb Ht Hp Hm|s0 b w Hb Hw Hs|s0 b Hb Hq Hx]; subst s0.
    1-4: apply (MOVE b t Hb Ht); rewrite (k_pr _ _ _ K) in Hp; destruct (pr s b t); cbn [priv] in Hp; try discriminate; exact I.
    + exfalso. specialize (Hs (w * 32)). rewrite Nat.div_mul in Hs by lia. specialize (Hs eq_refl). rewrite (k_pr _ _ _ K) in Hs. destruct (pr s b (w * 32)); cbn [priv shuffling] in Hs; try contradiction; destruct (fst a =? tmp); exact Hs.
    + eexists. apply (step_sync l s b Hb).
      * intros t Ht. specialize (Hq t Ht). rewrite (k_pr _ _ _ K) in Hq. apply (quiet_priv b), Hq.
      * destruct Hx as (t & Ht & Hx). exists t. split; [exact Ht|]. rewrite (k_pr _ _ _ K) in Hx. apply waiting_priv in Hx. exact Hx.
Qed.

Theorem own_part m (Q Q' : (addr -> cell V) -> Prop) : (forall z, (0 <= z < Z.of_nat (grid l * n))%Z -> m (tmp, z) <> None) ->
  always l' m Q' -> (forall m' m'', Q' m'' -> (forall a, fst a <> tmp -> m' a = m'' a) -> Q m') -> always l m Q.
Proof.
  intros HR (HA & _ & H) HQ. split; [exact HA|]. split; [apply launch_ends; apply HA|].
  assert (R : forall s, reach l (start l m) s -> exists s', reach l' (start l' m) s' /\ like2 (grid l) s s').
  { intros s Hs. induction Hs as [|s s1 Hs IH St].
    - exists (start l' m). split; [constructor|]. constructor; cbn [start mem shm pr code privLaunch shar].
      + reflexivity.
      + reflexivity.
      + intros b a Hb A. rewrite A. split; [discriminate|]. split; [|discriminate]. apply area_true in A as [_ A]. apply HR. nia.
      + intros b a A. rewrite A. reflexivity.
    - destruct IH as (s' & Hs' & K). destruct (like_step s s' s1 K (proj1 (H s' Hs')) St) as (s1' & St' & K'). exists s1'. split; [eapply reach_step; eauto|exact K']. }
  intros s Hs. destruct (R s Hs) as (s' & Hs' & K). destruct (H s' Hs') as (NB & PG & FIN). split; [apply (like_bad s s' K NB)|]. split; [apply (like_progress s s' K NB PG)|].
  intros F. apply (HQ (mem s) (mem s')).
  - apply FIN. intros b t Hb Ht. rewrite (k_pr _ _ _ K), (F b t Hb Ht). reflexivity.
  - intros a Na. symmetry. apply K, Na.
Qed.
End Own.
