(* Kernels on elements in a memory that also has indices. *)
From Coq Require Import List Arith ZArith Bool Lia FunctionalExtensionality.
From Verif Require Import GpuModel GpuSpec GpuProofs GpuLemmas CudaMoveModel CudaSpec CudaReduceProofs3 CudaLossModel.
Import ListNotations.
Local Open Scope nat_scope.

Section Typed.
Context {A : Type}.
(* The elements of a memory; indices are as good as uninitialised. *)
Definition elc (c : cell (word A)) : cell A :=
  match c with None => None | Some (Some (El v)) => Some (Some v) | Some _ => Some None end.
Definition els (m : addr -> cell (word A)) : addr -> cell A := fun a => elc (m a).
(* Only elements have been written. *)
Definition kept (m m' : addr -> cell (word A)) : Prop := forall a, m' a = m a \/ exists v, m' a = Some (Some (El v)).
Lemma kept_refl m : kept m m.
Proof. intros a. auto. Qed.
Lemma kept_trans m1 m2 m3 : kept m1 m2 -> kept m2 m3 -> kept m1 m3.
Proof. intros H1 H2 a. destruct (H2 a) as [E|E]; auto. rewrite E. auto. Qed.
Lemma kept_same m m' a : kept m m' -> els m' a = els m a -> m' a = m a.
Proof.
  intros H E. destruct (H a) as [|(v & Ev)]; auto. unfold els in E. rewrite Ev in *. cbn in E. destruct (m a) as [[[x|z]|]|]; cbn in E; congruence.
Qed.
Lemma els_some m a v : els m a = Some (Some v) <-> m a = Some (Some (El v)).
Proof. unfold els. destruct (m a) as [[[x|z]|]|]; cbn; split; congruence. Qed.
Lemma els_none m a : els m a = None <-> m a = None.
Proof. unfold els. destruct (m a) as [[[x|z]|]|]; cbn; split; congruence. Qed.
Lemma els_upd m a v : els (upd m a (Some (Some (El v)))) = upd (els m) a (Some (Some v)).
Proof. apply functional_extensionality. intros x. unfold els, upd. destruct (addr_eqb a x); reflexivity. Qed.
Lemma kept_upd m m' a v : kept m m' -> kept m (upd m' a (Some (Some (El v)))).
Proof. intros H x. unfold upd. destruct (addr_eqb a x); eauto. Qed.

Definition Rel (s : state A) (s' : state (word A)) : Prop :=
  mem s = els (mem s') /\ shm s = (fun b => els (shm s' b)) /\ forall b t, pr s' b t = onEl (pr s b t).
Lemma onEl_updt f f' b t p : (forall b t, f' b t = onEl (f b t)) -> forall b' t', updt f' b t (onEl p) b' t' = onEl (updt f b t p b' t') (A := A).
Proof. intros H b' t'. unfold updt. destruct (_ && _); auto. Qed.
Lemma onEl_quiet p : quiet (onEl p) <-> quiet (V := A) p.
Proof. destruct p; cbn; tauto. Qed.
Lemma onEl_waiting p : waiting (onEl p) <-> waiting (V := A) p.
Proof. destruct p; cbn; tauto. Qed.
Lemma onEl_shuffling p : shuffling (onEl p) <-> shuffling (V := A) p.
Proof. destruct p; cbn; tauto. Qed.
Lemma onEl_released p : released (onEl p) = onEl (released p) :> thr (word A).
Proof. destruct p; reflexivity. Qed.
Lemma onEl_shuffled f f' t : (forall t, f' t = onEl (f t)) -> shuffled f' t = onEl (shuffled f t) :> thr (word A).
Proof.
  intros H. unfold shuffled. rewrite H. destruct (f t) eqn:E; try reflexivity. cbn. rewrite H. destruct (f (src t d)); reflexivity.
Qed.
Lemma rel_forward l s s' s1' : Rel s s' -> ~ bad l s -> step (typed l) s' s1' -> exists s1, step l s s1 /\ Rel s1 s1' /\ kept (mem s') (mem s1').
Proof.
  intros (HM & HS & HP) HB E. destruct E as [s' b t a w k Hb Ht Ep Em|s' b t a w k Hb Ht Ep Em|s' b t a w k Hb Ht Ep Em|s' b t a w k Hb Ht Ep Em|s' b w Hb Hw Hs|s' b Hb Hq Hw]; cbn [mem shm pr grid bdim typed] in *.
  - pose proof Ep as Ep'. rewrite HP in Ep'. destruct (pr s b t) as [|a0 k0|a0 v0 k0|a0 k0|a0 v0 k0|k0|v0 d0 k0|] eqn:Es; try discriminate. cbn in Ep'. injection Ep' as -> <-. destruct w as [v|z].
    + exists (mkState (mem s) (shm s) (updt (pr s) b t (k0 v))). split; [|split]; [|split; [|split]|]; auto using kept_refl.
      * eapply step_ld; eauto. rewrite HM. apply els_some. auto.
      * cbn. apply (onEl_updt (pr s) (pr s') b t (k0 v)). auto.
    + exfalso. apply HB. exists b, t. split; auto. split; auto. rewrite Es, HM. unfold els. rewrite Em. discriminate.
  - pose proof Ep as Ep'. rewrite HP in Ep'. destruct (pr s b t) as [|a0 k0|a0 v0 k0|a0 k0|a0 v0 k0|k0|v0 d0 k0|] eqn:Es; try discriminate. cbn in Ep'. injection Ep' as -> <- <-.
    exists (mkState (upd (mem s) a (Some (Some v0))) (shm s) (updt (pr s) b t k0)). split; [|split]; [|split; [|split]|]; auto.
    + eapply step_st; eauto. rewrite HM. intros X. apply els_none in X. auto.
    + cbn. rewrite HM, els_upd. auto.
    + cbn. apply (onEl_updt (pr s) (pr s') b t k0). auto.
    + apply kept_upd, kept_refl.
  - pose proof Ep as Ep'. rewrite HP in Ep'. destruct (pr s b t) as [|a0 k0|a0 v0 k0|a0 k0|a0 v0 k0|k0|v0 d0 k0|] eqn:Es; try discriminate. cbn in Ep'. injection Ep' as -> <-. destruct w as [v|z].
    + exists (mkState (mem s) (shm s) (updt (pr s) b t (k0 v))). split; [|split]; [|split; [|split]|]; auto using kept_refl.
      * eapply step_sld; eauto. rewrite HS. apply els_some. auto.
      * cbn. apply (onEl_updt (pr s) (pr s') b t (k0 v)). auto.
    + exfalso. apply HB. exists b, t. split; auto. split; auto. rewrite Es, HS. unfold els. rewrite Em. discriminate.
  - pose proof Ep as Ep'. rewrite HP in Ep'. destruct (pr s b t) as [|a0 k0|a0 v0 k0|a0 k0|a0 v0 k0|k0|v0 d0 k0|] eqn:Es; try discriminate. cbn in Ep'. injection Ep' as -> <- <-.
    exists (mkState (mem s) (upds (shm s) b a (Some (Some v0))) (updt (pr s) b t k0)). split; [|split]; [|split; [|split]|]; auto using kept_refl.
    + eapply step_sst; eauto. rewrite HS. intros X. apply els_none in X. auto.
    + cbn. rewrite HS. apply functional_extensionality. intros b'. unfold upds. destruct (b =? b'); auto. rewrite els_upd. auto.
    + cbn. apply (onEl_updt (pr s) (pr s') b t k0). auto.
  - eexists. split; [apply (step_shfl l s b w); auto; intros t Ht; apply onEl_shuffling; rewrite <- HP; auto|]. split; [|apply kept_refl]. split; [|split]; auto.
    cbn. intros b' t. destruct (_ && _); auto. apply onEl_shuffled. auto.
  - eexists. split; [apply (step_sync l s b); auto|].
    + intros t Ht. apply onEl_quiet. rewrite <- HP. auto.
    + destruct Hw as (t & Ht & Hw). exists t. split; auto. apply onEl_waiting. rewrite <- HP. auto.
    + split; [|apply kept_refl]. split; [|split]; auto. cbn. intros b' t. destruct (b =? b'); auto. rewrite HP. apply onEl_released.
Qed.
Lemma rel_progress l s s' s1 : Rel s s' -> step l s s1 -> exists s1', step (typed l) s' s1'.
Proof.
  intros (HM & HS & HP) E. destruct E as [s b t a w k Hb Ht Ep Em|s b t a w k Hb Ht Ep Em|s b t a w k Hb Ht Ep Em|s b t a w k Hb Ht Ep Em|s b w Hb Hw Hs|s b Hb Hq Hw].
  - eexists. eapply (step_ld (typed l) s' b t a (El w)); auto; [rewrite HP, Ep; reflexivity|]. rewrite HM in Em. apply els_some in Em. auto.
  - eexists. eapply (step_st (typed l) s' b t a (El w)); auto; [rewrite HP, Ep; reflexivity|]. rewrite HM in Em. intros X. apply els_none in X. auto.
  - eexists. eapply (step_sld (typed l) s' b t a (El w)); auto; [rewrite HP, Ep; reflexivity|]. rewrite HS in Em. apply els_some in Em. auto.
  - eexists. eapply (step_sst (typed l) s' b t a (El w)); auto; [rewrite HP, Ep; reflexivity|]. rewrite HS in Em. intros X. apply els_none in X. auto.
  - eexists. apply (step_shfl (typed l) s' b w); auto. intros t Ht. rewrite HP. apply onEl_shuffling. auto.
  - eexists. apply (step_sync (typed l) s' b); auto.
    + intros t Ht. rewrite HP. apply onEl_quiet. auto.
    + destruct Hw as (t & Ht & Hw). exists t. split; auto. rewrite HP. apply onEl_waiting. auto.
Qed.
Lemma rel_bad l s s' : Rel s s' -> bad (typed l) s' -> bad l s.
Proof.
  intros (HM & HS & HP) (b & t & Hb & Ht & H). exists b, t. split; auto. split; auto. rewrite HP in H. destruct (pr s b t); cbn in H; auto.
  - intros v E. rewrite HM in E. apply els_some in E. apply (H _ E).
  - rewrite HM. apply els_none. auto.
  - intros v E. rewrite HS in E. apply els_some in E. apply (H _ E).
  - rewrite HS. apply els_none. auto.
Qed.
Lemma rel_finished l s s' : Rel s s' -> finished (typed l) s' <-> finished l s.
Proof.
  intros (_ & _ & HP). split; intros H b t Hb Ht; specialize (H b t Hb Ht).
  - rewrite HP in H. destruct (pr s b t); try discriminate. auto.
  - rewrite HP, H. reflexivity.
Qed.
Lemma rel_start l m : Rel (start l (els m)) (start (typed l) m).
Proof.
  split; [|split]; auto. cbn. apply functional_extensionality. intros b. apply functional_extensionality. intros a. unfold els. destruct (shar l a); reflexivity.
Qed.
Theorem typed_always (l : launch A) m Q : always l (els m) Q -> always (typed l) m (fun m' => Q (els m') /\ kept m m').
Proof.
  intros (HA & HT & HR).
  assert (KR : forall s', reach (typed l) (start (typed l) m) s' -> exists s, reach l (start l (els m)) s /\ Rel s s' /\ kept m (mem s')).
  { intros s' H. induction H as [|s' s1' H (s & R1 & R2 & R3) E]; [exists (start l (els m)); split; [constructor|split; [apply rel_start|apply kept_refl]]|].
    destruct (rel_forward l s s' s1' R2 (proj1 (HR s R1)) E) as (s1 & E1 & R4 & R5). exists s1. split; [|split]; auto; [econstructor; eauto|eapply kept_trans; eauto]. }
  split; [exact HA|]. split.
  - assert (K : forall s, Acc (fun s' s => step l s s') s -> reach l (start l (els m)) s -> forall s', Rel s s' -> Acc (fun s' s => step (typed l) s s') s').
    { intros s H. induction H as [s _ IH]. intros R s' HRel. constructor. intros s1' E. destruct (rel_forward l s s' s1' HRel (proj1 (HR s R)) E) as (s1 & E1 & R4 & _).
      apply (IH s1); auto. econstructor; eauto. }
    apply (K _ HT); [constructor|apply rel_start].
  - intros s' H. destruct (KR s' H) as (s & R1 & R2 & R3). destruct (HR s R1) as (B & P & F). split; [|split].
    + intros X. apply B. eapply rel_bad; eauto.
    + destruct P as [P|(s1 & E)]; [left; apply (rel_finished l s s' R2); auto|right; eapply rel_progress; eauto].
    + intros X. apply (rel_finished l s s' R2) in X. split; auto. destruct R2 as (<- & _). auto.
Qed.
Theorem typed_all (ls : list (launch A)) : forall m Q, always_all ls (els m) Q -> always_all (map typed ls) m (fun m' => Q (els m') /\ kept m m').
Proof.
  induction ls as [|l ls IH]; intros m Q H; cbn [map always_all] in *; [split; [exact H|apply kept_refl]|].
  eapply always_mono; [apply typed_always; exact H|]. intros m' (H1 & H2). eapply always_all_mono; [|apply IH; exact H1].
  intros m'' (H3 & H4). split; auto. eapply kept_trans; eauto.
Qed.
Lemma els_holds m p xs : holds m p (map El xs) <-> holds (els m) p xs.
Proof.
  split; intros H i; specialize (H i); unfold els in *.
  - rewrite H. destruct (i <? 0)%Z; auto. rewrite nth_error_map. destruct (nth_error xs (Z.to_nat i)); reflexivity.
  - rewrite nth_error_map. destruct (m (p, i)) as [[[x|z]|]|]; cbn in H; destruct (i <? 0)%Z; try congruence; destruct (nth_error xs (Z.to_nat i)); cbn; congruence.
Qed.
Lemma els_room m p n : room (els m) p n <-> room m p n.
Proof. unfold room. split; intros H i; rewrite <- H; [symmetry|]; apply els_none. Qed.
End Typed.
