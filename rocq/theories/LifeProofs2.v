(** Proofs: the backward pass of plain programs. *)
From Coq Require Import List Bool Arith Lia.
From Verif Require Import AutogradModel AutogradSpec AutogradProofs LifeModel LifeSpec LifeProofs.
Import ListNotations.

Definition Live (w : world) (u : nat) : Prop := exists m x, obj (metas w) m = Some x /\ mfn x = u.
Lemma live_func w s u : Inv w s -> Live w u -> exists y, obj (funcs w) u = Some y.
Proof. intros HI (m & x & E & <-). destruct (i_meta _ _ HI m x E) as ((y & Ey & _) & _). eauto. Qed.
Lemma good_in fl ms ts os g : Forall2 (goodT fl ms) ts os -> In (Some g) os -> exists t, In t ts /\ goodT fl ms t (Some g).
Proof.
  intros H. induction H as [|t o ts os Ht H IH]; [easy|]. intros [->|Ho].
  - exists t. cbn. auto.
  - destruct (IH Ho) as (t' & ? & ?). exists t'. cbn. auto.
Qed.
Lemma saved_live w s f x n : Inv w s -> obj (funcs w) f = Some x -> In n (fnexts x) -> Live w n.
Proof.
  intros HI E Hn. destruct (i_func _ _ HI f x E) as (_ & os & H1 & H2). rewrite H2 in Hn. apply in_flat_map in Hn as (o & Ho & Hn). destruct o as [g|]; [|easy]. destruct Hn as [->|[]].
  destruct (good_in _ _ _ _ _ H1 Ho) as (t & _ & _ & _ & m & y & _ & Ey & Em). exists m, y. auto.
Qed.
Lemma live_reach w s root v : Inv w s -> Live w root -> reach (graph_of s) root v -> Live w v.
Proof.
  intros HI HL H. revert v H. apply reach_ind'; auto. intros v u r fs _ IH E Hu. destruct (live_func _ _ _ HI IH) as (y & Ey).
  destruct (i_func _ _ HI v y Ey) as (E1 & _). rewrite E1 in E. injection E as <- <-. eapply saved_live; eauto.
Qed.
Lemma owner_unique w s m m' x x' y : Inv w s -> obj (metas w) m = Some x -> obj (metas w) m' = Some x' -> mfn x = mfn x' ->
  obj (funcs w) (mfn x) = Some y -> frule y <> Some NoRule -> m = m' /\ fowner y = m.
Proof.
  intros HI E E' Ef Ey Hr. destruct (i_meta _ _ HI m x E) as ((z & Ez & Hz) & _). destruct (i_meta _ _ HI m' x' E') as ((z' & Ez' & Hz') & _).
  rewrite Ey in Ez. injection Ez as <-. rewrite <- Ef, Ey in Ez'. injection Ez' as <-. rewrite <- (Hz Hr), <- (Hz' Hr). auto.
Qed.

Lemma Inv_remeta w s ms' : Inv w s ->
  (forall m x', obj ms' m = Some x' -> exists x, obj (metas w) m = Some x /\ mfn x' = mfn x /\ (morder x' = morder x \/ consumers_first (graph_of s) (mfn x) (morder x'))) ->
  (forall m x, obj (metas w) m = Some x -> exists x', obj ms' m = Some x' /\ mfn x' = mfn x) -> Inv (setMetas w ms') s.
Proof.
  intros [H1 H2 H3 H4 H5 H6 H7 H8 HL H9] K1 K2. constructor; auto; cbn [flags metas funcs vars calls setMetas].
  - intros v t E. destruct (H2 v t E) as (o & E1 & E2). exists o. split; auto. eapply goodT_mono; [..|exact E2]; eauto.
  - intros f x E. destruct (H4 f x E) as (E1 & os & E2 & E3). split; auto. exists os. split; auto. eapply Forall2_goodT_mono; [..|exact E2]; eauto.
  - intros m x' E. destruct (K1 m x' E) as (x & Ex & Ef & Eo). destruct (H5 m x Ex) as (G1 & G2). rewrite Ef. split; auto. destruct Eo as [->|Eo]; auto.
Qed.
Definition graded (x : meta) : meta := Meta (mfn x) (morder x) true.
Lemma addGrads_good : forall ts os w, Forall2 (goodT (flags w) (metas w)) ts os ->
  exists ms' ms, addGrads w ts = Some (setMetas w ms', ms)
  /\ (forall m, obj ms' m = option_map (fun x => if mem m ms then graded x else x) (obj (metas w) m))
  /\ Forall2 (fun n m => exists x, obj (metas w) m = Some x /\ mfn x = n) (flat_map opt_list os) ms.
Proof.
  induction ts as [|t ts IH]; intros os w H; inversion H as [|? o ? os' Ht HT]; subst; clear H; cbn [addGrads flat_map].
  - exists (metas w), []. split; [destruct w; reflexivity|]. split; auto. intros m. destruct (obj (metas w) m); auto.
  - destruct Ht as (Hl & Ht). unfold flag. destruct o as [f|].
    + destruct Ht as (-> & m & x & -> & Ex & Ef).
      set (w1 := setMetas w (modify (metas w) m (fun x => Meta (mfn x) (morder x) true))).
      destruct (IH os' w1) as (ms' & ms & E1 & E2 & E3).
      { eapply Forall2_goodT_mono; [..|exact HT]; auto. intros t' m' x' _ _ E. unfold w1. cbn. rewrite obj_modify. destruct (m' =? m) eqn:Em; [|eauto].
        apply Nat.eqb_eq in Em. subst m'. rewrite E. cbn. eauto. }
      rewrite E1. exists ms', (m :: ms). split; [reflexivity|]. split.
      * intros m'. rewrite E2. unfold w1. cbn [metas setMetas]. rewrite obj_modify. cbn [mem existsb]. destruct (m' =? m) eqn:Em.
        -- apply Nat.eqb_eq in Em. subst m'. rewrite Ex. cbn. unfold graded. cbn. destruct (mem m ms); auto.
        -- cbn. unfold mem. destruct (obj (metas w) m'); auto.
      * cbn. constructor; [eauto|]. clear - E3. induction E3 as [|n m' ns ms (y & Ey & En) H IH]; constructor; auto.
        unfold w1 in Ey. cbn in Ey. rewrite obj_modify in Ey. destruct (m' =? m) eqn:Em; [|eauto]. apply Nat.eqb_eq in Em. subst m'.
        destruct (obj (metas w) m) as [z|]; [|discriminate]. injection Ey as <-. cbn in En. eauto.
    + destruct Ht as (-> & _). destruct (IH os' w HT) as (ms' & ms & E1 & E2 & E3). exists ms', ms. auto.
Qed.
Lemma Inv_called w s f x m ms once : Inv w s -> obj (funcs w) f = Some x -> (once = true <-> frule x = Some Once) ->
  Inv (addCall (setFuncs w (modify (funcs w) f (fun x => Func (frule x) (fnexts x) (fsaved x) (fowner x) once))) (Call f m ms)) s.
Proof.
  intros [H1 H2 H3 H4 H5 H6 H7 H8 HL H9] Ex Ho. constructor; auto; cbn [flags metas funcs vars calls setFuncs addCall].
  - rewrite length_modify. auto.
  - intros g y E. rewrite obj_modify in E. destruct (g =? f) eqn:Eg; [|auto]. apply Nat.eqb_eq in Eg. subst g. rewrite Ex in E. injection E as <-. cbn. auto.
  - intros m' x' E. destruct (H5 m' x' E) as ((y & Ey & Hy) & G). split; auto. rewrite obj_modify. destruct (mfn x' =? f) eqn:Ef; [|eauto].
    apply Nat.eqb_eq in Ef. rewrite Ef in Ey. rewrite Ey. cbn. eexists. split; [reflexivity|]. cbn. auto.
  - intros g y E. rewrite map_app, in_app_iff. cbn [map cfn In]. rewrite obj_modify in E. destruct (g =? f) eqn:Eg.
    + apply Nat.eqb_eq in Eg. subst g. rewrite Ex in E. injection E as <-. cbn. rewrite Ho. tauto.
    + apply Nat.eqb_neq in Eg. rewrite (H6 g y E). intuition congruence.
  - intros c Hc. apply in_app_iff in Hc as [Hc|[<-|[]]]; auto. cbn. rewrite <- H3. eapply obj_lt; eauto.
  - intros g y E. rewrite obj_modify in E. destruct (g =? f) eqn:Eg; [|eauto]. apply Nat.eqb_eq in Eg. subst g. rewrite Ex in E. injection E as <-. cbn. eauto.
Qed.
Lemma Inv_grads w s ms ms' : Inv w s -> (forall m, obj ms' m = option_map (fun x => if mem m ms then graded x else x) (obj (metas w) m)) -> Inv (setMetas w ms') s.
Proof.
  intros HI H. apply Inv_remeta; auto.
  - intros m x' E. rewrite H in E. destruct (obj (metas w) m) as [x|]; [|discriminate]. injection E as <-. exists x. split; auto. destruct (mem m ms); auto.
  - intros m x E. rewrite H, E. cbn. eexists. split; [reflexivity|]. destruct (mem m ms); auto.
Qed.

(** The effect of one call on everything else. *)
Definition fkey (y : func) := (frule y, fnexts y, fowner y).
Definition after_calls (w w' : world) (cs : list call) : Prop :=
  flags w' = flags w /\ vars w' = vars w /\ calls w' = calls w ++ cs
  /\ (forall m, obj (metas w') m = option_map (fun x => if mem m (flat_map cto cs) then graded x else x) (obj (metas w) m))
  /\ (forall g, option_map fkey (obj (funcs w') g) = option_map fkey (obj (funcs w) g)).
Definition right_call (w : world) (s : story) (c : call) : Prop :=
  (exists x, obj (metas w) (cowner c) = Some x)
  /\ (exists y, obj (funcs w) (cfn c) = Some y /\ frule y <> Some NoRule /\ fowner y = cowner c)
  /\ exists r fs, nth_error (ops s) (cfn c) = Some (r, fs) /\ Forall2 (fun n m => exists x, obj (metas w) m = Some x /\ mfn x = n) fs (cto c).
Lemma runFunc_inv w s f w' : Inv w s -> runFunc w f = Some w' ->
  Inv w' s /\ (exists y, obj (funcs w) f = Some y /\ frule y <> Some NoRule /\ fspent y = false)
  /\ exists c, cfn c = f /\ after_calls w w' [c] /\ right_call w s c.
Proof.
  intros HI E. unfold runFunc in E. destruct (obj (funcs w) f) as [x|] eqn:Ex; [|discriminate]. destruct (obj (metas w) (fowner x)) as [o|] eqn:Eo; [|discriminate].
  destruct (i_func _ _ HI f x Ex) as (E1 & os & E2 & E3).
  assert (KL : frule x = None -> w' = addCall w (Call f (fowner x) []) -> Inv w' s /\ (exists y, Some x = Some y /\ frule y <> Some NoRule /\ fspent y = false) /\
    exists c, cfn c = f /\ after_calls w w' [c] /\ right_call w s c).
  { intros Er ->. split; [|split].
    - replace (addCall w (Call f (fowner x) [])) with (addCall (setFuncs w (modify (funcs w) f (fun x => Func (frule x) (fnexts x) (fsaved x) (fowner x) false))) (Call f (fowner x) [])).
      + apply (Inv_called w s f x); auto. rewrite Er. split; discriminate.
      + unfold addCall, setFuncs. cbn. f_equal. unfold modify. rewrite Ex. assert (Es : fspent x = false).
        { destruct (fspent x) eqn:Es; auto. apply (i_spent _ _ HI f x Ex) in Es as (Es & _). congruence. }
        rewrite <- Es. destruct x. cbn. clear - Ex. unfold obj in Ex. revert f Ex. induction (funcs w) as [|a l IH]; intros [|f] Ex; cbn in *; auto; try congruence. f_equal; auto.
    - exists x. split; auto. split; [congruence|]. destruct (fspent x) eqn:Es; auto. apply (i_spent _ _ HI f x Ex) in Es as (Es & _). congruence.
    - exists (Call f (fowner x) []). split; auto. split.
      + split; auto. split; auto. split; auto. split; auto. intros m. cbn. destruct (obj (metas w) m); auto.
      + split; [eauto|]. split; [exists x; split; auto; split; auto; congruence|]. exists (frule x), (fnexts x). split; auto. cbn. pose proof (i_leaf _ _ HI f x Ex Er) as Es. rewrite Es in E2. inversion E2; subst. rewrite E3. constructor. }
  assert (KO : forall r once, frule x = Some r -> r <> NoRule -> (once = true <-> r = Once) -> fspent x = false ->
    (match addGrads w (fsaved x) with
     | None => None
     | Some (w, ms) => Some (addCall (setFuncs w (modify (funcs w) f (fun x => Func (frule x) (fnexts x) (fsaved x) (fowner x) once))) (Call f (fowner x) ms))
     end) = Some w' -> Inv w' s /\ (exists y, Some x = Some y /\ frule y <> Some NoRule /\ fspent y = false) /\
    exists c, cfn c = f /\ after_calls w w' [c] /\ right_call w s c).
  { intros r once Er Hr Ho Es E'. destruct (addGrads_good _ _ w E2) as (ms' & ms & G1 & G2 & G3). rewrite G1 in E'. injection E' as <-. split; [|split].
    - refine (Inv_called (setMetas w ms') s f x (fowner x) ms once _ _ _).
      + eapply Inv_grads; eauto.
      + auto.
      + rewrite Er. split; intros K; [apply Ho in K; congruence|apply Ho; congruence].
    - exists x. split; auto. split; [congruence|auto].
    - exists (Call f (fowner x) ms). split; auto. split.
      + split; auto. split; auto. split; auto. cbn [flat_map cto app]. rewrite app_nil_r. split; auto. intros g. cbn [funcs addCall setFuncs setMetas]. rewrite obj_modify.
        destruct (g =? f) eqn:Eg; [|auto]. apply Nat.eqb_eq in Eg. subst g. rewrite Ex. reflexivity.
      + split; [eauto|]. split; [exists x; split; auto; split; auto; congruence|]. exists (frule x), (fnexts x). split; auto. cbn. rewrite E3. auto. }
  destruct (frule x) as [[]|] eqn:Er; try discriminate.
  - destruct (negb (mgrad o)); [discriminate|]. destruct (fspent x) eqn:Es; [discriminate|]. apply (KO Keeps false); auto; easy.
  - destruct (negb (mgrad o)); [discriminate|]. destruct (fspent x) eqn:Es; [discriminate|]. apply (KO Once true); auto; easy.
  - injection E as <-. apply KL; auto.
Qed.
Lemma runFunc_runs w s f x m o : Inv w s -> obj (funcs w) f = Some x -> frule x <> Some NoRule -> fspent x = false ->
  obj (metas w) m = Some o -> mfn o = f -> (frule x = None \/ mgrad o = true) -> exists w', runFunc w f = Some w'.
Proof.
  intros HI Ex Hr Hs Eo Ef Hg. unfold runFunc. rewrite Ex. destruct (i_meta _ _ HI m o Eo) as ((y & Ey & Hy) & _). rewrite Ef, Ex in Ey. injection Ey as <-.
  rewrite (Hy Hr), Eo. destruct (i_func _ _ HI f x Ex) as (_ & os & E2 & _). destruct (addGrads_good _ _ w E2) as (ms' & ms & G1 & _).
  destruct (frule x) as [[]|]; try (now destruct Hr); try (destruct Hg as [Hg|Hg]; [discriminate|]; rewrite Hg, Hs, G1; cbn); eauto.
Qed.
Lemma after_calls_trans w w1 w2 cs1 cs2 : after_calls w w1 cs1 -> after_calls w1 w2 cs2 -> after_calls w w2 (cs1 ++ cs2).
Proof.
  intros (A1 & A2 & A3 & A4 & A5) (B1 & B2 & B3 & B4 & B5). split; [congruence|]. split; [congruence|]. split; [rewrite B3, A3, app_assoc; auto|]. split.
  - intros m. rewrite B4, A4. destruct (obj (metas w) m) as [x|]; auto. cbn. f_equal. rewrite flat_map_app. unfold mem. rewrite existsb_app.
    destruct (existsb (Nat.eqb m) (flat_map cto cs1)), (existsb (Nat.eqb m) (flat_map cto cs2)); auto.
  - intros g. rewrite B5. apply A5.
Qed.
Lemma after_calls_nil w : after_calls w w [].
Proof.
  split; auto. split; auto. split; [rewrite app_nil_r; auto|]. split; auto. intros m. cbn. destruct (obj (metas w) m); auto.
Qed.
Lemma after_meta w w' cs m x : after_calls w w' cs -> obj (metas w') m = Some x -> exists x0, obj (metas w) m = Some x0 /\ mfn x = mfn x0.
Proof.
  intros (_ & _ & _ & A & _) E. rewrite A in E. destruct (obj (metas w) m) as [x0|]; [|discriminate]. injection E as <-. exists x0. split; auto. destruct (mem m (flat_map cto cs)); auto.
Qed.
Lemma right_call_back w w' s c cs : Inv w s -> after_calls w w' cs -> right_call w' s c -> right_call w s c.
Proof.
  intros HI A ((x & Ex) & (y & Ey & Hr & Ho) & r & fs & E & H). destruct (after_meta _ _ _ _ _ A Ex) as (x0 & Ex0 & _). split; [eauto|]. split.
  - destruct A as (_ & _ & _ & _ & A). specialize (A (cfn c)). rewrite Ey in A. destruct (obj (funcs w) (cfn c)) as [y0|]; [|discriminate]. injection A as A1 A2 A3.
    exists y0. split; auto. split; congruence.
  - exists r, fs. split; auto. clear E. induction H as [|n m ns ms (z & Ez & En) H IH]; constructor; auto. destruct (after_meta _ _ _ _ _ A Ez) as (z0 & Ez0 & Em). exists z0. split; auto. congruence.
Qed.
