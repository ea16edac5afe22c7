(** Proofs: SmallVector refines lists. *)
From Coq Require Import List Bool Arith Lia.
From Verif Require Import SVecModel SVecSpec.
Import ListNotations.

Section P.
  Context {A : Type} (dflt : A) (eqb : A -> A -> bool) (N : nat).
  Notation cell := (@cell A).
  Notation state := (@state A).
  Notation dead := (@Dead A).

  (** * Cells *)
  Lemma putc_at : forall (p : list cell) c q x i, i = length p -> putc (p ++ c :: q) i x = p ++ x :: q.
  Proof.
    intros p c q x i ->. unfold putc. rewrite firstn_app, skipn_app, firstn_all, skipn_all, Nat.sub_diag.
    cbn. rewrite app_nil_r. reflexivity.
  Qed.
  Lemma nth_at : forall {B} (p : list B) c q i, i = length p -> nth_error (p ++ c :: q) i = Some c.
  Proof. intros B p c q i ->. rewrite nth_error_app2, Nat.sub_diag by lia. reflexivity. Qed.
  Lemma constructAll_ok : forall l (p q : list cell) i, i = length p ->
    constructAll (p ++ repeat dead (length l) ++ q) i l = Some (p ++ map Val l ++ q).
  Proof.
    induction l as [|a l IH]; intros p q i Hi; [reflexivity|].
    cbn [length repeat constructAll app map]. unfold construct. rewrite (nth_at p dead _ i Hi). rewrite (putc_at p dead _ (Val a) i Hi).
    replace (p ++ Val a :: repeat dead (length l) ++ q) with ((p ++ [Val a]) ++ repeat dead (length l) ++ q) by (rewrite <- app_assoc; reflexivity).
    rewrite IH by (rewrite app_length; cbn; lia). rewrite <- app_assoc. reflexivity.
  Qed.
  Lemma destroyN_ok : forall live (p q : list cell) i n, i = length p -> n = length live -> Forall (fun c => c <> dead) live ->
    destroyN (p ++ live ++ q) i n = Some (p ++ repeat dead (length live) ++ q).
  Proof.
    induction live as [|c live IH]; intros p q i n Hi -> F; [reflexivity|].
    cbn [length repeat destroyN app]. inversion F as [|? ? F1 F2]; subst.
    unfold destroy. rewrite (nth_at p c _ _ eq_refl), (putc_at p c _ dead _ eq_refl).
    replace (p ++ dead :: live ++ q) with ((p ++ [dead]) ++ live ++ q) by (rewrite <- app_assoc; reflexivity).
    replace (p ++ dead :: repeat dead (length live) ++ q) with ((p ++ [dead]) ++ repeat dead (length live) ++ q) by (rewrite <- app_assoc; reflexivity).
    destruct c; [congruence| |]; apply IH; auto; rewrite app_length; cbn; lia.
  Qed.
  Lemma readN_ok : forall l (p q : list cell) i n, i = length p -> n = length l -> readN (p ++ map Val l ++ q) i n = Some l.
  Proof.
    induction l as [|a l IH]; intros p q i n Hi ->; [reflexivity|].
    cbn [length readN map app]. unfold read. rewrite (nth_at p (Val a) _ i Hi).
    replace (p ++ Val a :: map Val l ++ q) with ((p ++ [Val a]) ++ map Val l ++ q) by (rewrite <- app_assoc; reflexivity).
    rewrite IH; [reflexivity|rewrite app_length; cbn; lia|reflexivity].
  Qed.
  Lemma moveN_ok : forall l (p q : list cell) i n, i = length p -> n = length l ->
    moveN (p ++ map Val l ++ q) i n = Some (l, p ++ repeat Moved (length l) ++ q).
  Proof.
    induction l as [|a l IH]; intros p q i n Hi ->; [reflexivity|].
    cbn [length moveN map app repeat]. unfold moveOut. rewrite (nth_at p (Val a) _ i Hi), (putc_at p (Val a) _ Moved i Hi).
    replace (p ++ Moved :: map Val l ++ q) with ((p ++ [Moved]) ++ map Val l ++ q) by (rewrite <- app_assoc; reflexivity).
    rewrite IH; [|rewrite app_length; cbn; lia|reflexivity]. rewrite <- app_assoc. reflexivity.
  Qed.
  Lemma shift_ok : forall l (p q : list cell) i n, i = length p + length l -> n = length l ->
    shift (p ++ map Val l ++ Moved :: q) i n = Some (p ++ Moved :: map Val l ++ q).
  Proof.
    intros l. induction l as [|z l IH] using rev_ind; intros p q i n Hi ->; [reflexivity|].
    rewrite app_length in *. cbn [length] in *. replace (length l + 1) with (S (length l)) by lia. cbn [shift].
    rewrite map_app. cbn [map]. rewrite <- !app_assoc. cbn [app].
    unfold moveOut. rewrite app_assoc.
    rewrite (nth_at (p ++ map Val l) (Val z)) by (rewrite app_length, map_length; lia).
    rewrite (putc_at (p ++ map Val l) (Val z)) by (rewrite app_length, map_length; lia).
    cbn [bind fst snd]. unfold assign.
    replace ((p ++ map Val l) ++ Moved :: Moved :: q) with ((p ++ map Val l ++ [Moved]) ++ Moved :: q) by (rewrite <- !app_assoc; reflexivity).
    rewrite (nth_at (p ++ map Val l ++ [Moved]) Moved) by (rewrite !app_length, map_length; cbn; lia).
    rewrite (putc_at (p ++ map Val l ++ [Moved]) Moved) by (rewrite !app_length, map_length; cbn; lia).
    cbn [bind]. replace ((p ++ map Val l ++ [Moved]) ++ Val z :: q) with (p ++ map Val l ++ Moved :: Val z :: q) by (rewrite <- !app_assoc; reflexivity).
    rewrite (IH p (Val z :: q)) by lia. reflexivity.
  Qed.
  Lemma read_val : forall l k i (a : A), nth_error l i = Some a -> read (map Val l ++ repeat dead k) i = Some a.
  Proof.
    intros l k i a H. unfold read. assert (i < length l) by (apply nth_error_Some; congruence).
    rewrite nth_error_app1 by (rewrite map_length; lia). rewrite (map_nth_error _ _ _ H). reflexivity.
  Qed.
  Lemma vals_live : forall l : list A, Forall (fun c => c <> dead) (map Val l).
  Proof. intros l. apply Forall_forall. intros c H. apply in_map_iff in H. destruct H as (a & <- & _). discriminate. Qed.
  Lemma moved_live : forall n, Forall (fun c => c <> dead) (repeat Moved n).
  Proof. intros n. apply Forall_forall. intros c H. apply repeat_spec in H. subst. discriminate. Qed.
  Lemma repeat_split : forall {B} (x : B) a b, repeat x (a + b) = repeat x a ++ repeat x b.
  Proof. intros B x a b. apply repeat_app. Qed.

  (** * The representation *)
  Definition image (l : list A) (cap : nat) : list cell := map Val l ++ repeat dead (cap - length l).
  Definition vec_ok (s : state) (x : vec) (l : list A) : Prop :=
    vsize x = length l /\ length l <= vcap x /\ N <= vcap x /\ cells s x = Some (image l (vcap x)) /\
    (vptr x = None -> vcap x = N) /\ (vptr x <> None -> vinl x = repeat dead N).
  Definition rel (s : state) (m : @lists A) : Prop :=
    (forall v, match vecs s v, m v with Some x, Some l => vec_ok s x l | None, None => True | _, _ => False end) /\
    (forall v w x y h, vecs s v = Some x -> vecs s w = Some y -> vptr x = Some h -> vptr y = Some h -> v = w) /\
    (forall h c, heap s h = Some c -> exists v x, vecs s v = Some x /\ vptr x = Some h) /\
    (forall h c, heap s h = Some c -> h < nextb s).

  Lemma upd_same : forall {B} (f : nat -> B) k x, upd f k x k = x.
  Proof. intros. unfold upd. rewrite Nat.eqb_refl. reflexivity. Qed.
  Lemma upd_other : forall {B} (f : nat -> B) k x j, j <> k -> upd f k x j = f j.
  Proof. intros. unfold upd. destruct (Nat.eqb_spec j k); congruence. Qed.

  Lemma vec_ok_heap : forall s s' x l, vec_ok s x l -> (forall h, vptr x = Some h -> heap s' h = heap s h) -> vec_ok s' x l.
  Proof.
    intros s s' x l (a & b & c & d & e & f) H. unfold vec_ok in *. repeat (split; [assumption|]).
    split; [|split; assumption]. unfold cells in *. destruct (vptr x) as [h|]; [rewrite H by reflexivity|]; exact d.
  Qed.
  Lemma rel_ext : forall s s' m m', rel s m -> (forall v, vecs s' v = vecs s v) -> (forall h, heap s' h = heap s h) -> nextb s' = nextb s ->
    (forall v, m' v = m v) -> rel s' m'.
  Proof.
    intros s s' m m' (r1 & r2 & r3 & r4) Hv Hh Hn Hm. split; [|split; [|split]].
    - intros v. rewrite Hv, Hm. specialize (r1 v). destruct (vecs s v), (m v); auto. apply (vec_ok_heap s); auto.
    - intros v w x y h. rewrite !Hv. apply r2.
    - intros h c. rewrite Hh. intros H. destruct (r3 h c H) as (v & x & Q & Q'). exists v, x. rewrite Hv. auto.
    - intros h c. rewrite Hh, Hn. apply r4.
  Qed.
  Lemma rel_get : forall s m v l, rel s m -> m v = Some l -> exists x, vecs s v = Some x /\ vec_ok s x l.
  Proof. intros s m v l (r1 & _) H. specialize (r1 v). rewrite H in r1. destruct (vecs s v) as [x|]; [eauto|contradiction]. Qed.
  Lemma rel_absent : forall s m v, rel s m -> m v = None -> vecs s v = None.
  Proof. intros s m v (r1 & _) H. specialize (r1 v). rewrite H in r1. destruct (vecs s v); [contradiction|reflexivity]. Qed.

  (** Replacing the elements of a vector in place. *)
  Lemma rel_store : forall s m v x l l', rel s m -> vecs s v = Some x -> m v = Some l -> length l' <= vcap x ->
    rel (store s v (withSize x (length l')) (image l' (vcap x))) (upd m v (Some l')).
  Proof.
    intros s m v x l l' R Hx Hm Hl. destruct R as (r1 & r2 & r3 & r4).
    pose proof (r1 v) as Q. rewrite Hx, Hm in Q. destruct Q as (a & b & c & d & e & f).
    unfold store. destruct (vptr x) as [h|] eqn:Hp; unfold withSize; cbn [vptr vsize vcap vinl]; rewrite ?Hp.
    - assert (Hh : exists c0, heap s h = Some c0) by (unfold cells in d; rewrite Hp in d; eauto). destruct Hh as (c0 & Hh).
      split; [|split; [|split]]; cbn [vecs heap nextb].
      + intros w. destruct (Nat.eq_dec w v) as [->|Hn].
        * rewrite !upd_same. unfold vec_ok, cells. cbn [vsize vcap vptr vinl heap]. rewrite ?Hp, upd_same. repeat split; auto; try congruence.
        * rewrite !upd_other by exact Hn. specialize (r1 w). destruct (vecs s w) as [y|] eqn:Hy, (m w); auto.
          apply (vec_ok_heap s); [exact r1|]. intros h' Hh'. cbn [heap]. apply upd_other. intros ->. apply Hn. apply (r2 w v y x h); auto.
      + intros w w' y y' h' H1 H2 H3 H4. destruct (Nat.eq_dec w v) as [->|N1], (Nat.eq_dec w' v) as [->|N2]; auto.
        * rewrite upd_same in H1. rewrite upd_other in H2 by exact N2. injection H1 as <-. apply (r2 v w' x y' h'); auto. rewrite Hp. exact H3.
        * rewrite upd_same in H2. rewrite upd_other in H1 by exact N1. injection H2 as <-. apply (r2 w v y x h'); auto. rewrite Hp. exact H4.
        * rewrite upd_other in H1 by exact N1. rewrite upd_other in H2 by exact N2. apply (r2 w w' y y' h'); auto.
      + intros h' c' H'. destruct (Nat.eq_dec h' h) as [->|Nh].
        * exists v, (mkVec (length l') (vcap x) (Some h) (vinl x)). rewrite upd_same, ?Hp. split; reflexivity.
        * rewrite upd_other in H' by exact Nh. destruct (r3 _ _ H') as (w & y & Q1 & Q2). exists w, y. split; [|exact Q2].
          rewrite upd_other; [exact Q1|]. intros ->. rewrite Hx in Q1. injection Q1 as <-. congruence.
      + intros h' c' H'. destruct (Nat.eq_dec h' h) as [->|Nh]; [apply (r4 h c0 Hh)|]. rewrite upd_other in H' by exact Nh. apply (r4 h' c' H').
    - split; [|split; [|split]]; cbn [vecs heap nextb].
      + intros w. destruct (Nat.eq_dec w v) as [->|Hn].
        * rewrite !upd_same. unfold vec_ok, cells. cbn [vsize vcap vptr vinl]. repeat split; auto. congruence.
        * rewrite !upd_other by exact Hn. specialize (r1 w). destruct (vecs s w) as [y|] eqn:Hy, (m w); auto.
      + intros w w' y y' h' H1 H2 H3 H4. destruct (Nat.eq_dec w v) as [->|N1], (Nat.eq_dec w' v) as [->|N2]; auto.
        * rewrite upd_same in H1. injection H1 as <-. discriminate.
        * rewrite upd_same in H2. injection H2 as <-. discriminate.
        * rewrite upd_other in H1 by exact N1. rewrite upd_other in H2 by exact N2. apply (r2 w w' y y' h'); auto.
      + intros h' c' H'. destruct (r3 _ _ H') as (w & y & Q1 & Q2). exists w, y. split; [|exact Q2].
        rewrite upd_other; [exact Q1|]. intros ->. rewrite Hx in Q1. injection Q1 as <-. congruence.
      + exact r4.
  Qed.
  Lemma store_others : forall (s : state) v x c w, w <> v -> vecs (store s v x c) w = vecs s w.
  Proof. intros s v x c w H. unfold store. destruct (vptr x); cbn [vecs]; apply upd_other; exact H. Qed.
  Lemma store_same : forall (s : state) v x c, exists x', vecs (store s v x c) v = Some x' /\ vcap x' = vcap x /\ vsize x' = vsize x /\ vptr x' = vptr x.
  Proof.
    intros s v x c. unfold store. destruct (vptr x) as [h|] eqn:E; cbn [vecs]; rewrite upd_same; eexists; (split; [reflexivity|]); auto.
  Qed.

  (** * Growing *)
  Lemma growTo_ok : forall s m v l newCap, rel s m -> m v = Some l -> length l <= newCap -> N <= newCap ->
    exists s', growTo s v newCap = Some s' /\ rel s' m /\ (exists x', vecs s' v = Some x' /\ vcap x' = newCap /\ vsize x' = length l) /\
      forall w, w <> v -> vecs s' w = vecs s w.
  Proof.
    intros s m v l newCap R Hm Hl HN. destruct (rel_get _ _ _ _ R Hm) as (x & Hx & (a & b & c & d & e & f)).
    unfold growTo. rewrite Hx, d. unfold image at 1.
    pose proof (moveN_ok l [] (repeat dead (vcap x - length l)) 0 (vsize x) eq_refl a) as Hv. cbn [app] in Hv. rewrite Hv.
    assert (Er : repeat dead newCap = repeat dead (length l) ++ repeat dead (newCap - length l)) by (rewrite <- repeat_split; f_equal; lia).
    rewrite Er.
    pose proof (constructAll_ok l [] (repeat dead (newCap - length l)) 0 eq_refl) as Hc. cbn [app] in Hc. rewrite Hc.
    pose proof (destroyN_ok (repeat Moved (length l)) [] (repeat dead (vcap x - length l)) 0 (vsize x) eq_refl) as Hd. cbn [app] in Hd.
    rewrite Hd by (rewrite ?repeat_length; auto using moved_live). rewrite repeat_length. clear Hc Hd.
    rewrite <- repeat_split. replace (length l + (vcap x - length l)) with (vcap x) by lia.
    destruct R as (r1 & r2 & r3 & r4). cbv zeta. unfold store, freeData. destruct (vptr x) as [h|] eqn:Hp; cbn [vecs heap nextb].
    - eexists. split; [reflexivity|]. split; [|split; [cbn [vecs]; rewrite upd_same; eexists; split; [reflexivity|]; split; [reflexivity|exact a]|intros w Hw; cbn [vecs]; rewrite !upd_other by exact Hw; reflexivity]].
      assert (Hh : heap s h = Some (image l (vcap x))) by (unfold cells in d; rewrite Hp in d; exact d).
      assert (Hb : h < nextb s) by (apply (r4 _ _ Hh)).
      split; [|split; [|split]]; cbn [vecs heap nextb].
      + intros w. destruct (Nat.eq_dec w v) as [->|Hn].
        * rewrite upd_same, Hm. unfold vec_ok, cells. cbn [vsize vcap vptr vinl heap]. rewrite upd_same. repeat split; auto; try congruence.
          intros _. apply f. congruence.
        * rewrite !upd_other by exact Hn. specialize (r1 w). destruct (vecs s w) as [y|] eqn:Hy, (m w); auto.
          apply (vec_ok_heap s); [exact r1|]. intros h' Hh'. cbn [heap].
          assert (h' <> h) by (intros ->; apply Hn; apply (r2 w v y x h); auto).
          assert (h' < nextb s).
          { destruct r1 as (_ & _ & _ & d' & _). unfold cells in d'. rewrite Hh' in d'. apply (r4 _ _ d'). }
          rewrite !upd_other by lia. reflexivity.
      + intros w w' y y' h' H1 H2 H3 H4.
        assert (K : forall w y h', vecs s w = Some y -> vptr y = Some h' -> h' < nextb s).
        { intros w0 y0 h0 Q1 Q2. specialize (r1 w0). rewrite Q1 in r1. destruct (m w0); [|contradiction]. destruct r1 as (_ & _ & _ & d' & _).
          unfold cells in d'. rewrite Q2 in d'. apply (r4 _ _ d'). }
        destruct (Nat.eq_dec w v) as [->|N1], (Nat.eq_dec w' v) as [->|N2]; auto.
        * rewrite upd_same in H1. rewrite !upd_other in H2 by exact N2. injection H1 as <-. cbn in H3. injection H3 as <-. specialize (K _ _ _ H2 H4). lia.
        * rewrite upd_same in H2. rewrite !upd_other in H1 by exact N1. injection H2 as <-. cbn in H4. injection H4 as <-. specialize (K _ _ _ H1 H3). lia.
        * rewrite !upd_other in H1 by exact N1. rewrite !upd_other in H2 by exact N2. apply (r2 w w' y y' h'); auto.
      + intros h' c' H'. destruct (Nat.eq_dec h' (nextb s)) as [->|Nh].
        * exists v. rewrite upd_same. eexists. split; reflexivity.
        * rewrite upd_other in H' by exact Nh. destruct (Nat.eq_dec h' h) as [->|Nh2]; [rewrite upd_same in H'; discriminate|].
          rewrite !upd_other in H' by exact Nh2. destruct (r3 _ _ H') as (w & y & Q1 & Q2). exists w, y. split; [|exact Q2].
          assert (w <> v) by (intros ->; rewrite Hx in Q1; injection Q1 as <-; congruence). rewrite !upd_other by assumption. exact Q1.
      + intros h' c' H'. destruct (Nat.eq_dec h' (nextb s)) as [->|Nh]; [lia|]. rewrite upd_other in H' by exact Nh.
        destruct (Nat.eq_dec h' h) as [->|Nh2]; [lia|]. rewrite !upd_other in H' by exact Nh2. specialize (r4 _ _ H'). lia.
    - eexists. split; [reflexivity|]. split; [|split; [cbn [vecs]; rewrite upd_same; eexists; split; [reflexivity|]; split; [reflexivity|exact a]|intros w Hw; cbn [vecs]; rewrite !upd_other by exact Hw; reflexivity]].
      split; [|split; [|split]]; cbn [vecs heap nextb].
      + intros w. destruct (Nat.eq_dec w v) as [->|Hn].
        * rewrite upd_same, Hm. unfold vec_ok, cells. cbn [vsize vcap vptr vinl heap]. rewrite upd_same. repeat split; auto; try congruence.
        * rewrite !upd_other by exact Hn. specialize (r1 w). destruct (vecs s w) as [y|] eqn:Hy, (m w); auto.
          apply (vec_ok_heap s); [exact r1|]. intros h' Hh'. cbn [heap].
          assert (h' < nextb s).
          { destruct r1 as (_ & _ & _ & d' & _). unfold cells in d'. rewrite Hh' in d'. apply (r4 _ _ d'). }
          rewrite !upd_other by lia. reflexivity.
      + intros w w' y y' h' H1 H2 H3 H4.
        assert (K : forall w y h', vecs s w = Some y -> vptr y = Some h' -> h' < nextb s).
        { intros w0 y0 h0 Q1 Q2. specialize (r1 w0). rewrite Q1 in r1. destruct (m w0); [|contradiction]. destruct r1 as (_ & _ & _ & d' & _).
          unfold cells in d'. rewrite Q2 in d'. apply (r4 _ _ d'). }
        destruct (Nat.eq_dec w v) as [->|N1], (Nat.eq_dec w' v) as [->|N2]; auto.
        * rewrite upd_same in H1. rewrite !upd_other in H2 by exact N2. injection H1 as <-. cbn in H3. injection H3 as <-. specialize (K _ _ _ H2 H4). lia.
        * rewrite upd_same in H2. rewrite !upd_other in H1 by exact N1. injection H2 as <-. cbn in H4. injection H4 as <-. specialize (K _ _ _ H1 H3). lia.
        * rewrite !upd_other in H1 by exact N1. rewrite !upd_other in H2 by exact N2. apply (r2 w w' y y' h'); auto.
      + intros h' c' H'. destruct (Nat.eq_dec h' (nextb s)) as [->|Nh].
        * exists v. rewrite upd_same. eexists. split; reflexivity.
        * rewrite upd_other in H' by exact Nh. destruct (r3 _ _ H') as (w & y & Q1 & Q2). exists w, y. split; [|exact Q2].
          assert (w <> v) by (intros ->; rewrite Hx in Q1; injection Q1 as <-; congruence). rewrite !upd_other by assumption. exact Q1.
      + intros h' c' H'. destruct (Nat.eq_dec h' (nextb s)) as [->|Nh]; [lia|]. rewrite upd_other in H' by exact Nh. specialize (r4 _ _ H'). lia.
  Qed.
End P.
