(** Proofs: each member function of SmallVector, then whole programs. *)
From Coq Require Import List Bool Arith Lia.
From Verif Require Import SVecModel SVecSpec SVecProofs.
Import ListNotations.

Section P.
  Context {A : Type} (dflt : A) (eqb : A -> A -> bool) (N : nat).
  Hypothesis Npos : 0 < N.
  Notation cell := (@cell A).
  Notation state := (@state A).
  Notation dead := (@Dead A).
  Notation rel := (@rel A N).
  Notation vec_ok := (@vec_ok A N).

  Definition others (s s' : state) (v : nat) : Prop := forall w, w <> v -> vecs s' w = vecs s w.

  Lemma reserve_ok : forall s m v l n, rel s m -> m v = Some l ->
    exists s', reserve s v n = Some s' /\ rel s' m /\ (exists x', vecs s' v = Some x' /\ n <= vcap x' /\ vsize x' = length l) /\ others s s' v.
  Proof.
    intros s m v l n R Hm. destruct (rel_get _ _ _ _ _ R Hm) as (x & Hx & (a & b & c & d & e & f)). unfold reserve. rewrite Hx.
    destruct (vcap x <? n) eqn:E.
    - apply Nat.ltb_lt in E. destruct (growTo_ok N s m v l n R Hm) as (s' & G & R' & (x' & Q1 & Q2 & Q3) & O); [lia|lia|].
      exists s'. split; [exact G|]. split; [exact R'|]. split; [exists x'; repeat split; auto; lia|exact O].
    - apply Nat.ltb_ge in E. exists s. split; [reflexivity|]. split; [exact R|]. split; [exists x; auto|intros w _; reflexivity].
  Qed.
  Lemma growIfFull_ok : forall s m v l, rel s m -> m v = Some l ->
    exists s', growIfFull s v = Some s' /\ rel s' m /\ (exists x', vecs s' v = Some x' /\ length l < vcap x' /\ vsize x' = length l) /\ others s s' v.
  Proof.
    intros s m v l R Hm. destruct (rel_get _ _ _ _ _ R Hm) as (x & Hx & (a & b & c & d & e & f)). unfold growIfFull. rewrite Hx.
    destruct (vsize x =? vcap x) eqn:E.
    - apply Nat.eqb_eq in E. destruct (growTo_ok N s m v l (vcap x * 2) R Hm) as (s' & G & R' & (x' & Q1 & Q2 & Q3) & O); [lia|lia|].
      exists s'. split; [exact G|]. split; [exact R'|]. split; [exists x'; repeat split; auto; lia|exact O].
    - apply Nat.eqb_neq in E. exists s. split; [reflexivity|]. split; [exact R|]. split; [exists x; repeat split; auto; lia|intros w _; reflexivity].
  Qed.
  Lemma clear_ok : forall s m v l, rel s m -> m v = Some l ->
    exists s' x', clear s v = Some s' /\ rel s' (upd m v (Some [])) /\ others s s' v /\ vecs s' v = Some x' /\ vsize x' = 0.
  Proof.
    intros s m v l R Hm. destruct (rel_get _ _ _ _ _ R Hm) as (x & Hx & (a & b & c & d & e & f)). unfold clear. rewrite Hx, d. unfold image.
    pose proof (destroyN_ok (map Val l) [] (repeat dead (vcap x - length l)) 0 (vsize x) eq_refl) as Q. cbn [app] in Q.
    rewrite Q by (rewrite ?map_length; auto using vals_live). rewrite map_length, <- repeat_split. clear Q.
    replace (length l + (vcap x - length l)) with (vcap x) by lia.
    assert (Ei : repeat dead (vcap x) = image [] (vcap x)) by (unfold image; cbn; rewrite Nat.sub_0_r; reflexivity). rewrite Ei.
    destruct (store_same s v (withSize x 0) (image [] (vcap x))) as (x' & E1 & _ & E2 & _).
    eexists. exists x'. split; [reflexivity|]. split; [apply (rel_store N s m v x l []); auto; cbn; lia|].
    split; [intros w Hw; apply store_others; exact Hw|]. auto.
  Qed.
  Lemma fillFrom_ok : forall s m v l x k from n, rel s m -> m v = Some l -> vecs s v = Some x -> length l + length k <= vcap x ->
    from = length l -> n = length l + length k ->
    exists s', fillFrom s v from k n = Some s' /\ rel s' (upd m v (Some (l ++ k))) /\ others s s' v.
  Proof.
    intros s m v l x k from n R Hm Hx Hc -> ->. destruct (rel_get _ _ _ _ _ R Hm) as (x0 & Hx0 & (a & b & c & d & e & f)).
    replace x0 with x in * by congruence. clear x0 Hx0. unfold fillFrom. rewrite Hx, d. unfold image.
    assert (Er : repeat dead (vcap x - length l) = repeat dead (length k) ++ repeat dead (vcap x - length l - length k)) by (rewrite <- repeat_split; f_equal; lia).
    rewrite Er, (constructAll_ok k (map Val l)) by (rewrite map_length; reflexivity).
    assert (Ei : map Val l ++ map Val k ++ repeat dead (vcap x - length l - length k) = image (l ++ k) (vcap x)).
    { unfold image. rewrite map_app, app_length, <- app_assoc. do 3 f_equal. lia. }
    rewrite Ei. eexists. split; [reflexivity|]. split; [|intros w Hw; apply store_others; exact Hw].
    rewrite <- app_length. apply (rel_store N s m v x l (l ++ k)); auto. rewrite app_length. lia.
  Qed.
  Lemma newVec_ok : forall s m v, rel s m -> m v = None ->
    exists s', newVec N s v = Some s' /\ rel s' (upd m v (Some [])) /\ others s s' v.
  Proof.
    intros s m v R Hm. pose proof (rel_absent _ _ _ _ R Hm) as Hx. unfold newVec. rewrite Hx. eexists. split; [reflexivity|].
    split; [|intros w Hw; cbn [vecs]; apply upd_other; exact Hw].
    destruct R as (r1 & r2 & r3 & r4). split; [|split; [|split]]; cbn [vecs heap nextb].
    - intros w. destruct (Nat.eq_dec w v) as [->|Hn].
      + rewrite !upd_same. unfold fresh, SVecProofs.vec_ok, cells, image. cbn. rewrite Nat.sub_0_r. repeat split; auto; lia || congruence.
      + rewrite !upd_other by exact Hn. specialize (r1 w). destruct (vecs s w), (m w); auto.
    - intros w w' y y' h' H1 H2 H3 H4. destruct (Nat.eq_dec w v) as [->|N1], (Nat.eq_dec w' v) as [->|N2]; auto.
      + rewrite upd_same in H1. injection H1 as <-. discriminate.
      + rewrite upd_same in H2. injection H2 as <-. discriminate.
      + rewrite upd_other in H1 by exact N1. rewrite upd_other in H2 by exact N2. apply (r2 w w' y y' h'); auto.
    - intros h' c' H'. destruct (r3 _ _ H') as (w & y & Q1 & Q2). exists w, y. split; [|exact Q2].
      rewrite upd_other; [exact Q1|]. intros ->. congruence.
    - exact r4.
  Qed.
  Lemma contents_ok : forall s m w l, rel s m -> m w = Some l -> contents s w = Some l.
  Proof.
    intros s m w l R Hm. destruct (rel_get _ _ _ _ _ R Hm) as (x & Hx & (a & b & c & d & _)). unfold contents. rewrite Hx. cbn [bind]. rewrite d. cbn [bind].
    unfold image. pose proof (readN_ok l [] (repeat dead (vcap x - length l)) 0 (vsize x) eq_refl a) as Q. exact Q.
  Qed.
  (** References to another vector survive a change of [v]. *)
  Lemma deref_ok : forall s m s' m' v r a, rel s m -> value m v r = Some a -> rel s' m' -> others s s' v -> (forall w, w <> v -> m' w = m w) ->
    exists p, locOf s r = Some p /\ deref s' p = Some a.
  Proof.
    intros s m s' m' v r a R Hr R' O Hm. destruct r as [b|w i]; cbn [value locOf] in *.
    - exists (LLit b). split; [reflexivity|]. cbn. exact Hr.
    - destruct (Nat.eqb_spec w v) as [|Hn]; [discriminate|]. destruct (m w) as [l|] eqn:E; [|discriminate].
      destruct (rel_get _ _ _ _ _ R E) as (x & Hx & _). rewrite Hx. eexists. split; [reflexivity|].
      rewrite <- (Hm w Hn) in E. destruct (rel_get _ _ _ _ _ R' E) as (x' & Hx' & (_ & _ & _ & d & _)).
      rewrite (O w Hn), Hx in Hx'. injection Hx' as <-. unfold cells in d.
      destruct (vptr x) as [h|] eqn:Ep; cbn [deref].
      + rewrite d. apply read_val. exact Hr.
      + rewrite (O w Hn), Hx. injection d as ->. apply read_val. exact Hr.
  Qed.
  Lemma locOf_others : forall (s s' : state) m v r a, value m v r = Some a -> others s s' v -> locOf s' r = locOf s r.
  Proof.
    intros s s' m v r a H O. destruct r as [b|w i]; [reflexivity|]. cbn in *. destruct (Nat.eqb_spec w v); [discriminate|]. rewrite O by assumption. reflexivity.
  Qed.
  Lemma value_upd : forall (m : @lists A) v o r, value (upd m v o) v r = value m v r.
  Proof. intros m v o [a|w i]; [reflexivity|]. cbn. destruct (Nat.eqb_spec w v); [reflexivity|]. rewrite upd_other by assumption. reflexivity. Qed.
  Lemma rel_upd_eq : forall s (m m' : @lists A), rel s m -> (forall v, m' v = m v) -> rel s m'.
  Proof. intros s m m' R H. apply (rel_ext N s s m m'); auto. Qed.
  Lemma upd_upd : forall {B} (f : nat -> B) k x y j, upd (upd f k x) k y j = upd f k y j.
  Proof. intros. unfold upd. destruct (j =? k); reflexivity. Qed.
  Lemma upd_id : forall {B} (f : nat -> B) k x j, f k = x -> upd f k x j = f j.
  Proof. intros B f k x j H. unfold upd. destruct (Nat.eqb_spec j k); congruence. Qed.
  Lemma others_trans : forall s1 s2 s3 v, others s1 s2 v -> others s2 s3 v -> others s1 s3 v.
  Proof. intros s1 s2 s3 v H1 H2 w Hw. rewrite H2, H1 by exact Hw. reflexivity. Qed.

  (** * Constructors *)
  Lemma newList_ok : forall s m v l, rel s m -> m v = None -> exists s', newList N s v l = Some s' /\ rel s' (upd m v (Some l)).
  Proof.
    intros s m v l R Hm. unfold newList. destruct (newVec_ok s m v R Hm) as (s1 & E1 & R1 & _). rewrite E1. cbn [bind].
    destruct (reserve_ok s1 _ v [] (length l) R1 (upd_same _ _ _)) as (s2 & E2 & R2 & (x & Hx & Hc & _) & _). rewrite E2. cbn [bind].
    destruct (fillFrom_ok s2 _ v [] x l 0 (length l) R2 (upd_same _ _ _) Hx) as (s3 & E3 & R3 & _); auto. exists s3. split; [exact E3|].
    apply (rel_upd_eq _ _ _ R3). intros w. cbn [app]. rewrite upd_upd. reflexivity.
  Qed.
  Lemma newFill_ok : forall s m v n r a, rel s m -> m v = None -> value m v r = Some a -> exists s', newFill N s v n r = Some s' /\ rel s' (upd m v (Some (repeat a n))).
  Proof.
    intros s m v n r a R Hm Hr. unfold newFill. destruct (newVec_ok s m v R Hm) as (s1 & E1 & R1 & O1).
    destruct (reserve_ok s1 _ v [] n R1 (upd_same _ _ _)) as (s2 & E2 & R2 & (x & Hx & Hc & _) & O2).
    destruct (deref_ok s m s2 _ v r a R Hr R2 (others_trans _ _ _ _ O1 O2)) as (p & Ep & Ed).
    { intros w Hw. apply upd_other. exact Hw. }
    rewrite Ep. cbn [bind]. rewrite E1. cbn [bind]. rewrite E2. cbn [bind]. rewrite Ed. cbn [bind].
    destruct (fillFrom_ok s2 _ v [] x (repeat a n) 0 n R2 (upd_same _ _ _) Hx) as (s3 & E3 & R3 & _); try (cbn; rewrite ?repeat_length; auto; fail).
    exists s3. split; [exact E3|]. apply (rel_upd_eq _ _ _ R3). intros w. cbn [app]. rewrite upd_upd. reflexivity.
  Qed.
  (** Filling an empty vector from another one. *)
  Lemma copyInto : forall s m v w l, rel s m -> m v = Some [] -> m w = Some l -> w <> v ->
    exists s', bind (vecs s w) (fun y => bind (reserve s v (vsize y)) (fun s => bind (contents s w) (fun l => fillFrom s v 0 l (vsize y)))) = Some s' /\
      rel s' (upd m v (Some l)).
  Proof.
    intros s m v w l R Hv Hw Hn. destruct (rel_get _ _ _ _ _ R Hw) as (y & Hy & (a & _)). rewrite Hy. cbn [bind].
    destruct (reserve_ok s m v [] (vsize y) R Hv) as (s2 & E2 & R2 & (x & Hx & Hc & _) & O2). rewrite E2. cbn [bind].
    rewrite (contents_ok s2 m w l R2 Hw). cbn [bind]. rewrite a in *.
    destruct (fillFrom_ok s2 m v [] x l 0 (length l) R2 Hv Hx) as (s3 & E3 & R3 & _); auto. exists s3. auto.
  Qed.
  Lemma copyNew_ok : forall s m v w l, rel s m -> m v = None -> m w = Some l -> exists s', copyNew N s v w = Some s' /\ rel s' (upd m v (Some l)).
  Proof.
    intros s m v w l R Hv Hw. unfold copyNew. destruct (newVec_ok s m v R Hv) as (s1 & E1 & R1 & O1). rewrite E1. cbn [bind].
    assert (Hn : w <> v) by congruence.
    destruct (copyInto s1 _ v w l R1 (upd_same _ _ _)) as (s2 & E2 & R2); [rewrite upd_other by exact Hn; exact Hw|exact Hn|].
    exists s2. split; [exact E2|]. apply (rel_upd_eq _ _ _ R2). intros k. rewrite upd_upd. reflexivity.
  Qed.
  Lemma copyAssign_ok : forall s m v w k l, rel s m -> m v = Some k -> m w = Some l -> exists s', copyAssign s v w = Some s' /\ rel s' (upd m v (Some l)).
  Proof.
    intros s m v w k l R Hv Hw. unfold copyAssign. destruct (Nat.eqb_spec v w) as [->|Hn].
    - exists s. split; [reflexivity|]. apply (rel_upd_eq _ _ _ R). intros j. apply upd_id. exact Hw.
    - destruct (clear_ok s m v k R Hv) as (s1 & x1 & E1 & R1 & O1 & _). rewrite E1. cbn [bind].
      destruct (copyInto s1 _ v w l R1 (upd_same _ _ _)) as (s2 & E2 & R2); [rewrite upd_other by congruence; exact Hw|congruence|].
      exists s2. split; [exact E2|]. apply (rel_upd_eq _ _ _ R2). intros j. rewrite upd_upd. reflexivity.
  Qed.

  (** * Destruction and moves *)
  Definition without (s : state) (v : nat) : state := mkState (upd (vecs s) v None) (heap s) (nextb s).
  Lemma drop_ok : forall s m v l, rel s m -> m v = Some l ->
    exists s' x, clear s v = Some s' /\ vecs s' v = Some x /\ vinl x = repeat dead N /\ others s s' v /\
      rel (without (freeData s' x) v) (upd m v None).
  Proof.
    intros s m v l R Hm. destruct (clear_ok s m v l R Hm) as (s' & x & E & R' & O & Hx & _). exists s', x. split; [exact E|]. split; [exact Hx|].
    destruct (rel_get _ _ _ _ _ R' (upd_same _ _ _)) as (x0 & Hx0 & (a & b & c & d & e & f)). replace x0 with x in * by congruence. clear x0 Hx0.
    split; [|split; [exact O|]].
    - unfold cells in d. destruct (vptr x) as [h|] eqn:Hp; [apply f; congruence|]. injection d as ->. unfold image. cbn. rewrite (e eq_refl), Nat.sub_0_r. reflexivity.
    - destruct R' as (r1 & r2 & r3 & r4). unfold without, freeData.
      destruct (vptr x) as [h|] eqn:Hp; (split; [|split; [|split]]); cbn [vecs heap nextb].
      + intros w. destruct (Nat.eq_dec w v) as [->|Hn]; [rewrite !upd_same; exact I|]. rewrite !upd_other by exact Hn.
        specialize (r1 w). rewrite upd_other in r1 by exact Hn. destruct (vecs s' w) as [y|] eqn:Hy, (m w); auto.
        apply (vec_ok_heap N s'); [exact r1|]. intros h' Hh'. cbn [heap]. apply upd_other. intros ->. apply Hn. apply (r2 w v y x h); auto.
      + intros w w' y y' h' H1 H2 H3 H4. destruct (Nat.eq_dec w v) as [->|N1]; [rewrite upd_same in H1; discriminate|].
        destruct (Nat.eq_dec w' v) as [->|N2]; [rewrite upd_same in H2; discriminate|].
        rewrite upd_other in H1 by exact N1. rewrite upd_other in H2 by exact N2. apply (r2 w w' y y' h'); auto.
      + intros h' c' H'. destruct (Nat.eq_dec h' h) as [->|Nh]; [rewrite upd_same in H'; discriminate|]. rewrite upd_other in H' by exact Nh.
        destruct (r3 _ _ H') as (w & y & Q1 & Q2). exists w, y. split; [|exact Q2].
        rewrite upd_other; [exact Q1|]. intros ->. rewrite Hx in Q1. injection Q1 as <-. congruence.
      + intros h' c' H'. destruct (Nat.eq_dec h' h) as [->|Nh]; [rewrite upd_same in H'; discriminate|]. rewrite upd_other in H' by exact Nh. apply (r4 _ _ H').
      + intros w. destruct (Nat.eq_dec w v) as [->|Hn]; [rewrite !upd_same; exact I|]. rewrite !upd_other by exact Hn.
        specialize (r1 w). rewrite upd_other in r1 by exact Hn. destruct (vecs s' w) as [y|] eqn:Hy, (m w); auto.
      + intros w w' y y' h' H1 H2 H3 H4. destruct (Nat.eq_dec w v) as [->|N1]; [rewrite upd_same in H1; discriminate|].
        destruct (Nat.eq_dec w' v) as [->|N2]; [rewrite upd_same in H2; discriminate|].
        rewrite upd_other in H1 by exact N1. rewrite upd_other in H2 by exact N2. apply (r2 w w' y y' h'); auto.
      + intros h' c' H'. destruct (r3 _ _ H') as (w & y & Q1 & Q2). exists w, y. split; [|exact Q2].
        rewrite upd_other; [exact Q1|]. intros ->. rewrite Hx in Q1. injection Q1 as <-. congruence.
      + exact r4.
  Qed.
  Lemma delete_ok : forall s m v l, rel s m -> m v = Some l -> exists s', delete s v = Some s' /\ rel s' (upd m v None).
  Proof.
    intros s m v l R Hm. destruct (drop_ok s m v l R Hm) as (s' & x & E & Hx & _ & _ & R'). unfold delete. rewrite E. cbn [bind]. rewrite Hx. cbn [bind].
    eexists. split; [reflexivity|]. exact R'.
  Qed.
  Lemma takeOver_ok : forall s m v w l, rel (without s v) m -> m v = None -> m w = Some l -> w <> v ->
    exists s', takeOver N s v w (repeat dead N) = Some s' /\ rel s' (upd (upd m w (Some [])) v (Some l)).
  Proof.
    intros s m v w l R Hv Hw Hn. destruct (rel_get _ _ _ _ _ R Hw) as (y & Hy & (a & b & c & d & e & f)).
    cbn [without vecs] in Hy. rewrite upd_other in Hy by exact Hn. unfold takeOver. rewrite Hy. cbn [bind].
    destruct (vptr y) as [h|] eqn:Hp.
    - eexists. split; [reflexivity|]. destruct R as (r1 & r2 & r3 & r4). cbn [without vecs heap nextb] in *.
      assert (K : forall j, j <> v -> vecs s j = upd (vecs s) v None j) by (intros j Hj; rewrite upd_other by exact Hj; reflexivity).
      assert (Fi : vinl y = repeat dead N) by (apply f; congruence).
      split; [|split; [|split]]; cbn [vecs heap nextb].
      + intros j. destruct (Nat.eq_dec j v) as [->|Nv].
        * rewrite upd_other by (intros Q; congruence). rewrite !upd_same. unfold SVecProofs.vec_ok, cells in *. cbn [vsize vcap vptr vinl heap] in *.
          rewrite Hp in d. cbn [without heap] in d. repeat split; auto; congruence.
        * rewrite (upd_other (upd m w (Some []))) by exact Nv. destruct (Nat.eq_dec j w) as [->|Nw].
          -- rewrite !upd_same. unfold SVecProofs.vec_ok, cells, image. cbn. rewrite Nat.sub_0_r. repeat split; auto; try lia; congruence.
          -- rewrite !upd_other by assumption. specialize (r1 j). rewrite upd_other in r1 by exact Nv. destruct (vecs s j) as [z|] eqn:Hz, (m j); auto.
      + intros j k z z' h' H1 H2 H3 H4.
        assert (G : forall j z, upd (upd (vecs s) v (Some (mkVec (vsize y) (vcap y) (Some h) (repeat dead N)))) w (Some (mkVec 0 N None (vinl y))) j = Some z ->
                    vptr z = Some h' -> j = v /\ h' = h \/ j <> v /\ j <> w /\ vecs s j = Some z).
        { intros j0 z0 Q1 Q2. destruct (Nat.eq_dec j0 w) as [->|Nw]; [rewrite upd_same in Q1; injection Q1 as <-; discriminate|].
          rewrite upd_other in Q1 by exact Nw. destruct (Nat.eq_dec j0 v) as [->|Nv]; [rewrite upd_same in Q1; injection Q1 as <-; cbn in Q2; left; split; congruence|].
          rewrite upd_other in Q1 by exact Nv. auto. }
        destruct (G _ _ H1 H3) as [(-> & E1)|(Nv & Nw & E1)], (G _ _ H2 H4) as [(-> & E2)|(Nv' & Nw' & E2)]; auto.
        * exfalso. apply Nw'. apply (r2 k w z' y h'); auto; [rewrite upd_other by exact Nv'; exact E2|rewrite upd_other by exact Hn; exact Hy|congruence].
        * exfalso. apply Nw. apply (r2 j w z y h'); auto; [rewrite upd_other by exact Nv; exact E1|rewrite upd_other by exact Hn; exact Hy|congruence].
        * apply (r2 j k z z' h'); auto; rewrite upd_other; auto.
      + intros h' c' H'. destruct (r3 _ _ H') as (j & z & Q1 & Q2). destruct (Nat.eq_dec j v) as [->|Nv]; [rewrite upd_same in Q1; discriminate|].
        rewrite upd_other in Q1 by exact Nv. destruct (Nat.eq_dec j w) as [->|Nw].
        * exists v. rewrite upd_other by congruence. rewrite upd_same. eexists. split; [reflexivity|]. cbn. congruence.
        * exists j, z. rewrite !upd_other by assumption. auto.
      + exact r4.
    - unfold cells in d. rewrite Hp in d. injection d as Ei. rewrite (e eq_refl) in *.
      rewrite Ei. unfold image.
      pose proof (moveN_ok l [] (repeat dead (N - length l)) 0 (vsize y) eq_refl a) as Q. cbn [app] in Q. rewrite Q. cbn [bind fst snd]. clear Q.
      assert (Er : repeat dead N = repeat dead (length l) ++ repeat dead (N - length l)) by (rewrite <- repeat_split; f_equal; lia).
      pose proof (constructAll_ok l [] (repeat dead (N - length l)) 0 eq_refl) as Q. cbn [app] in Q. rewrite <- Er in Q. rewrite Q. cbn [bind]. clear Q.
      unfold store. rewrite Hp. cbn [vecs heap nextb vsize vcap].
      unfold clear. cbn [vecs]. rewrite upd_same. unfold cells. cbn [vptr vinl vsize vcap].
      pose proof (destroyN_ok (repeat Moved (length l)) [] (repeat dead (N - length l)) 0 (vsize y) eq_refl) as Q. cbn [app] in Q.
      rewrite Q by (rewrite ?repeat_length; auto using moved_live). rewrite repeat_length, <- repeat_split. clear Q.
      replace (length l + (N - length l)) with N by lia. eexists. split; [reflexivity|].
      unfold store, withSize. cbn [vptr vsize vcap vecs heap nextb vinl]. rewrite ?(e eq_refl).
      destruct R as (r1 & r2 & r3 & r4). cbn [without vecs heap nextb] in *.
      set (vx := mkVec (vsize y) N None (map Val l ++ repeat dead (N - length l))).
      set (wx := mkVec 0 N None (repeat dead N)).
      assert (G : forall j, upd (upd (upd (vecs s) v (Some vx)) w (Some (mkVec (vsize y) N None (repeat Moved (length l) ++ repeat dead (N - length l))))) w (Some wx) j
                  = if j =? w then Some wx else if j =? v then Some vx else vecs s j).
      { intros j. unfold upd. destruct (j =? w); reflexivity. }
      split; [|split; [|split]]; cbn [vecs heap nextb].
      + intros j. rewrite G. destruct (Nat.eqb_spec j w) as [->|Nw].
        * rewrite upd_other by exact Hn. rewrite upd_same. unfold SVecProofs.vec_ok, cells, image, wx. cbn. rewrite Nat.sub_0_r. repeat split; auto; lia || congruence.
        * destruct (Nat.eqb_spec j v) as [->|Nv].
          -- rewrite upd_same. unfold SVecProofs.vec_ok, cells, image, vx. cbn. repeat split; auto; congruence.
          -- rewrite !upd_other by assumption. specialize (r1 j). rewrite upd_other in r1 by exact Nv. destruct (vecs s j) as [z|] eqn:Hz, (m j); auto.
      + intros j k z z' h' H1 H2 H3 H4. rewrite G in H1, H2.
        destruct (Nat.eqb_spec j w); [injection H1 as <-; discriminate|]. destruct (Nat.eqb_spec j v); [injection H1 as <-; discriminate|].
        destruct (Nat.eqb_spec k w); [injection H2 as <-; discriminate|]. destruct (Nat.eqb_spec k v); [injection H2 as <-; discriminate|].
        apply (r2 j k z z' h'); auto; rewrite upd_other; auto.
      + intros h' c' H'. destruct (r3 _ _ H') as (j & z & Q1 & Q2). destruct (Nat.eq_dec j v) as [->|Nv]; [rewrite upd_same in Q1; discriminate|].
        rewrite upd_other in Q1 by exact Nv. exists j, z. rewrite G. destruct (Nat.eqb_spec j w) as [->|Nw]; [congruence|].
        destruct (Nat.eqb_spec j v); [congruence|]. auto.
      + exact r4.
  Qed.
  Lemma moveNew_ok : forall s m v w l, rel s m -> m v = None -> m w = Some l -> exists s', moveNew N s v w = Some s' /\ rel s' (upd (upd m w (Some [])) v (Some l)).
  Proof.
    intros s m v w l R Hv Hw. unfold moveNew. pose proof (rel_absent _ _ _ _ R Hv) as Hx. rewrite Hx.
    apply takeOver_ok; auto; [|congruence]. apply (rel_ext N s _ m m); auto. intros j. cbn [without vecs]. apply upd_id. exact Hx.
  Qed.
  Lemma moveAssign_ok : forall s m v w k l, rel s m -> m v = Some k -> m w = Some l ->
    exists s', moveAssign N s v w = Some s' /\ rel s' (upd (upd m w (Some [])) v (Some l)).
  Proof.
    intros s m v w k l R Hv Hw. unfold moveAssign. destruct (Nat.eqb_spec v w) as [->|Hn].
    - exists s. split; [reflexivity|]. apply (rel_upd_eq _ _ _ R). intros j. rewrite upd_upd. apply upd_id. exact Hw.
    - destruct (drop_ok s m v k R Hv) as (s1 & x & E & Hx & Hi & O & R1). rewrite E. cbn [bind]. rewrite Hx. cbn [bind]. rewrite Hi.
      destruct (takeOver_ok (freeData s1 x) _ v w l R1 (upd_same _ _ _)) as (s2 & E2 & R2); [rewrite upd_other by congruence; exact Hw|congruence|].
      exists s2. split; [exact E2|]. apply (rel_upd_eq _ _ _ R2). intros j. unfold upd. destruct (j =? v); [reflexivity|]. destruct (j =? w); reflexivity.
  Qed.

  (** * Changes in place *)
  Lemma push_ok : forall s m v l r a, rel s m -> m v = Some l -> value m v r = Some a ->
    exists s', pushBack s v r = Some s' /\ rel s' (upd m v (Some (l ++ [a]))).
  Proof.
    intros s m v l r a R Hm Hr. unfold pushBack. destruct (growIfFull_ok s m v l R Hm) as (s1 & E1 & R1 & (x & Hx & Hc & Hs) & O1).
    destruct (deref_ok s m s1 m v r a R Hr R1 O1) as (p & Ep & Ed); [auto|].
    rewrite Ep. cbn [bind]. rewrite E1. cbn [bind]. rewrite Hx. cbn [bind]. rewrite Ed. cbn [bind].
    destruct (fillFrom_ok s1 m v l x [a] (vsize x) (S (vsize x)) R1 Hm Hx) as (s2 & E2 & R2 & _); cbn [length]; try lia. exists s2. auto.
  Qed.
  Lemma image_split : forall (l : list A) cap i, i <= length l -> image l cap = map Val (firstn i l) ++ map Val (skipn i l) ++ repeat dead (cap - length l).
  Proof. intros l cap i H. unfold image. rewrite app_assoc, <- map_app, firstn_skipn. reflexivity. Qed.
  Lemma resize_ok : forall s m v l n p a s0 r, rel s m -> m v = Some l -> value m v r = Some a -> rel s0 m -> others s0 s v -> locOf s0 r = Some p ->
    exists s', resizeWith s v n p = Some s' /\ rel s' (upd m v (Some (firstn n l ++ repeat a (n - length l)))).
  Proof.
    intros s m v l n p a s0 r R Hm Hr R0 O0 Hp. unfold resizeWith. destruct (rel_get _ _ _ _ _ R Hm) as (x & Hx & (Hs & b & c & d & e & f)). rewrite Hx. cbn [bind].
    destruct (n <? vsize x) eqn:E1.
    - apply Nat.ltb_lt in E1. rewrite d. cbn [bind]. rewrite (image_split l (vcap x) n) by lia.
      rewrite (destroyN_ok (map Val (skipn n l)) (map Val (firstn n l))) by (rewrite ?map_length, ?skipn_length, ?firstn_length; auto using vals_live; lia).
      cbn [bind]. rewrite map_length, skipn_length, <- repeat_split.
      replace (n - length l) with 0 by lia. cbn [repeat]. rewrite app_nil_r.
      assert (Ei : map Val (firstn n l) ++ repeat dead (length l - n + (vcap x - length l)) = image (firstn n l) (vcap x)).
      { unfold image. do 2 f_equal. rewrite firstn_length. lia. }
      rewrite Ei. eexists. split; [reflexivity|].
      replace (withSize x n) with (withSize x (length (firstn n l))) by (rewrite firstn_length; f_equal; lia).
      apply (rel_store N s m v x l); auto. rewrite firstn_length. lia.
    - apply Nat.ltb_ge in E1. destruct (vsize x <? n) eqn:E2.
      + apply Nat.ltb_lt in E2. destruct (reserve_ok s m v l n R Hm) as (s1 & G1 & R1 & (x1 & Hx1 & Hc1 & Hs1) & O1). rewrite G1. cbn [bind].
        destruct (deref_ok s0 m s1 m v r a R0 Hr R1 (others_trans _ _ _ _ O0 O1)) as (p' & Ep & Ed); [auto|].
        replace p' with p in Ed by congruence. rewrite Ed. cbn [bind].
        destruct (fillFrom_ok s1 m v l x1 (repeat a (n - vsize x)) (vsize x) n R1 Hm Hx1) as (s2 & E3 & R2 & _); rewrite ?repeat_length; try lia.
        exists s2. split; [exact E3|]. rewrite firstn_all2 by lia. rewrite Hs in R2. exact R2.
      + apply Nat.ltb_ge in E2. exists s. split; [reflexivity|]. apply (rel_upd_eq _ _ _ R). intros j. apply upd_id. rewrite Hm.
        rewrite firstn_all2 by lia. replace (n - length l) with 0 by lia. cbn. rewrite app_nil_r. reflexivity.
  Qed.
  Lemma assign_ok : forall (p q : list cell) c a i, i = length p -> c <> dead -> assign (p ++ c :: q) i a = Some (p ++ Val a :: q).
  Proof. intros p q c a i Hi Hc. unfold assign. rewrite (nth_at p c q i Hi), (putc_at p c q (Val a) i Hi). destruct c; congruence. Qed.

  Lemma insert_ok : forall s m v l i r a, rel s m -> m v = Some l -> value m v r = Some a -> i <= length l ->
    exists s', insert s v i r = Some s' /\ rel s' (upd m v (Some (firstn i l ++ [a] ++ skipn i l))).
  Proof.
    intros s m v l i r a R Hm Hr Hi. unfold insert. destruct (growIfFull_ok s m v l R Hm) as (s1 & E1 & R1 & (x & Hx & Hc & Hs) & O1).
    destruct (deref_ok s m s1 m v r a R Hr R1 O1) as (p & Ep & Ed); [auto|].
    rewrite Ep. cbn [bind]. rewrite E1. cbn [bind]. rewrite Hx. cbn [bind]. cbv zeta.
    destruct (i <? vsize x) eqn:E2.
    - apply Nat.ltb_lt in E2. destruct (rel_get _ _ _ _ _ R1 Hm) as (x0 & Hx0 & (a1 & b & c & d & e & f)). replace x0 with x in * by congruence. clear x0 Hx0.
      rewrite d. cbn [bind].
      (* l = l1 ++ l2 ++ [z], with l1 the first i elements *)
      assert (exists l2 z, skipn i l = l2 ++ [z]) as (l2 & z & E3).
      { destruct (exists_last (l := skipn i l)) as (l2 & z & Q); [|exists l2, z; exact Q]. intros Q. apply (f_equal (@length A)) in Q. rewrite skipn_length in Q. cbn in Q. lia. }
      assert (E4 : length l = i + length l2 + 1).
      { assert (Q : length (firstn i l ++ skipn i l) = length l) by (rewrite firstn_skipn; reflexivity). rewrite E3, !app_length, firstn_length in Q. cbn in Q. lia. }
      assert (E5 : length (firstn i l) = i) by (rewrite firstn_length; lia).
      set (l1 := firstn i l) in *. rewrite (image_split l (vcap x) i) by lia. fold l1. rewrite E3, map_app. cbn [map].
      assert (Er : repeat dead (vcap x - length l) = dead :: repeat dead (vcap x - S (length l))).
      { replace (vcap x - length l) with (S (vcap x - S (length l))) by lia. reflexivity. }
      rewrite Er. set (q := repeat dead (vcap x - S (length l))).
      replace (map Val l1 ++ (map Val l2 ++ [Val z]) ++ dead :: q) with ((map Val l1 ++ map Val l2) ++ Val z :: dead :: q) by (rewrite <- !app_assoc; reflexivity).
      unfold moveOut at 1. rewrite (nth_at (map Val l1 ++ map Val l2) (Val z)) by (rewrite app_length, !map_length; lia).
      rewrite (putc_at (map Val l1 ++ map Val l2) (Val z)) by (rewrite app_length, !map_length; lia). cbn [bind fst snd].
      replace ((map Val l1 ++ map Val l2) ++ Moved :: dead :: q) with ((map Val l1 ++ map Val l2 ++ [Moved]) ++ dead :: q) by (rewrite <- !app_assoc; reflexivity).
      unfold construct. rewrite (nth_at (map Val l1 ++ map Val l2 ++ [Moved]) dead) by (rewrite !app_length, !map_length; cbn; lia).
      rewrite (putc_at (map Val l1 ++ map Val l2 ++ [Moved]) dead) by (rewrite !app_length, !map_length; cbn; lia). cbn [bind].
      replace ((map Val l1 ++ map Val l2 ++ [Moved]) ++ Val z :: q) with (map Val l1 ++ map Val l2 ++ Moved :: Val z :: q) by (rewrite <- !app_assoc; reflexivity).
      rewrite (shift_ok l2 (map Val l1) (Val z :: q)) by (rewrite ?map_length; lia). cbn [bind].
      set (c2 := map Val l1 ++ Moved :: map Val l2 ++ Val z :: q).
      (* the reference is still good: other vectors are as they were *)
      assert (Ed' : deref (store s1 v x c2) p = Some a).
      { destruct r as [b'|w j]; cbn in Ep.
        - injection Ep as <-. cbn in *. exact Ed.
        - cbn in Hr. destruct (Nat.eqb_spec w v) as [|Hw]; [discriminate|]. destruct (vecs s w) as [y|] eqn:Hy; [|discriminate].
          pose proof (O1 w Hw) as Ow. rewrite Hy in Ow. destruct (vptr y) as [h|] eqn:Hp; injection Ep as <-; cbn [deref] in *.
          + unfold store. destruct (vptr x) as [h'|] eqn:Hp'; cbn [heap]; [|exact Ed]. rewrite upd_other; [exact Ed|].
            intros ->. destruct R1 as (_ & r2 & _). apply Hw. apply (r2 w v y x h'); auto.
          + rewrite store_others by exact Hw. rewrite Ow in *. exact Ed. }
      rewrite Ed'. cbn [bind]. unfold c2 at 1. rewrite (assign_ok (map Val l1) (map Val l2 ++ Val z :: q) Moved a i) by (rewrite ?map_length; auto; discriminate).
      cbn [bind]. eexists. split; [reflexivity|].
      set (l' := l1 ++ [a] ++ l2 ++ [z]).
      assert (E6 : length l' = S (length l)) by (unfold l'; rewrite !app_length; cbn; lia).
      assert (E7 : map Val l1 ++ Val a :: map Val l2 ++ Val z :: q = image l' (vcap x)).
      { unfold image. rewrite E6. fold q. unfold l'. rewrite !map_app. cbn [map]. rewrite <- ?app_assoc. cbn [app]. rewrite <- ?app_assoc. reflexivity. }
      rewrite E7. pose proof (rel_store N s1 m v x l l' R1 Hx Hm) as Rs. rewrite E6 in Rs. specialize (Rs ltac:(lia)). rewrite Hs.
      unfold store in *. unfold withSize in *. cbn [vptr vsize vcap vinl] in *. destruct (vptr x) as [h|] eqn:Hp.
      + apply (rel_ext N _ _ _ _ Rs); cbn [vecs heap nextb]; auto; intros j; apply upd_upd.
      + apply (rel_ext N _ _ _ _ Rs); cbn [vecs heap nextb]; auto; intros j; apply upd_upd.
    - apply Nat.ltb_ge in E2. assert (i = length l) by lia. subst i. rewrite firstn_all, skipn_all. cbn [app].
      rewrite Ed. cbn [bind].
      destruct (fillFrom_ok s1 m v l x [a] (vsize x) (S (vsize x)) R1 Hm Hx) as (s2 & E3 & R2 & _); cbn [length]; try lia. exists s2. auto.
  Qed.
  Lemma value'_ok : forall s m r a, rel s m -> value' m r = Some a -> exists p, locOf s r = Some p /\ deref s p = Some a.
  Proof.
    intros s m r a R Hr. destruct r as [b|w i]; cbn in *.
    - exists (LLit b). cbn. auto.
    - destruct (m w) as [l|] eqn:E; [|discriminate]. destruct (rel_get _ _ _ _ _ R E) as (x & Hx & (_ & _ & _ & d & _)). rewrite Hx.
      eexists. split; [reflexivity|]. unfold cells in d. destruct (vptr x) as [h|] eqn:Hp; cbn [deref].
      + rewrite d. apply read_val. exact Hr.
      + rewrite Hx. injection d as ->. apply read_val. exact Hr.
  Qed.
  Lemma set_ok : forall s m v l i r a, rel s m -> m v = Some l -> value' m r = Some a -> i < length l ->
    exists s', setAt s v i r = Some s' /\ rel s' (upd m v (Some (firstn i l ++ [a] ++ skipn (S i) l))).
  Proof.
    intros s m v l i r a R Hm Hr Hi. unfold setAt. destruct (value'_ok s m r a R Hr) as (p & Ep & Ed). rewrite Ep. cbn [bind]. rewrite Ed. cbn [bind].
    destruct (rel_get _ _ _ _ _ R Hm) as (x & Hx & (a1 & b & c & d & e & f)). rewrite Hx. cbn [bind]. rewrite d. cbn [bind].
    destruct (nth_error l i) as [y|] eqn:Ey; [|apply nth_error_None in Ey; lia].
    destruct (nth_error_split _ _ Ey) as (l1 & l2 & -> & <-).
    rewrite firstn_app, firstn_all, Nat.sub_diag, firstn_O, app_nil_r. rewrite skipn_app, skipn_all2 by lia. replace (S (length l1) - length l1) with 1 by lia. cbn [skipn app].
    unfold image at 1. rewrite map_app. cbn [map]. rewrite <- app_assoc. cbn [app].
    rewrite (assign_ok (map Val l1)) by (rewrite ?map_length; auto; discriminate). cbn [bind].
    eexists. split; [reflexivity|].
    assert (El : length (l1 ++ a :: l2) = length (l1 ++ y :: l2)) by (rewrite !app_length; reflexivity).
    assert (Ei : map Val l1 ++ Val a :: map Val l2 ++ repeat dead (vcap x - length (l1 ++ y :: l2)) = image (l1 ++ a :: l2) (vcap x)).
    { unfold image. rewrite map_app, El, <- app_assoc. reflexivity. }
    rewrite Ei. pose proof (rel_store N s m v x (l1 ++ y :: l2) (l1 ++ a :: l2) R Hx Hm) as Rs. rewrite El in Rs.
    replace (withSize x (length (l1 ++ y :: l2))) with x in Rs by (rewrite <- a1; destruct x; reflexivity). apply Rs. exact b.
  Qed.
  Lemma get_ok : forall s m v l i a, rel s m -> m v = Some l -> nth_error l i = Some a -> getAt s v i = Some a.
  Proof.
    intros s m v l i a R Hm H. destruct (rel_get _ _ _ _ _ R Hm) as (x & Hx & (_ & _ & _ & d & _)). unfold getAt. rewrite Hx. cbn [bind]. rewrite d. cbn [bind].
    apply read_val. exact H.
  Qed.
  Lemma eqLoop_ok : forall a b (p p' q q' : list cell) i n, length a = length b -> i = length p -> i = length p' -> n = length a ->
    eqLoop eqb (p ++ map Val a ++ q) (p' ++ map Val b ++ q') i n = Some (same eqb a b).
  Proof.
    induction a as [|x a IH]; intros [|y b] p p' q q' i n L Hp Hp' ->; try discriminate; [reflexivity|].
    cbn [length eqLoop map app same]. unfold read. rewrite (nth_at p (Val x) _ i Hp), (nth_at p' (Val y) _ i Hp'). cbn [bind].
    destruct (eqb x y); cbn [andb]; [|reflexivity].
    replace (p ++ Val x :: map Val a ++ q) with ((p ++ [Val x]) ++ map Val a ++ q) by (rewrite <- app_assoc; reflexivity).
    replace (p' ++ Val y :: map Val b ++ q') with ((p' ++ [Val y]) ++ map Val b ++ q') by (rewrite <- app_assoc; reflexivity).
    apply IH; auto; rewrite ?app_length; cbn in *; lia.
  Qed.
  Lemma same_length : forall a b, same eqb a b = true -> length a = length b.
  Proof. induction a as [|x a IH]; intros [|y b] H; cbn in *; try discriminate; auto. apply andb_true_iff in H. f_equal. apply IH. apply H. Qed.
  Lemma equal_ok : forall s m v w l k, rel s m -> m v = Some l -> m w = Some k -> equal eqb s v w = Some (same eqb l k).
  Proof.
    intros s m v w l k R Hv Hw. destruct (rel_get _ _ _ _ _ R Hv) as (x & Hx & (a & _ & _ & d & _)). destruct (rel_get _ _ _ _ _ R Hw) as (y & Hy & (a' & _ & _ & d' & _)).
    unfold equal. rewrite Hx. cbn [bind]. rewrite Hy. cbn [bind]. rewrite a, a'. destruct (Nat.eqb_spec (length l) (length k)) as [E|E]; cbn [negb].
    - rewrite d. cbn [bind]. rewrite d'. cbn [bind]. unfold image.
      exact (eqLoop_ok l k [] [] (repeat dead (vcap x - length l)) (repeat dead (vcap y - length k)) 0 (length l) E eq_refl eq_refl eq_refl).
    - f_equal. destruct (same eqb l k) eqn:Q; [|reflexivity]. apply same_length in Q. congruence.
  Qed.

  (** * Programs *)
  Lemma exec_ok : forall s m c m' o, rel s m -> sexec dflt eqb m c = Some (m', o) -> exists s', exec dflt eqb N s c = Some (s', o) /\ rel s' m'.
  Proof.
    intros s m c m' o R H.
    assert (Fin : forall op m1, (exists s', op = Some s' /\ rel s' m1) -> m' = m1 -> o = ONone -> exists s', quiet op = Some (s', o) /\ rel s' m').
    { intros op m1 (s' & -> & R') -> ->. exists s'. split; [reflexivity|exact R']. }
    destruct c; cbn [sexec] in H; unfold absent in H; cbn [exec];
      repeat match type of H with
      | bind (match ?m ?v with Some _ => None | None => Some tt end) _ = _ => let E := fresh "E" in destruct (m v) eqn:E; cbn [bind] in H; [discriminate|]
      | bind (?m ?v) _ = _ => let E := fresh "E" in destruct (m v) eqn:E; cbn [bind] in H; [|discriminate]
      | bind (value ?m ?v ?r) _ = _ => let E := fresh "E" in destruct (value m v r) eqn:E; cbn [bind] in H; [|discriminate]
      | bind (value' ?m ?r) _ = _ => let E := fresh "E" in destruct (value' m r) eqn:E; cbn [bind] in H; [|discriminate]
      end.
    - injection H as <- <-. eapply Fin; [|reflexivity|reflexivity]. destruct (newVec_ok s m v R E) as (s' & Q & R' & _). eauto.
    - injection H as <- <-. eapply Fin; [|reflexivity|reflexivity]. apply newFill_ok; assumption.
    - injection H as <- <-. eapply Fin; [|reflexivity|reflexivity]. apply newFill_ok; auto.
    - injection H as <- <-. eapply Fin; [|reflexivity|reflexivity]. apply newList_ok; assumption.
    - injection H as <- <-. eapply Fin; [|reflexivity|reflexivity]. apply copyNew_ok; assumption.
    - injection H as <- <-. eapply Fin; [|reflexivity|reflexivity]. apply moveNew_ok; assumption.
    - injection H as <- <-. eapply Fin; [|reflexivity|reflexivity]. eapply copyAssign_ok; eassumption.
    - injection H as <- <-. eapply Fin; [|reflexivity|reflexivity]. eapply moveAssign_ok; eassumption.
    - injection H as <- <-. eapply Fin; [|reflexivity|reflexivity]. eapply delete_ok; eassumption.
    - injection H as <- <-. eapply Fin; [|reflexivity|reflexivity]. apply push_ok; assumption.
    - injection H as <- <-. eapply Fin; [|reflexivity|reflexivity]. destruct (clear_ok s m v l R E) as (s' & x' & Q & R' & _). eauto.
    - injection H as <- <-. eapply Fin; [|reflexivity|reflexivity]. destruct (reserve_ok s m v l n R E) as (s' & Q & R' & _). exists s'. split; [exact Q|].
      apply (rel_upd_eq _ _ _ R'). intros j. apply upd_id. exact E.
    - injection H as <- <-. eapply Fin; [|reflexivity|reflexivity]. apply (resize_ok s m v l n (LLit dflt) dflt s (Lit dflt)); auto. intros w _; reflexivity.
    - injection H as <- <-. eapply Fin; [|reflexivity|reflexivity]. destruct (deref_ok s m s m v r a R E0 R) as (p & Ep & Ed); [intros w _; reflexivity|auto|].
      rewrite Ep. cbn [bind]. apply (resize_ok s m v l n p a s r); auto. intros w _; reflexivity.
    - destruct (i <=? length l) eqn:Ei; [|discriminate]. apply Nat.leb_le in Ei. injection H as <- <-. eapply Fin; [|reflexivity|reflexivity]. apply insert_ok; assumption.
    - destruct (i <? length l) eqn:Ei; [|discriminate]. apply Nat.ltb_lt in Ei. injection H as <- <-. eapply Fin; [|reflexivity|reflexivity]. apply set_ok; assumption.
    - destruct (nth_error l i) as [a|] eqn:Ea; [|discriminate]. injection H as <- <-. rewrite (get_ok s m v l i a R E Ea). exists s. auto.
    - injection H as <- <-. destruct (rel_get _ _ _ _ _ R E) as (x & Hx & (a & _)). rewrite Hx. cbn. rewrite a. exists s. auto.
    - injection H as <- <-. rewrite (equal_ok s m v w l l0 R E E0). exists s. auto.
  Qed.
  Lemma execs_ok : forall l s m m' os, rel s m -> sexecs dflt eqb m l = Some (m', os) -> exists s', execs dflt eqb N s l = Some (s', os) /\ rel s' m'.
  Proof.
    induction l as [|c l IH]; intros s m m' os R H; cbn [sexecs execs] in *.
    - injection H as <- <-. exists s. auto.
    - destruct (sexec dflt eqb m c) as [[m1 o]|] eqn:E; [|discriminate]. destruct (sexecs dflt eqb m1 l) as [[m2 os']|] eqn:E2; [|discriminate].
      injection H as <- <-. destruct (exec_ok s m c m1 o R E) as (s1 & E3 & R1). destruct (IH s1 m1 m2 os' R1 E2) as (s2 & E4 & R2).
      exists s2. rewrite E3, E4. auto.
  Qed.
  Lemma rel_start : rel start none.
  Proof. split; [intros v; exact I|]. split; [intros; discriminate|]. split; intros; discriminate. Qed.
  (** When no vector is left, nothing is allocated. *)
  Lemma no_leak : forall s m, rel s m -> (forall v, m v = None) -> forall h, heap s h = None.
  Proof.
    intros s m R H h. destruct (heap s h) as [c|] eqn:E; [|reflexivity]. pose proof R as (_ & _ & r3 & _). destruct (r3 _ _ E) as (v & x & Q & _).
    rewrite (rel_absent _ _ _ _ R (H v)) in Q. discriminate.
  Qed.
  Lemma rel_contents : forall s m v l, rel s m -> m v = Some l -> contents s v = Some l.
  Proof. exact contents_ok. Qed.
End P.
