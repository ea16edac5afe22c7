(** Proofs: how parameters are put into buckets. *)
From Coq Require Import ZArith List Bool Arith Lia ZifyBool Reals.
From Verif Require Import ReducerModel ReducerSpec.
Import ListNotations.
Open Scope Z_scope.

Lemma layout_ok : forall ps off sz offs tot, layout ps off = (sz, offs, tot) ->
  sz = map pnumel ps /\ tiling off offs sz tot /\ length offs = length ps /\ tot = (off + list_sum sz)%nat.
Proof.
  induction ps as [|p ps IH]; intros off sz offs tot H; cbn in H.
  - injection H as <- <- <-. cbn. split; [reflexivity|]. split; [reflexivity|]. split; lia.
  - destruct (layout ps (off + pnumel p)) as [[sz' offs'] tot'] eqn:E. injection H as <- <- <-.
    destruct (IH _ _ _ _ E) as (-> & T & L & ->). cbn.
    split; [reflexivity|]. split; [split; [reflexivity|exact T]|]. split; [lia|]. unfold list_sum. lia.
Qed.
Lemma createBucket_ok : forall ps, let b := createBucket ps in
  bparams b = ps /\ bsizes b = map pnumel ps /\ tiling 0 (boffsets b) (bsizes b) (btotal b) /\ btotal b = list_sum (map pnumel ps).
Proof.
  intros ps b. unfold b, createBucket. destruct (layout ps 0) as [[sz offs] tot] eqn:E.
  destruct (layout_ok _ _ _ _ _ E) as (-> & T & L & ->). cbn. auto.
Qed.

Lemma bytes_app : forall e a b, bytes e (a ++ b) = bytes e a + bytes e b.
Proof. induction a as [|p a IH]; intros b; [reflexivity|].
  change (bytes e ((p :: a) ++ b)) with (Z.of_nat (pnumel p) * e + bytes e (a ++ b)).
  change (bytes e (p :: a)) with (Z.of_nat (pnumel p) * e + bytes e a). rewrite IH. lia. Qed.

Definition well (esz cap : Z) (b : bucket) : Prop :=
  bparams b <> [] /\ bsizes b = map pnumel (bparams b) /\ tiling 0 (boffsets b) (bsizes b) (btotal b) /\
  btotal b = list_sum (map pnumel (bparams b)) /\
  (bytes esz (bparams b) <= cap \/ length (bparams b) = 1%nat).

Lemma well_create : forall e cap cur, cur <> [] -> (bytes e cur <= cap \/ length cur = 1%nat) -> well e cap (createBucket cur).
Proof.
  intros e cap cur N H. destruct (createBucket_ok cur) as (A & B & C & D). unfold well. rewrite A. auto.
Qed.

Lemma fill_ok : forall e cap dev dt ps cur cb bs,
  fill e cap dev dt ps cur cb = Some bs -> cb = bytes e cur ->
  (cur = [] \/ bytes e cur <= cap \/ length cur = 1%nat) ->
  concat (map bparams bs) = cur ++ ps /\ Forall (well e cap) bs /\ packed e cap bs /\
  (cur <> [] -> exists b r, bs = b :: r /\ exists more, bparams b = cur ++ more).
Proof.
  intros e cap dev dt. induction ps as [|p ps IH]; intros cur cb bs H Hc Hk; cbn [fill] in H.
  - injection H as <-. destruct cur as [|c cur].
    + cbn. repeat split; auto. intros N; congruence.
    + destruct (createBucket_ok (c :: cur)) as (A & _). cbn [map concat]. rewrite A. split; [reflexivity|].
      split; [constructor; [apply well_create; [discriminate|destruct Hk as [Hk|Hk]; [discriminate|exact Hk]]|constructor]|].
      split; [cbn; exact I|]. intros _. exists (createBucket (c :: cur)), []. split; [reflexivity|]. exists []. rewrite A, app_nil_r. reflexivity.
  - destruct (negb (pdevice p =? dev) || negb (pdtype p =? dt)); [discriminate|]. cbv zeta in H.
    destruct cur as [|c cur].
    + destruct (IH [p] _ _ H) as (A & B & C & D).
      * subst cb. cbn. lia.
      * right; right; reflexivity.
      * split; [exact A|]. split; [exact B|]. split; [exact C|]. intros N; congruence.
    + destruct (cap <? cb + Z.of_nat (pnumel p) * e) eqn:Ec.
      * destruct (fill e cap dev dt ps [p] (0 + Z.of_nat (pnumel p) * e)) as [bs'|] eqn:E; [|discriminate]. injection H as <-.
        destruct (IH [p] _ _ E) as (A & B & C & D); [cbn; lia|right; right; reflexivity|].
        destruct (D ltac:(discriminate)) as (b & r & -> & more & Hm).
        destruct (createBucket_ok (c :: cur)) as (A' & _).
        change (map bparams (createBucket (c :: cur) :: b :: r)) with (bparams (createBucket (c :: cur)) :: map bparams (b :: r)).
        cbn [concat]. rewrite A'. rewrite A. split; [reflexivity|].
        split; [constructor; [apply well_create; [discriminate|destruct Hk as [Hk|Hk]; [discriminate|exact Hk]]|exact B]|].
        split.
        -- cbn [packed]. split; [|exact C]. intros q qs Hq. rewrite Hm in Hq. cbn in Hq. injection Hq as <- _.
           rewrite A'. rewrite <- Hc. cbn [bytes fold_right]. lia.
        -- intros _. exists (createBucket (c :: cur)), (b :: r). split; [reflexivity|]. exists []. rewrite A', app_nil_r. reflexivity.
      * destruct (IH ((c :: cur) ++ [p]) _ _ H) as (A & B & C & D).
        -- rewrite bytes_app, <- Hc. cbn [bytes fold_right]. lia.
        -- right; left. rewrite bytes_app, <- Hc. cbn [bytes fold_right]. lia.
        -- split; [rewrite A, <- app_assoc; reflexivity|]. split; [exact B|]. split; [exact C|].
           intros _. destruct D as (b & r & -> & more & Hm); [destruct cur; discriminate|].
           exists b, r. split; [reflexivity|]. exists ([p] ++ more). rewrite Hm, <- app_assoc. reflexivity.
Qed.

Lemma fill_some : forall e cap dev dt ps cur cb,
  (exists bs, fill e cap dev dt ps cur cb = Some bs) <-> (forall p, In p ps -> pdevice p = dev /\ pdtype p = dt).
Proof.
  intros e cap dev dt. induction ps as [|p ps IH]; intros cur cb; cbn [fill].
  - split; [intros _ p []|intros _; eauto].
  - destruct (negb (pdevice p =? dev) || negb (pdtype p =? dt)) eqn:E.
    + split; [intros (bs & H); discriminate|]. intros H. destruct (H p (or_introl eq_refl)). lia.
    + assert (Hp : pdevice p = dev /\ pdtype p = dt) by lia. cbv zeta.
      assert (Q : (forall q, In q (p :: ps) -> pdevice q = dev /\ pdtype q = dt) <-> (forall q, In q ps -> pdevice q = dev /\ pdtype q = dt)).
      { split; intros H q Hq; [apply H; right; exact Hq|]. destruct Hq as [<-|Hq]; [exact Hp|apply H; exact Hq]. }
      rewrite Q. destruct cur as [|c cur]; [apply IH|].
      destruct (cap <? cb + Z.of_nat (pnumel p) * e); [|apply IH].
      rewrite <- (IH [p] (0 + Z.of_nat (pnumel p) * e)).
      destruct (fill e cap dev dt ps [p] (0 + Z.of_nat (pnumel p) * e)) as [bs|]; split; intros (x & H); try discriminate; eauto.
Qed.

Lemma build_ok : forall e cap ps bs, buildBuckets e cap ps = Some bs ->
  concat (map bparams bs) = ps /\ Forall (well e cap) bs /\ packed e cap bs.
Proof.
  intros e cap ps bs H. destruct ps as [|p ps]; cbn [buildBuckets] in H.
  - injection H as <-. cbn. auto.
  - destruct (fill_ok _ _ _ _ _ _ _ _ H eq_refl (or_introl eq_refl)) as (A & B & C & _). auto.
Qed.
Lemma build_some : forall e cap ps, (exists bs, buildBuckets e cap ps = Some bs) <-> same_kind ps.
Proof.
  intros e cap ps. destruct ps as [|p ps].
  - cbn. split; [intros _ p q []|eauto].
  - unfold buildBuckets. rewrite fill_some. split.
    + intros H x y Hx Hy. destruct (H x Hx), (H y Hy). split; congruence.
    + intros H x Hx. apply H; [exact Hx|left; reflexivity].
Qed.
