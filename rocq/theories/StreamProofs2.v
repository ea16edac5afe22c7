(** Proofs about StreamModel: a script that waits first keeps the order. *)
From Coq Require Import List Bool Arith Lia FunctionalExtensionality.
From Verif Require Import CollModel StreamModel StreamSpec StreamProofs.
Import ListNotations.

Section Init.
Context {V : Type}.
Implicit Types (p q : list (hcmd V)).

Lemma colls_app p q : colls (p ++ q) = colls p ++ colls q.
Proof. induction p as [|[] p IH]; cbn; rewrite ?IH; reflexivity. Qed.
Lemma els_app n p q : els n (p ++ q) = els n p ++ els (length (colls p) + n) q.
Proof.
  revert n; induction p as [|x p IH]; intros n; cbn [els app]; [reflexivity|]. rewrite IH, app_assoc. do 2 f_equal.
  destruct x; cbn; lia.
Qed.
Lemma els_split n p a x b : els n p = a ++ x :: b ->
  exists pa y pb u v, p = pa ++ y :: pb /\ els1 (length (colls pa) + n) y = u ++ x :: v /\ a = els n pa ++ u /\ b = v ++ els (nc y + (length (colls pa) + n)) pb.
Proof.
  revert n a; induction p as [|y p IH]; intros n a E; cbn [els] in E.
  - destruct a; discriminate.
  - destruct (split_app _ _ _ _ _ E) as [(p2 & -> & F)|(q1 & F & ->)].
    + destruct (IH _ _ F) as (pa & y' & pb & u & v & -> & E2 & -> & ->). exists (y :: pa), y', pb, u, v.
      assert (X : length (colls (y :: pa)) + n = length (colls pa) + (nc y + n)) by (destruct y; cbn; lia).
      rewrite X. cbn [els app]. rewrite <- app_assoc. auto.
    + exists [], y, p, a, q1. cbn [colls length Nat.add els app]. auto.
Qed.
Lemma recs_els n p e : In e (recs (els n p)) -> 2 * n <= e.
Proof.
  revert n; induction p as [|x p IH]; intros n I; cbn [els] in I; [destruct I|].
  rewrite recs_app in I. apply in_app_iff in I. destruct I as [I|I].
  - destruct x; cbn in I; try contradiction. lia.
  - apply IH in I. lia.
Qed.
Lemma recs_els_nodup n p : NoDup (recs (els n p)).
Proof.
  revert n; induction p as [|x p IH]; intros n; cbn [els]; [constructor|]. rewrite recs_app.
  destruct x; cbn [els1 recs flat_map rec1 app nc Nat.add]; auto.
  constructor; [|constructor; [|apply IH]]; [intros [I|I]; [lia|]|intros I]; apply recs_els in I; lia.
Qed.
Lemma in_els n p x : In x p -> exists m, forall y, In y (els1 m x) -> In y (els n p).
Proof.
  revert n; induction p as [|y p IH]; intros n I; [destruct I|]. destruct I as [->|I].
  - exists n. intros y J. cbn [els]. apply in_app_iff. auto.
  - destruct (IH (nc y + n) I) as (m & H). exists m. intros z J. cbn [els]. apply in_app_iff. auto.
Qed.
Lemma wait_event n p w m : w < length (colls p) -> m = w + n -> In (@NR V (2 * m + 1)) (els n p).
Proof.
  revert n w; induction p as [|x p IH]; intros n w H ->; [cbn in H; lia|]. cbn [els]. apply in_app_iff.
  destruct x; cbn [colls length] in H; try (right; cbn [nc Nat.add]; eapply IH; [exact H|reflexivity]).
  destruct w as [|w].
  - left. cbn. auto.
  - right. eapply (IH _ w); [lia|]. cbn. lia.
Qed.

Theorem ordered_start p : waitsFirst p -> ordered (els 0 p) [].
Proof.
  intros [W1 W2]. constructor.
  - apply recs_els_nodup.
  - intros e _ [].
  - intros a e b E. apply els_split in E. destruct E as (pa & y & pb & u & v & -> & E & -> & ->). right. apply in_app_iff. right.
    destruct y; cbn in E; try (destruct u as [|? [|]]; discriminate).
    destruct u as [|? [|? [|? [|? [|]]]]]; try discriminate. cbn in E. injection E as <- <- _. left. reflexivity.
  - intros a e b E. apply els_split in E. destruct E as (pa & y & pb & u & v & -> & E & -> & ->). right. apply in_app_iff. left.
    destruct y; cbn in E; try (destruct u as [|? [|? [|? [|? [|]]]]]; discriminate).
    destruct u as [|? [|]]; try discriminate. cbn in E. injection E as <- _.
    assert (X := W2 _ _ _ eq_refl). eapply wait_event; [exact X|lia].
  - intros a c b E. apply els_split in E. destruct E as (pa & y & pb & u & v & -> & E & -> & ->). right.
    destruct y; cbn in E; try (destruct u as [|? [|? [|? [|? [|]]]]]; discriminate).
    destruct u as [|? [|? [|? [|? [|]]]]]; try discriminate. cbn in E. injection E as <- <- _ _. eauto.
  - intros a c a' x b E CL. apply els_split in E. destruct E as (pa & y & pb & u & v & -> & E & -> & F).
    destruct y; cbn [els1] in E; try (destruct u as [|? [|? [|? [|? [|]]]]]; discriminate).
    destruct u as [|? [|? [|? [|? [|]]]]]; try discriminate. cbn [app] in E. injection E as _ _ -> <-. cbn [app] in F.
    destruct a' as [|z a']; cbn [app] in F.
    + injection F as -> _. destruct CL.
    + injection F as -> F. symmetry in F. apply els_split in F. destruct F as (pc & y & pd & u' & v' & -> & E2 & -> & _).
      assert (T : touches y c) by (destruct y; cbn in E2; try (destruct u' as [|? [|? [|? [|? [|]]]]]; cbn in E2; try discriminate; injection E2 as ? ?; subst x; try exact CL; destruct CL);
        destruct u' as [|? [|? [|? [|? [|]]]]]; cbn in E2; try discriminate; injection E2; intros; subst x; destruct CL).
      pose proof (W1 _ _ _ _ _ eq_refl T) as I.
      eexists [], _, _. split; [reflexivity|]. apply in_app_iff. left.
      destruct (in_els (nc (@HColl V c) + (length (colls pa) + 0)) pc _ I) as (m & H). apply H. left. do 2 f_equal. lia.
Qed.
End Init.
