(* The rounds of reduceIdxMerge. *)
From Coq Require Import List Arith ZArith Bool Lia Permutation.
From Verif Require Import ReduceSpec GpuModel GpuSpec GpuProofs GpuLemmas CudaModel CudaMoveModel CudaReduceModel CudaReduceProofs CudaReduceProofs2 CudaReduceProofs3 GpuWarp
  CudaExtremeModel CudaExtremeSpec CudaExtremeProofs.
Import ListNotations.
Local Open Scope nat_scope.

Section Best.
Context {A : Type} (lt : A -> A -> bool) (e : A).
Hypothesis TO : total_order lt.

Lemma lt_irr : forall x, lt x x = false. Proof. apply TO. Qed.
Lemma lt_asym : forall x y, lt x y = true -> lt y x = false.
Proof. intros x y H. destruct (lt y x) eqn:E; [|reflexivity]. rewrite <- (lt_irr x). symmetry. apply (proj1 (proj2 TO) x y x); assumption. Qed.
Lemma le_trans : forall x y z, lt y x = false -> lt z y = false -> lt z x = false.
Proof.
  intros x y z H1 H2. destruct (lt z x) eqn:E; [|reflexivity]. destruct (lt x y) eqn:E2.
  - rewrite <- H2. symmetry. apply (proj1 (proj2 TO) z x y); assumption.
  - rewrite (proj2 (proj2 TO) x y E2 H1) in E. congruence.
Qed.
Lemma le_anti : forall x y, lt y x = false -> lt x y = false -> x = y.
Proof. intros x y H1 H2. apply TO; assumption. Qed.

Lemma max_comm : forall a b, maxOf lt a b = maxOf lt b a.
Proof. intros a b. unfold maxOf. destruct (lt b a) eqn:E1, (lt a b) eqn:E2; try reflexivity; [rewrite (lt_asym _ _ E1) in E2; discriminate|apply le_anti; assumption]. Qed.
Lemma max_l : forall a b, lt (maxOf lt a b) a = false.
Proof. intros a b. unfold maxOf. destruct (lt b a) eqn:E; [apply lt_irr|exact E]. Qed.
Lemma max_r : forall a b, lt (maxOf lt a b) b = false.
Proof. intros a b. rewrite max_comm. apply max_l. Qed.
Lemma max_one : forall a b, maxOf lt a b = a \/ maxOf lt a b = b.
Proof. intros a b. unfold maxOf. destruct (lt b a); auto. Qed.
Lemma max_assoc : forall a b c, maxOf lt a (maxOf lt b c) = maxOf lt (maxOf lt a b) c.
Proof.
  intros a b c. apply le_anti.
  - destruct (max_one a (maxOf lt b c)) as [->| ->]; [apply (le_trans _ (maxOf lt a b)); [apply max_l|apply max_l]|].
    destruct (max_one b c) as [->| ->]; [apply (le_trans _ (maxOf lt a b)); [apply max_r|apply max_l]|apply max_r].
  - destruct (max_one (maxOf lt a b) c) as [->| ->]; [|apply (le_trans _ (maxOf lt b c)); [apply max_r|apply max_r]].
    destruct (max_one a b) as [->| ->]; [apply max_l|apply (le_trans _ (maxOf lt b c)); [apply max_l|apply max_r]].
Qed.
Lemma max_same : forall a, maxOf lt a a = a.
Proof. intros a. unfold maxOf. destruct (lt a a); reflexivity. Qed.

Lemma same_refl : forall x, sameVal lt x x = true.
Proof. intros x. unfold sameVal. rewrite lt_irr. reflexivity. Qed.

(* the element kept: the other one unless it is smaller *)
Lemma keep_spec : forall mine other, keepOf lt mine other = if lt (fst other) (fst mine) then mine else other.
Proof.
  intros mine other. unfold keepOf, maxOf. destruct (lt (fst mine) (fst other)) eqn:E.
  - rewrite same_refl, (lt_asym _ _ E). reflexivity.
  - unfold sameVal. rewrite E. cbn [negb andb]. destruct (lt (fst other) (fst mine)); reflexivity.
Qed.

Lemma keep_fst : forall a b, fst (keepOf lt a b) = maxOf lt (fst a) (fst b).
Proof. intros a b. rewrite keep_spec. unfold maxOf. destruct (lt (fst b) (fst a)); reflexivity. Qed.

Lemma keep_one : forall a b, keepOf lt a b = a \/ keepOf lt a b = b.
Proof. intros a b. rewrite keep_spec. destruct (lt (fst b) (fst a)); auto. Qed.

Lemma shuf_fst : forall offs (f : nat -> A * Z) t, fst (shuf (keepOf lt) offs f t) = shuf (maxOf lt) offs (fun t => fst (f t)) t.
Proof.
  induction offs as [|d r IH]; intros f t; [reflexivity|]. cbn [shuf]. rewrite IH.
  assert (X : forall (g h : nat -> A) offs t, (forall t, g t = h t) -> shuf (maxOf lt) offs g t = shuf (maxOf lt) offs h t).
  { clear. intros g h offs. revert g h. induction offs as [|d r IH]; intros g h t E; cbn [shuf]; [apply E|]. apply IH. intros u. rewrite !E. reflexivity. }
  apply X. intros u. apply keep_fst.
Qed.

Lemma src_warp : forall t d, src t d / 32 = t / 32.
Proof.
  intros t d. unfold src. destruct (Nat.ltb_spec (t mod 32 + d) 32); [|reflexivity].
  rewrite (Nat.div_mod t 32) at 1 by lia. replace (32 * (t / 32) + t mod 32 + d) with ((t mod 32 + d) + t / 32 * 32) by lia.
  rewrite Nat.div_add by lia. rewrite Nat.div_small by lia. reflexivity.
Qed.

Lemma shuf_in : forall offs (f : nat -> A * Z) t, exists s, s / 32 = t / 32 /\ shuf (keepOf lt) offs f t = f s.
Proof.
  induction offs as [|d r IH]; intros f t; [exists t; auto|]. cbn [shuf].
  destruct (IH (fun t => keepOf lt (f t) (f (src t d))) t) as (s & Es & ->). destruct (keep_one (f s) (f (src s d))) as [->| ->].
  - exists s. auto.
  - exists (src s d). split; [rewrite src_warp; exact Es|reflexivity].
Qed.

Lemma fold1_ub : forall (g : nat -> A) n i, i <= n -> lt (fold1 (maxOf lt) g n) (g i) = false.
Proof.
  induction n as [|n IH]; intros i Hi; cbn [fold1].
  - assert (i = 0) as -> by lia. apply lt_irr.
  - destruct (Nat.eq_dec i (S n)) as [->|]; [apply max_r|]. apply (le_trans _ (fold1 (maxOf lt) g n)); [apply IH; lia|apply max_l].
Qed.

Lemma warp_best : forall w (f : nat -> A * Z),
  (exists i, i < 32 /\ shuf (keepOf lt) offs32 f (32 * w) = f (32 * w + i)) /\
  forall j, j < 32 -> lt (fst (shuf (keepOf lt) offs32 f (32 * w))) (fst (f (32 * w + j))) = false.
Proof.
  intros w f. split.
  - destruct (shuf_in offs32 f (32 * w)) as (s & Es & ->). rewrite Nat.mul_comm, Nat.div_mul in Es by lia.
    exists (s mod 32). pose proof (Nat.mod_upper_bound s 32). split; [lia|]. rewrite <- Es, <- Nat.div_mod by lia. reflexivity.
  - intros j Hj. rewrite shuf_fst. rewrite (warp_fold (maxOf lt) max_comm max_assoc).
    apply (fold1_ub (fun i => fst (f (32 * w + i))) 31 j). lia.
Qed.

Lemma twice_best : forall W (f : nat -> A * Z), 0 < W < 32 ->
  (forall P : A * Z -> Prop, P (e, (-1)%Z) -> (forall t, t < 32 * W -> P (f t)) -> P (twice lt e W f)) /\
  (forall t, t < 32 * W -> lt (fst (twice lt e W f)) (fst (f t)) = false) /\ lt (fst (twice lt e W f)) e = false.
Proof.
  intros W f HW. unfold twice. set (v := fun t => _).
  destruct (warp_best 0 v) as [(i & Hi & E) D]. change (32 * 0) with 0 in *. cbn [Nat.add] in E, D. rewrite E in D. change (shuf (keepOf lt) offs32 v (32 * 0)) with (shuf (keepOf lt) offs32 v 0) in E. rewrite E.
  split; [|split].
  - intros P P0 PF. unfold v. destruct (Nat.ltb_spec i W); [|exact P0]. destruct (warp_best i f) as [(j & Hj & ->) _]. apply PF. lia.
  - intros t Ht. apply (le_trans _ (fst (v (t / 32)))).
    + unfold v. assert (t / 32 < W) by (apply Nat.div_lt_upper_bound; lia). destruct (Nat.ltb_spec (t / 32) W); [|lia].
      destruct (warp_best (t / 32) f) as [_ D']. rewrite (Nat.div_mod t 32) at 2 by lia. apply D'. apply Nat.mod_upper_bound. lia.
    + apply D. apply Nat.div_lt_upper_bound; lia.
  - specialize (D 31 ltac:(lia)). unfold v at 2 in D. destruct (Nat.ltb_spec 31 W); [lia|]. exact D.
Qed.

(* when nothing is greater than e *)
Lemma twice_pad : forall W (f : nat -> A * Z), 0 < W < 32 -> (forall t, t < 32 * W -> lt e (fst (f t)) = false) -> twice lt e W f = (e, (-1)%Z).
Proof.
  intros W f HW H. unfold twice. set (v := fun t => _).
  assert (V31 : v 31 = (e, (-1)%Z)) by (unfold v; destruct (Nat.ltb_spec 31 W); [lia|reflexivity]).
  assert (VL : forall t, t < 32 -> lt e (fst (v t)) = false).
  { intros t Ht. unfold v. destruct (Nat.ltb_spec t W); [|apply lt_irr]. destruct (warp_best t f) as [(j & Hj & ->) _]. apply H. lia. }
  assert (AB : forall x, lt e (fst x) = false -> keepOf lt x (e, (-1)%Z) = (e, (-1)%Z)) by (intros x Hx; rewrite keep_spec; cbn [fst]; rewrite Hx; reflexivity).
  assert (CL : forall x y, lt e (fst x) = false -> lt e (fst y) = false -> lt e (fst (keepOf lt x y)) = false) by (intros x y Hx Hy; destruct (keep_one x y) as [->| ->]; assumption).
  clearbody v. cbn [shuf].
  set (f1 := fun t => keepOf lt (v t) (v (src t 16))). set (f2 := fun t => keepOf lt (f1 t) (f1 (src t 8))).
  set (f3 := fun t => keepOf lt (f2 t) (f2 (src t 4))). set (f4 := fun t => keepOf lt (f3 t) (f3 (src t 2))).
  assert (S : forall t d, t < 32 -> src t d < 32) by (intros t d Ht; unfold src; rewrite (Nat.mod_small t 32) by lia; destruct (Nat.ltb_spec (t + d) 32); lia).
  assert (L1 : forall t, t < 32 -> lt e (fst (f1 t)) = false) by (intros; apply CL; auto).
  assert (L2 : forall t, t < 32 -> lt e (fst (f2 t)) = false) by (intros; apply CL; auto).
  assert (L3 : forall t, t < 32 -> lt e (fst (f3 t)) = false) by (intros; apply CL; auto).
  assert (L4 : forall t, t < 32 -> lt e (fst (f4 t)) = false) by (intros; apply CL; auto).
  assert (E1 : f1 15 = (e, (-1)%Z)) by (unfold f1; change (src 15 16) with 31; rewrite V31; apply AB, VL; lia).
  assert (E2 : f2 7 = (e, (-1)%Z)) by (unfold f2; change (src 7 8) with 15; rewrite E1; apply AB, L1; lia).
  assert (E3 : f3 3 = (e, (-1)%Z)) by (unfold f3; change (src 3 4) with 7; rewrite E2; apply AB, L2; lia).
  assert (E4 : f4 1 = (e, (-1)%Z)) by (unfold f4; change (src 1 2) with 3; rewrite E3; apply AB, L3; lia).
  change (keepOf lt (f4 0) (f4 (src 0 1)) = (e, (-1)%Z)). change (src 0 1) with 1. rewrite E4. apply AB, L4. lia.
Qed.
End Best.
