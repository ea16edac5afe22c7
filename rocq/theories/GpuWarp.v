(* Reductions within a warp, blocks one after the other, and smaller buffers. *)
From Coq Require Import List Arith ZArith Bool Lia Permutation.
From Verif Require Import GpuModel GpuSpec GpuProofs GpuLemmas CudaReduceModel.
Import ListNotations.

(* ---- folds of a commutative operation ---- *)

Section Folds.
Context {V : Type} (op : V -> V -> V) (e : V).
Hypothesis Hc : forall a b, op a b = op b a.
Hypothesis Ha : forall a b c, op a (op b c) = op (op a b) c.
Hypothesis He : op e e = e.

Lemma fold_e : forall l, op (fold_right op e l) e = fold_right op e l.
Proof. induction l as [|x l IH]; [exact He|]. cbn [fold_right]. rewrite <- Ha, IH. reflexivity. Qed.

Lemma fold_app : forall l l', fold_right op e (l ++ l') = op (fold_right op e l) (fold_right op e l').
Proof.
  induction l as [|x l IH]; intros l'; cbn [app fold_right].
  - rewrite Hc. symmetry. apply fold_e.
  - rewrite IH. apply Ha.
Qed.

Lemma fold_perm : forall l l', Permutation l l' -> fold_right op e l = fold_right op e l'.
Proof.
  induction 1 as [|x l l' P IH|x y l|l l' l'' P IH P' IH']; cbn [fold_right].
  - reflexivity.
  - rewrite IH. reflexivity.
  - rewrite !Ha, (Hc y x). reflexivity.
  - congruence.
Qed.

Lemma fold_pads : forall A (l : list A), fold_right op e (map (fun _ => e) l) = e.
Proof. induction l as [|x l IH]; [reflexivity|]. cbn [map fold_right]. rewrite IH. exact He. Qed.

Lemma fold_flat : forall A (f : A -> list V) l,
  fold_right op e (flat_map f l) = fold_right op e (map (fun x => fold_right op e (f x)) l).
Proof. induction l as [|x l IH]; [reflexivity|]. cbn [flat_map map fold_right]. rewrite fold_app, IH. reflexivity. Qed.

(* the same without e, of at least one element *)
Fixpoint fold1 (g : nat -> V) (n : nat) : V := match n with O => g 0 | S n => op (fold1 g n) (g (S n)) end.

Lemma fold1_e : forall g n, op (fold1 g n) e = fold_right op e (map g (seq 0 (S n))).
Proof.
  intros g n. induction n as [|n IH]; [reflexivity|].
  rewrite seq_S, map_app, fold_app. cbn [fold1]. rewrite <- IH. cbn [plus map fold_right].
  generalize (fold1 g n) (g (S n)). intros x y. rewrite <- !Ha. f_equal.
  rewrite (Hc e (op y e)), <- Ha, He. reflexivity.
Qed.

Lemma fold1_ext : forall g h n, (forall i, i <= n -> g i = h i) -> fold1 g n = fold1 h n.
Proof. induction n as [|n IH]; intros H; cbn [fold1]; [apply H; lia|]. rewrite IH, H; auto. Qed.

Lemma fold1_add : forall g h n, fold1 (fun i => op (g i) (h i)) n = op (fold1 g n) (fold1 h n).
Proof.
  induction n as [|n IH]; cbn [fold1]; [reflexivity|]. rewrite IH.
  generalize (fold1 g n) (fold1 h n) (g (S n)) (h (S n)). intros a b c d.
  rewrite <- (Ha a b), <- (Ha a c), (Ha b c d), (Ha c b d), (Hc b c). reflexivity.
Qed.

Lemma fold1_split : forall g n k, fold1 g (n + S k) = op (fold1 g n) (fold1 (fun i => g (S n + i)) k).
Proof.
  intros g n. induction k as [|k IH].
  - replace (n + 1) with (S n) by lia. cbn [fold1]. rewrite Nat.add_0_r. reflexivity.
  - replace (n + S (S k)) with (S (n + S k)) by lia. cbn [fold1]. rewrite IH, <- Ha. reflexivity.
Qed.

(* ---- one warp ---- *)

(* what lane t has after the shuffles *)
Fixpoint shuf (offs : list nat) (f : nat -> V) (t : nat) : V :=
  match offs with
  | [] => f t
  | d :: r => shuf r (fun t => op (f t) (f (src t d))) t
  end.

Lemma src_low : forall w i d, i + d < 32 -> src (32 * w + i) d = 32 * w + (i + d).
Proof.
  intros w i d H. unfold src. replace ((32 * w + i) mod 32) with i.
  - destruct (Nat.ltb_spec (i + d) 32); lia.
  - rewrite Nat.add_comm, Nat.mul_comm, Nat.mod_add by lia. symmetry. apply Nat.mod_small. lia.
Qed.

Lemma shuf_step : forall w f s, 2 * S s <= 32 ->
  fold1 (fun i => op (f (32 * w + i)) (f (src (32 * w + i) (S s)))) s = fold1 (fun i => f (32 * w + i)) (s + S s).
Proof.
  intros w f s H. rewrite fold1_split, <- fold1_add. apply fold1_ext. intros i Hi. do 2 f_equal.
  rewrite src_low by lia. lia.
Qed.

Lemma warp_fold : forall w f, shuf [16; 8; 4; 2; 1] f (32 * w) = fold1 (fun i => f (32 * w + i)) 31.
Proof.
  intros w f. change (fold1 (fun i => f (32 * w + i)) 31) with (fold1 (fun i => f (32 * w + i)) (15 + 16)). rewrite <- (shuf_step w f 15) by lia.
  set (f1 := fun t => op (f t) (f (src t 16))).
  change (fold1 (fun i => op (f (32 * w + i)) (f (src (32 * w + i) 16))) 15) with (fold1 (fun i => f1 (32 * w + i)) (7 + 8)).
  rewrite <- (shuf_step w f1 7) by lia.
  set (f2 := fun t => op (f1 t) (f1 (src t 8))).
  change (fold1 (fun i => op (f1 (32 * w + i)) (f1 (src (32 * w + i) 8))) 7) with (fold1 (fun i => f2 (32 * w + i)) (3 + 4)).
  rewrite <- (shuf_step w f2 3) by lia.
  set (f3 := fun t => op (f2 t) (f2 (src t 4))).
  change (fold1 (fun i => op (f2 (32 * w + i)) (f2 (src (32 * w + i) 4))) 3) with (fold1 (fun i => f3 (32 * w + i)) (1 + 2)).
  rewrite <- (shuf_step w f3 1) by lia.
  set (f4 := fun t => op (f3 t) (f3 (src t 2))).
  change (fold1 (fun i => op (f3 (32 * w + i)) (f3 (src (32 * w + i) 2))) 1) with (fold1 (fun i => f4 (32 * w + i)) (0 + 1)).
  rewrite <- (shuf_step w f4 0) by lia.
  cbn [fold1]. rewrite Nat.add_0_r. reflexivity.
Qed.

Lemma map_add_seq : forall a n b, map (fun i => a + i) (seq b n) = seq (a + b) n.
Proof.
  induction n as [|n IH]; intros b; cbn [seq map]; [reflexivity|]. f_equal. rewrite IH. f_equal. lia.
Qed.

(* the lanes of a warp together, with one more e *)
Lemma warp_all : forall w f, op (shuf [16; 8; 4; 2; 1] f (32 * w)) e = fold_right op e (map f (seq (32 * w) 32)).
Proof.
  intros w f. rewrite warp_fold, fold1_e. f_equal.
  transitivity (map f (map (fun i => 32 * w + i) (seq 0 32))).
  - rewrite map_map. reflexivity.
  - f_equal. rewrite map_add_seq. f_equal. lia.
Qed.

Lemma fold1_absorb : forall g n, op (g n) e = g n -> op (fold1 g n) e = fold1 g n.
Proof. intros g [|n] H; [exact H|]. cbn [fold1]. rewrite <- Ha, H. reflexivity. Qed.

(* ... which changes nothing if the last lane has absorbed e already *)
Lemma warp_whole : forall w f, op (f (32 * w + 31)) e = f (32 * w + 31) ->
  shuf [16; 8; 4; 2; 1] f (32 * w) = fold_right op e (map f (seq (32 * w) 32)).
Proof. intros w f H. rewrite <- warp_all, warp_fold, fold1_absorb; [reflexivity|exact H]. Qed.
End Folds.

Section Warp.
Context {V : Type}.
Variable BD : nat.

Lemma weval_run : forall w (L L' L3 : nat -> lane (V := V)),
  (forall t, inw BD w t -> run (L t) = run (L' t)) -> weval BD w L' L3 -> weval BD w L L3.
Proof.
  intros w L L' L3 E H. inversion H as [A B H1|A L1 L2 B C H1 H2 H3]; subst.
  - apply we_stop. intros t Ht. rewrite E by exact Ht. apply H1, Ht.
  - apply (we_shfl BD w L L1 L2 L3 C); auto. intros t Ht. rewrite E by exact Ht. apply H1, Ht.
Qed.

Lemma src_in : forall w t d, 32 * w + 32 <= BD -> inw BD w t -> inw BD w (src t d).
Proof.
  intros w t d HW [E Ht]. unfold inw, src. destruct (Nat.ltb_spec (t mod 32 + d) 32) as [H|H]; [|auto].
  pose proof (Nat.div_mod t 32). assert ((t + d) / 32 = w) by (symmetry; apply (Nat.div_unique _ _ _ (t mod 32 + d)); lia).
  lia.
Qed.

Lemma weval_shuffles : forall (op : V -> V -> V) offs w (L : nat -> lane) f k L3,
  32 * w + 32 <= BD ->
  (forall t, inw BD w t -> lp (L t) = shuffles op offs (f t) (k t)) ->
  weval BD w (fun t => withp (L t) (k t (shuf op offs f t))) L3 ->
  weval BD w L L3.
Proof.
  intros op offs. induction offs as [|d r IH]; intros w L f k L3 HW HL H.
  - apply weval_run with (L' := fun t => withp (L t) (k t (f t))); [|exact H].
    intros t Ht. unfold run, withp. cbn [lp lg ls gr gw sr sw]. rewrite (HL t Ht). reflexivity.
  - apply (we_shfl BD w L L (fun t => withp (L t) (shuffles op r (op (f t) (f (src t d))) (k t))) L3 HW).
    + intros t Ht. pose proof (HL t Ht) as E. cbn [shuffles] in E. unfold run. destruct (L t) as [g s P r1 r2 r3 r4].
      cbn [lp lg ls gr gw sr sw] in *. subst P. cbn [solo]. split; [reflexivity|exact I].
    + intros t Ht. unfold shuffled. rewrite (HL t Ht). cbn [shuffles]. rewrite (HL (src t d) (src_in w t d HW Ht)). reflexivity.
    + apply (IH w _ (fun t => op (f t) (f (src t d))) k); [exact HW|reflexivity|]. exact H.
Qed.
End Warp.

(* ---- blocks one after the other ---- *)

Section Order.
Context {V : Type}.

(* block b on its own *)
Definition only (l : launch V) (b : nat) : launch V := mkLaunch 1 (bdim l) (shar l) (fun _ t => code l b t).

Definition mirrors (b : nat) (s : state V) (S : state V) : Prop :=
  mem S = mem s /\ (forall a, shm S b a = shm s 0 a) /\ (forall t, pr S b t = pr s 0 t).

Definition keeps (b : nat) (S S' : state V) : Prop :=
  forall b', b' <> b -> (forall a, shm S' b' a = shm S b' a) /\ (forall t, pr S' b' t = pr S b' t).

Lemma updt_at : forall (f : nat -> nat -> thr V) b t p t', updt f b t p b t' = if t =? t' then p else f b t'.
Proof. intros. unfold updt. rewrite Nat.eqb_refl. reflexivity. Qed.

Lemma updt_off : forall (f : nat -> nat -> thr V) b t p b' t', b' <> b -> updt f b t p b' t' = f b' t'.
Proof. intros. unfold updt. destruct (Nat.eqb_spec b b'); [congruence|reflexivity]. Qed.

Lemma upds_at : forall A (f : nat -> addr -> A) b a x a', upds f b a x b a' = upd (f b) a x a'.
Proof. intros. unfold upds. rewrite Nat.eqb_refl. reflexivity. Qed.

Lemma upds_off : forall A (f : nat -> addr -> A) b a x b' a', b' <> b -> upds f b a x b' a' = f b' a'.
Proof. intros. unfold upds. destruct (Nat.eqb_spec b b'); [congruence|reflexivity]. Qed.

Lemma one_step : forall l b s s' S, b < grid l -> step (only l b) s s' -> mirrors b s S ->
  exists S', step l S S' /\ mirrors b s' S' /\ keeps b S S'.
Proof.
  intros l b s s' S Hb H (M1 & M2 & M3).
  inversion H as [s0 b0 t a v k Hb0 Ht Ep Em|s0 b0 t a v k Hb0 Ht Ep Em|s0 b0 t a v k Hb0 Ht Ep Em|s0 b0 t a v k Hb0 Ht Ep Em
                 |s0 b0 w Hb0 Hw Hs|s0 b0 Hb0 Hq Hx]; subst; cbn [only grid bdim] in *; assert (b0 = 0) as -> by lia.
  - eexists. split; [apply (step_ld l S b t a v k); auto; [rewrite M3; exact Ep|rewrite M1; exact Em]|].
    split; [split; [|split]|]; cbn [mem shm pr].
    + exact M1.
    + exact M2.
    + intros t'. rewrite !updt_at, M3. reflexivity.
    + intros b' Hb'. split; cbn [mem shm pr]; intros; [reflexivity|]. apply updt_off, Hb'.
  - eexists. split; [apply (step_st l S b t a v k); auto; [rewrite M3; exact Ep|rewrite M1; exact Em]|].
    split; [split; [|split]|]; cbn [mem shm pr].
    + rewrite M1. reflexivity.
    + exact M2.
    + intros t'. rewrite !updt_at, M3. reflexivity.
    + intros b' Hb'. split; cbn [mem shm pr]; intros; [reflexivity|]. apply updt_off, Hb'.
  - eexists. split; [apply (step_sld l S b t a v k); auto; [rewrite M3; exact Ep|rewrite M2; exact Em]|].
    split; [split; [|split]|]; cbn [mem shm pr].
    + exact M1.
    + exact M2.
    + intros t'. rewrite !updt_at, M3. reflexivity.
    + intros b' Hb'. split; cbn [mem shm pr]; intros; [reflexivity|]. apply updt_off, Hb'.
  - eexists. split; [apply (step_sst l S b t a v k); auto; [rewrite M3; exact Ep|rewrite M2; exact Em]|].
    split; [split; [|split]|]; cbn [mem shm pr].
    + exact M1.
    + intros a'. rewrite !upds_at. unfold upd. rewrite M2. reflexivity.
    + intros t'. rewrite !updt_at, M3. reflexivity.
    + intros b' Hb'. split; cbn [mem shm pr]; intros; [apply upds_off, Hb'|]. apply updt_off, Hb'.
  - eexists. split; [apply (step_shfl l S b w); auto; intros t Ht; rewrite M3; apply Hs, Ht|].
    split; [split; [|split]|]; cbn [mem shm pr].
    + exact M1.
    + exact M2.
    + intros t'. rewrite !Nat.eqb_refl. unfold shuffled. rewrite M3.
      destruct (pr s 0 t') as [| | | | | |v d k|] eqn:E; try reflexivity. rewrite M3. reflexivity.
    + intros b' Hb'. split; cbn [mem shm pr]; intros; [reflexivity|]. destruct (Nat.eqb_spec b b'); [congruence|reflexivity].
  - eexists. split; [apply (step_sync l S b); auto|].
    + intros t Ht. rewrite M3. apply Hq, Ht.
    + destruct Hx as (t & Ht & W). exists t. split; [exact Ht|]. rewrite M3. exact W.
    + split; [split; [|split]|]; cbn [mem shm pr].
      * exact M1.
      * exact M2.
      * intros t'. rewrite !Nat.eqb_refl, M3. reflexivity.
      * intros b' Hb'. split; cbn [mem shm pr]; intros; [reflexivity|]. destruct (Nat.eqb_spec b b'); [congruence|reflexivity].
Qed.

Lemma one_block : forall l b s s', b < grid l -> reach (only l b) s s' -> forall S, mirrors b s S ->
  exists S', reach l S S' /\ mirrors b s' S' /\ keeps b S S'.
Proof.
  intros l b s s' Hb H. induction H as [|s' s'' H IH Hs]; intros S M.
  - exists S. split; [constructor|]. split; [exact M|]. intros b' _. auto.
  - destruct (IH S M) as (S' & R & M' & K). destruct (one_step l b s' s'' S' Hb Hs M') as (S'' & St & M'' & K').
    exists S''. split; [eapply reach_step; eauto|]. split; [exact M''|]. intros b' Hb'.
    destruct (K b' Hb') as [K1 K2], (K' b' Hb') as [K3 K4]. split; intros; [rewrite K3; apply K1|rewrite K4; apply K2].
Qed.

(* the blocks of bs one after the other *)
Fixpoint in_turn (l : launch V) (bs : list nat) (m : addr -> cell V) (Q : (addr -> cell V) -> Prop) : Prop :=
  match bs with
  | [] => Q m
  | b :: bs => sometimes (only l b) m (fun m' => in_turn l bs m' Q)
  end.

Lemma in_turn_reach : forall l bs m Q S, NoDup bs -> (forall b, In b bs -> b < grid l) -> in_turn l bs m Q ->
  mem S = m -> (forall b, In b bs -> (forall a, shm S b a = if shar l a then Some None else None) /\ forall t, pr S b t = code l b t) ->
  exists S', reach l S S' /\ Q (mem S') /\ (forall b t, In b bs -> t < bdim l -> pr S' b t = Done) /\
             (forall b, ~ In b bs -> (forall t, pr S' b t = pr S b t)).
Proof.
  intros l bs. induction bs as [|b bs IH]; intros m Q S N HB H Em HS.
  - exists S. split; [constructor|]. subst m. split; [exact H|]. split; [intros ? ? []|auto].
  - apply NoDup_cons_iff in N as [N1 N2]. destruct H as (s & R & F & H).
    assert (Hb : b < grid l) by (apply HB; left; reflexivity).
    destruct (one_block l b _ _ Hb R S) as (S1 & R1 & (M1 & M2 & M3) & K1).
    { split; [exact Em|]. destruct (HS b (or_introl eq_refl)) as [A B]. split; [exact A|exact B]. }
    destruct (IH (mem s) Q S1 N2) as (S2 & R2 & HQ & D2 & O2).
    + intros b' Hb'. apply HB. right. exact Hb'.
    + exact H.
    + exact M1.
    + intros b' Hb'. destruct (HS b' (or_intror Hb')) as [A B].
      destruct (K1 b') as [A' B']; [intros ->; contradiction|]. split; intros; [rewrite A'; apply A|rewrite B'; apply B].
    + exists S2. split; [eapply reach_trans; eauto|]. split; [exact HQ|]. split.
      * intros b' t Hb' Ht. destruct (in_dec Nat.eq_dec b' bs) as [Hin|Hin]; [apply D2; auto|].
        rewrite (O2 b' Hin). destruct Hb' as [->|Hb']; [|contradiction]. rewrite M3. apply F; cbn [only grid bdim]; auto.
      * intros b' Hb' t. rewrite O2 by (intros X; apply Hb'; right; exact X). apply K1. intros ->. apply Hb'. left. reflexivity.
Qed.

Theorem block_order : forall l bs m Q, Permutation bs (seq 0 (grid l)) -> in_turn l bs m Q -> sometimes l m Q.
Proof.
  intros l bs m Q P H.
  assert (I : forall b, In b bs <-> b < grid l).
  { intros b. split; intros X.
    - apply (Permutation_in _ P) in X. apply in_seq in X. lia.
    - apply (Permutation_in _ (Permutation_sym P)). apply in_seq. lia. }
  destruct (in_turn_reach l bs m Q (start l m)) as (S & R & HQ & D & _).
  - apply (Permutation_NoDup (Permutation_sym P)), seq_NoDup.
  - intros b Hb. apply I, Hb.
  - exact H.
  - reflexivity.
  - intros b Hb. split; intros; reflexivity.
  - exists S. split; [exact R|]. split; [|exact HQ]. intros b t Hb Ht. apply D; [apply I, Hb|exact Ht].
Qed.

(* ---- a buffer too small for what is stored ---- *)

(* m without the locations of X *)
Definition without (X : addr -> bool) (m : addr -> cell V) : addr -> cell V := fun a => if X a then None else m a.

Theorem shrunk_crash : forall (l : launch V) m (X : addr -> bool) a v,
  sometimes l m (fun m' => m' a = Some (Some v)) -> X a = true -> m a = Some None -> may_crash l (without X m).
Proof.
  intros l m X a v (s & R & F & E) HX Em.
  assert (G : forall s', reach l (start l m) s' -> may_crash l (without X m) \/
    ((forall x, X x = true -> mem s' x = m x) /\
     exists S, reach l (start l (without X m)) S /\ (forall x, mem S x = without X (mem s') x) /\ (forall b x, shm S b x = shm s' b x)
               /\ forall b t, pr S b t = pr s' b t)).
  { intros s' R'. induction R' as [|s1 s2 R1 IH Hs].
    - right. split; [reflexivity|]. exists (start l (without X m)). split; [constructor|]. split; [reflexivity|]. split; reflexivity.
    - destruct IH as [C|(U & S & RS & M1 & M2 & M3)]; [left; exact C|].
      inversion Hs as [s0 b t x y k Hb Ht Ep Ey|s0 b t x y k Hb Ht Ep Ey|s0 b t x y k Hb Ht Ep Ey|s0 b t x y k Hb Ht Ep Ey
                 |s0 b w Hb Hw Hsh|s0 b Hb Hq Hx]; subst.
      + destruct (X x) eqn:Xx.
        * left. exists S. split; [exact RS|]. exists b, t. split; [exact Hb|]. split; [exact Ht|]. rewrite M3, Ep. intros y'.
          rewrite M1. unfold without. rewrite Xx. discriminate.
        * right. cbn [mem shm pr]. split; [exact U|]. eexists. split.
          -- eapply reach_step; [exact RS|]. apply (step_ld l S b t x y k Hb Ht); [rewrite M3; exact Ep|]. rewrite M1. unfold without. rewrite Xx. exact Ey.
          -- cbn [mem shm pr]. split; [exact M1|]. split; [exact M2|]. intros. unfold updt. destruct ((b =? b0) && (t =? t0)); [reflexivity|apply M3].
      + destruct (X x) eqn:Xx.
        * left. exists S. split; [exact RS|]. exists b, t. split; [exact Hb|]. split; [exact Ht|]. rewrite M3, Ep.
          rewrite M1. unfold without. rewrite Xx. reflexivity.
        * right. cbn [mem shm pr]. split.
          { intros z Hz. rewrite upd_other; [apply U, Hz|]. intros ->. congruence. }
          eexists. split.
          -- eapply reach_step; [exact RS|]. apply (step_st l S b t x y k Hb Ht); [rewrite M3; exact Ep|]. rewrite M1. unfold without. rewrite Xx. exact Ey.
          -- cbn [mem shm pr]. split.
             { intros z. unfold upd, without. destruct (addr_eqb x z) eqn:E1.
               - apply addr_eqb_true in E1. subst z. rewrite Xx. reflexivity.
               - rewrite M1. reflexivity. }
             split; [exact M2|]. intros. unfold updt. destruct ((b =? b0) && (t =? t0)); [reflexivity|apply M3].
      + right. cbn [mem shm pr]. split; [exact U|]. eexists. split.
        * eapply reach_step; [exact RS|]. apply (step_sld l S b t x y k Hb Ht); [rewrite M3; exact Ep|]. rewrite M2. exact Ey.
        * cbn [mem shm pr]. split; [exact M1|]. split; [exact M2|]. intros. unfold updt. destruct ((b =? b0) && (t =? t0)); [reflexivity|apply M3].
      + right. cbn [mem shm pr]. split; [exact U|]. eexists. split.
        * eapply reach_step; [exact RS|]. apply (step_sst l S b t x y k Hb Ht); [rewrite M3; exact Ep|]. rewrite M2. exact Ey.
        * cbn [mem shm pr]. split; [exact M1|]. split.
          { intros b0 z. unfold upds, upd. destruct (b =? b0); [destruct (addr_eqb x z); [reflexivity|]|]; apply M2. }
          intros. unfold updt. destruct ((b =? b0) && (t =? t0)); [reflexivity|apply M3].
      + right. cbn [mem shm pr]. split; [exact U|]. eexists. split.
        * eapply reach_step; [exact RS|]. apply (step_shfl l S b w Hb Hw). intros t Ht. rewrite M3. apply Hsh, Ht.
        * cbn [mem shm pr]. split; [exact M1|]. split; [exact M2|]. intros b0 t. destruct ((b =? b0) && (t / 32 =? w)); [|apply M3].
          unfold shuffled. rewrite M3. destruct (pr s1 b t); try reflexivity. rewrite M3. reflexivity.
      + right. cbn [mem shm pr]. split; [exact U|]. eexists. split.
        * eapply reach_step; [exact RS|]. apply (step_sync l S b Hb).
          -- intros t Ht. rewrite M3. apply Hq, Ht.
          -- destruct Hx as (t & Ht & W). exists t. split; [exact Ht|]. rewrite M3. exact W.
        * cbn [mem shm pr]. split; [exact M1|]. split; [exact M2|]. intros b0 t. destruct (b =? b0); [|apply M3]. rewrite M3. reflexivity. }
  destruct (G s R) as [C|(U & _)]; [exact C|]. exfalso. rewrite (U a HX), Em in E. discriminate.
Qed.
End Order.
