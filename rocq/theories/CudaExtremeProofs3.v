(* reduceIdxMerge as a whole. *)
From Coq Require Import List Arith ZArith Bool Lia Permutation.
From Verif Require Import ReduceSpec GpuModel GpuSpec GpuProofs GpuLemmas CudaModel CudaMoveModel CudaReduceModel CudaReduceProofs CudaReduceProofs2 CudaReduceProofs3 GpuWarp
  CudaExtremeModel CudaExtremeSpec CudaExtremeProofs CudaExtremeProofs2.
Import ListNotations.
Local Open Scope Z_scope.

Section Merge.
Context {A : Type} (lt : A -> A -> bool) (e : A).
Hypothesis TO : total_order lt.
Notation pad := (e, -1).

(* what is found among x 0, .., x (n - 1) *)
Definition pick (n : nat) (x : nat -> A) (r : A * Z) : Prop :=
  (r = pad \/ exists j, (j < n)%nat /\ r = (x j, Z.of_nat j)) /\
  (forall j, (j < n)%nat -> lt (fst r) (x j) = false) /\ lt (fst r) e = false /\
  ((forall j, (j < n)%nat -> lt e (x j) = false) -> r = pad).

Lemma pick_max : forall n x r, pick n x r -> (exists j, (j < n)%nat /\ lt e (x j) = true) ->
  exists j, r = (x j, Z.of_nat j) /\ some_max lt (map x (seq 0 n)) (x j) j.
Proof.
  intros n x r ([-> |(j & Hj & ->)] & H2 & _ & _) (i & Hi & L).
  - cbn [fst] in H2. rewrite (H2 i Hi) in L. discriminate.
  - exists j. split; [reflexivity|]. cbn [fst] in H2. split.
    + rewrite nth_error_map, (nth_error_nth' _ 0%nat) by (rewrite seq_length; lia). rewrite seq_nth by lia. reflexivity.
    + intros k y Hk. rewrite nth_error_map in Hk. destruct (Nat.lt_ge_cases k n) as [L'|L'].
      * rewrite (nth_error_nth' _ 0%nat) in Hk by (rewrite seq_length; lia). rewrite seq_nth in Hk by lia. injection Hk as <-. apply H2. lia.
      * replace (nth_error (seq 0 n) k) with (@None nat) in Hk; [discriminate|]. symmetry. apply nth_error_None. rewrite seq_length. lia.
Qed.

(* one launch *)
Lemma round_idx : forall indexer outV outI inV inI segL segC g m (inIdx outIdx : nat -> nat -> Z) (val : nat -> nat -> A * Z),
  (0 < g)%nat -> Z.of_nat g * 512 <= 2 ^ 32 -> outV <> outI ->
  (inV <> outV /\ inV <> outI /\ inI <> Some outV /\ inI <> Some outI \/ (g = 1%nat /\ forall b t, inIdx b t = 0 -> t = 0%nat)) ->
  (forall b t, (b < g)%nat -> (t < 512)%nat -> indexer segL segC g (Z.of_nat b * 512 + Z.of_nat t) = Some (inIdx b t, outIdx b t)) ->
  (forall b t, (b < g)%nat -> (t < 512)%nat ->
     if 0 <=? inIdx b t then m (inV, inIdx b t) = Some (Some (El (fst (val b t)))) /\
       match inI with Some p => m (p, inIdx b t) = Some (Some (Ix (snd (val b t)))) | None => snd (val b t) = outIdx b t end
     else val b t = pad) ->
  (forall b, (b < g)%nat -> m (outV, Z.of_nat b) <> None /\ m (outI, Z.of_nat b) <> None) ->
  always (kReduceIdxMerge lt e indexer outV outI inV inI segL segC g) m (fun m' =>
    (forall b, (b < g)%nat -> m' (outV, Z.of_nat b) = Some (Some (El (fst (twice lt e 16 (val b))))) /\ m' (outI, Z.of_nat b) = Some (Some (Ix (snd (twice lt e 16 (val b)))))) /\
    (forall a, fst a <> outV -> fst a <> outI -> m' a = m a)).
Proof.
  intros indexer outV outI inV inI segL segC g m inIdx outIdx val Hg HG NE NR IX VAL OUT. eapply always_mono.
  - apply (block_idx lt e (kReduceIdxMerge lt e indexer outV outI inV inI segL segC g) m inV inI inIdx outIdx outV outI val 16).
    + reflexivity.
    + lia.
    + assert (BS : (0 < blockSize <= 1024)%nat) by (unfold blockSize; lia). split; [|split]; cbn [grid bdim kReduceIdxMerge]; [exact Hg| |exact BS].
      change (2 ^ 31 - 1) with (2 ^ 23 + 2139095039). change (2 ^ 32) with (2 ^ 23 * 512) in HG. lia.
    + intros a. reflexivity.
    + intros b t Hb Ht. cbn [grid bdim code kReduceIdxMerge] in *. unfold gidx. change (Z.of_nat blockSize) with 512. assert (Z.of_nat t < 512) by (change 512 with (Z.of_nat blockSize); lia).
      rewrite Z.mod_small by lia. rewrite IX by lia. reflexivity.
    + intros b t Hb Ht. cbn [grid bdim kReduceIdxMerge] in *. apply VAL; [exact Hb|]. exact Ht.
    + exact OUT.
    + exact NE.
    + intros b b' t p Hb Hb' Ht E Hp Hq. cbn [grid bdim kReduceIdxMerge] in *. destruct NR as [(N1 & N2 & N3 & N4)|[-> N]].
      * exfalso. destruct Hp as [->|Hp], Hq as [->| ->]; congruence.
      * assert (b = 0%nat) as -> by lia. split; [lia|]. apply (N b' t). rewrite E. reflexivity.
  - cbv beta. intros m' [B1 B2]. cbn [grid kReduceIdxMerge] in *. split; [exact B1|]. intros a N1 N2. apply B2. intros b Hb. split; intros ->; cbn [fst] in *; congruence.
Qed.

(* ---- the copies ---- *)

Definition merged2 (m : addr -> cell (word A)) (vs is : option nat) (tmpV tmpI k : nat) (Y : nat -> A * Z) (m' : addr -> cell (word A)) : Prop :=
  (forall v r, vs = Some v -> (r < k)%nat -> m' (v, Z.of_nat r) = Some (Some (El (fst (Y r))))) /\
  (forall i r, is = Some i -> (r < k)%nat -> m' (i, Z.of_nat r) = Some (Some (Ix (snd (Y r))))) /\
  (forall q i, q <> tmpV -> q <> tmpI -> (vs = Some q \/ is = Some q -> ~ 0 <= i < Z.of_nat k) -> m' (q, i) = m (q, i)).

Lemma copies : forall m0 m vs is tmpV tmpI k Y, tmpV <> tmpI ->
  (forall q, vs = Some q -> q <> tmpV /\ q <> tmpI /\ is <> Some q) -> (forall q, is = Some q -> q <> tmpV /\ q <> tmpI) ->
  (forall r, (r < k)%nat -> m (tmpV, Z.of_nat r) = Some (Some (El (fst (Y r)))) /\ m (tmpI, Z.of_nat r) = Some (Some (Ix (snd (Y r))))) ->
  (forall q i, vs = Some q \/ is = Some q -> 0 <= i < Z.of_nat k -> m0 (q, i) <> None) ->
  (forall a, fst a <> tmpV -> fst a <> tmpI -> m a = m0 a) ->
  always_all ((match vs with Some v => [copyDevice v tmpV k] | None => [] end) ++ (match is with Some i => [copyDevice i tmpI k] | None => [] end)) m
    (merged2 m0 vs is tmpV tmpI k Y).
Proof.
  intros m0 m vs is tmpV tmpI k Y NT NV NI HT HR HE.
  assert (CP := fun m => copy_device (V := word A) (fun _ _ => El e) (El e) (fun _ _ => eq_refl) (fun _ _ _ => eq_refl) m).
  (* the second copy, after m1 *)
  assert (SND : forall m1, (forall r, (r < k)%nat -> m1 (tmpI, Z.of_nat r) = Some (Some (Ix (snd (Y r))))) ->
     (forall q i, is = Some q -> 0 <= i < Z.of_nat k -> m1 (q, i) <> None) ->
     (forall v r, vs = Some v -> (r < k)%nat -> m1 (v, Z.of_nat r) = Some (Some (El (fst (Y r))))) ->
     (forall q i, q <> tmpV -> q <> tmpI -> (vs = Some q -> ~ 0 <= i < Z.of_nat k) -> m1 (q, i) = m0 (q, i)) ->
     always_all (match is with Some i => [copyDevice i tmpI k] | None => [] end) m1 (merged2 m0 vs is tmpV tmpI k Y)).
  { intros m1 H1 H2 H3 H4. destruct is as [p|].
    - cbn [always_all]. destruct (NI p eq_refl) as [N1 N2]. eapply always_mono.
      + apply (CP m1 p tmpI k (fun r => Ix (snd (Y r))) N2 H1). intros i Hi. apply H2; [reflexivity|lia].
      + cbv beta. intros m' [B1 B2]. split; [|split].
        * intros v r Ev Hr. rewrite B2; [apply H3; assumption|]. intros i Hi X. injection X as X _. destruct (NV v Ev) as (_ & _ & N). congruence.
        * intros i r E Hr. injection E as <-. apply B1, Hr.
        * intros q i Q1 Q2 Q3. rewrite B2; [apply H4; auto|]. intros r Hr X. injection X as -> ->. apply Q3; [auto|lia].
    - cbn [always_all]. split; [exact H3|]. split; [intros i r E; discriminate|]. intros q i Q1 Q2 Q3. apply H4; auto. }
  destruct vs as [v|].
  - destruct (NV v eq_refl) as (N1 & N2 & N3). cbn [app always_all]. eapply always_mono.
    + apply (CP m v tmpV k (fun r => El (fst (Y r))) N1); [intros i Hi; apply HT, Hi|]. intros i Hi. rewrite HE by (cbn; assumption). apply HR; [auto|lia].
    + cbv beta. intros m' [B1 B2]. apply SND.
      * intros r Hr. rewrite B2; [apply HT, Hr|]. intros i Hi X. injection X as X _. congruence.
      * intros q i E Hi. destruct (NI q E) as [Q1 Q2]. rewrite B2; [rewrite HE by (cbn; assumption); apply HR; auto|]. intros r Hr X. injection X as X _. congruence.
      * intros v' r E Hr. injection E as <-. apply B1, Hr.
      * intros q i Q1 Q2 Q3. rewrite B2; [apply HE; cbn; assumption|]. intros r Hr X. injection X as -> ->. apply Q3; [reflexivity|lia].
  - cbn [app]. apply SND.
    + intros r Hr. apply HT, Hr.
    + intros q i E Hi. destruct (NI q E) as [Q1 Q2]. rewrite HE by (cbn; assumption). apply HR; auto.
    + intros v r E. discriminate.
    + intros q i Q1 Q2 Q3. apply HE; cbn; assumption.
Qed.

(* ---- rows of at most 512 ---- *)

Lemma merge_rows2 : forall vs is inp tmpV tmpI n k (x : nat -> A),
  (0 < n <= 512)%nat -> (0 < k)%nat -> Z.of_nat k * 512 < 2 ^ 32 -> tmpV <> tmpI -> inp <> tmpV -> inp <> tmpI ->
  (forall q, vs = Some q -> q <> tmpV /\ q <> tmpI /\ is <> Some q) -> (forall q, is = Some q -> q <> tmpV /\ q <> tmpI) ->
  exists ls Y, reduceIdxMerge lt e indexLastDim2 vs is inp tmpV tmpI (Z.of_nat n) (Z.of_nat k) = Some ls /\
    (forall r, (r < k)%nat -> pick n (fun j => x (r * n + j)%nat) (Y r)) /\
    forall m, (forall i, (i < k * n)%nat -> m (inp, Z.of_nat i) = Some (Some (El (x i)))) ->
      (forall i, (i < k)%nat -> m (tmpV, Z.of_nat i) <> None /\ m (tmpI, Z.of_nat i) <> None) ->
      (forall q i, vs = Some q \/ is = Some q -> 0 <= i < Z.of_nat k -> m (q, i) <> None) ->
      always_all ls m (merged2 m vs is tmpV tmpI k Y).
Proof.
  intros vs is inp tmpV tmpI n k x Hn Hk HK NT N1 N2 NV NI.
  destruct (grid_le n ltac:(lia)) as (E & E0 & E1 & E2); [lia|].
  assert (EB : ((n + 511) / 512 = 1)%nat) by lia. rewrite EB in E. change (Z.of_nat 1) with 1 in E.
  unfold reduceIdxMerge. rewrite E. cbn [mergeRounds Z.ltb Z.compare Pos.compare Pos.compare_cont app]. 
  set (val := fun r t => if (t <? n)%nat then (x (r * n + t)%nat, Z.of_nat t) else pad).
  eexists. exists (fun r => twice lt e 16 (val r)). split; [reflexivity|].
  rewrite Z.mul_1_r, Z.mod_small, !Nat2Z.id by lia. split.
  - intros r Hr. destruct (twice_best lt e TO 16 (val r) ltac:(lia)) as (C1 & C2 & C3). split; [|split; [|split]].
    + apply C1; [auto|]. intros t Ht. unfold val. destruct (Nat.ltb_spec t n); [right; exists t; auto|auto].
    + intros j Hj. specialize (C2 j ltac:(lia)). unfold val at 2 in C2. destruct (Nat.ltb_spec j n); [exact C2|lia].
    + exact C3.
    + intros H. apply (twice_pad lt e TO 16 (val r)); [lia|]. intros t Ht. unfold val. destruct (Nat.ltb_spec t n); [apply H; assumption|apply (lt_irr lt TO)].
  - intros m HI HT HO. eapply always_all_cons.
    + apply (round_idx indexLastDim2 tmpV tmpI inp None (Z.of_nat n) (Z.of_nat k) k m (fun b t => if (t <? n)%nat then Z.of_nat (b * n + t) else -1) (fun b t => Z.of_nat t) val); try assumption.
      * lia.
      * left. repeat split; congruence.
      * intros b t Hb Ht. unfold indexLastDim2. change (Z.of_nat blockSize) with 512.
        destruct (Z.eqb_spec (Z.of_nat k) 0); [lia|]. rewrite (Z.mod_small (Z.of_nat k * 512)) by lia.
        rewrite (Z.mul_comm (Z.of_nat k) 512), Z.div_mul by lia. cbn [Z.eqb].
        assert (Z.of_nat t < 512) by (change 512 with (Z.of_nat blockSize); unfold blockSize; lia).
        rewrite (Z.add_comm (Z.of_nat b * 512)), Z.div_add, Z.mod_add, Z.div_small, (Z.mod_small (Z.of_nat t)) by lia.
        destruct (Z.ltb_spec (Z.of_nat t) (Z.of_nat n)), (Nat.ltb_spec t n); try lia; do 2 f_equal; lia.
      * intros b t Hb Ht. unfold val. destruct (Nat.ltb_spec t n); [|reflexivity]. destruct (Z.leb_spec 0 (Z.of_nat (b * n + t))); [|lia].
        cbn [fst snd]. split; [|reflexivity]. apply HI. nia.
    + intros m1 [B1 B2]. apply copies; try assumption.
Qed.

(* ---- a list of at most 512 * 512 ---- *)

Lemma merge_list2 : forall indexer vs is inp tmpV tmpI n (x : nat -> A),
  (0 < n <= 512 * 512)%nat -> tmpV <> tmpI -> inp <> tmpV -> inp <> tmpI ->
  (forall q, vs = Some q -> q <> tmpV /\ q <> tmpI /\ is <> Some q) -> (forall q, is = Some q -> q <> tmpV /\ q <> tmpI) ->
  (forall n g index, Z.of_nat g * 512 < 2 ^ 32 -> 0 <= index < Z.of_nat g * 512 -> exists o, indexer n 1 g index = Some ((if index <? n then index else -1), o) /\ (index < n -> o = index)) ->
  exists ls r, reduceIdxMerge lt e indexer vs is inp tmpV tmpI (Z.of_nat n) 1 = Some ls /\ pick n x r /\
    forall m, (forall i, (i < n)%nat -> m (inp, Z.of_nat i) = Some (Some (El (x i)))) ->
      (forall i, (i < (n + 511) / 512)%nat -> m (tmpV, Z.of_nat i) <> None /\ m (tmpI, Z.of_nat i) <> None) ->
      (forall q, vs = Some q \/ is = Some q -> m (q, 0) <> None) ->
      always_all ls m (merged2 m vs is tmpV tmpI 1 (fun _ => r)).
Proof.
  intros indexer vs is inp tmpV tmpI n x Hn NT N1 N2 NV NI HX.
  assert (H2 : Z.of_nat n <= 262144) by lia.
  destruct (grid_le n ltac:(lia)) as (E & E0 & E1 & E2); [lia|].
  set (B := ((n + 511) / 512)%nat) in *. assert (HB : (0 < B <= 512)%nat) by lia.
  unfold reduceIdxMerge. rewrite E. rewrite Z.mul_1_l, (Z.mod_small (Z.of_nat B)), Nat2Z.id by lia. change (Z.to_nat 1) with 1%nat.
  assert (HO' : forall m : addr -> cell (word A), (forall q, vs = Some q \/ is = Some q -> m (q, 0) <> None) -> forall q i, vs = Some q \/ is = Some q -> 0 <= i < Z.of_nat 1 -> m (q, i) <> None) by (intros m HO q i Hq Hi; assert (i = 0) as -> by lia; apply HO, Hq).
  (* one round over k candidates *)
  assert (ROUND : forall k g mm inV inI (c : nat -> A * Z), (0 < g)%nat -> Z.of_nat g * 512 < 2 ^ 32 ->
     (inV = inp /\ inI = None /\ (forall i, (i < k)%nat -> mm (inp, Z.of_nat i) = Some (Some (El (fst (c i)))) /\ snd (c i) = Z.of_nat i) \/
      g = 1%nat /\ inV = tmpV /\ inI = Some tmpI /\ (forall i, (i < k)%nat -> mm (tmpV, Z.of_nat i) = Some (Some (El (fst (c i)))) /\ mm (tmpI, Z.of_nat i) = Some (Some (Ix (snd (c i)))))) ->
     (forall b, (b < g)%nat -> mm (tmpV, Z.of_nat b) <> None /\ mm (tmpI, Z.of_nat b) <> None) ->
     let y := fun b => twice lt e 16 (fun t => if (b * 512 + t <? k)%nat then c (b * 512 + t)%nat else pad) in
     always (kReduceIdxMerge lt e indexer tmpV tmpI inV inI (Z.of_nat k) 1 g) mm (fun m' =>
       (forall b, (b < g)%nat -> m' (tmpV, Z.of_nat b) = Some (Some (El (fst (y b)))) /\ m' (tmpI, Z.of_nat b) = Some (Some (Ix (snd (y b))))) /\
       (forall a, fst a <> tmpV -> fst a <> tmpI -> m' a = mm a))).
  { intros k g mm inV inI c Hg HG HS HM y.
    apply (round_idx indexer tmpV tmpI inV inI (Z.of_nat k) 1 g mm
      (fun b t => if (b * 512 + t <? k)%nat then Z.of_nat (b * 512 + t) else -1)
      (fun b t => match indexer (Z.of_nat k) 1 g (Z.of_nat b * 512 + Z.of_nat t) with Some (_, o) => o | None => 0 end)
      (fun b t => if (b * 512 + t <? k)%nat then c (b * 512 + t)%nat else pad)); try assumption.
    - lia.
    - destruct HS as [(-> & -> & _)|(-> & -> & -> & _)]; [left; repeat split; congruence|right]. split; [reflexivity|]. intros b t H. destruct (Nat.ltb_spec (b * 512 + t) k); lia.
    - intros b t Hb Ht. destruct (HX (Z.of_nat k) g (Z.of_nat b * 512 + Z.of_nat t) HG) as (o & Eo & _); [lia|]. rewrite Eo.
      destruct (Z.ltb_spec (Z.of_nat b * 512 + Z.of_nat t) (Z.of_nat k)), (Nat.ltb_spec (b * 512 + t) k); try lia; do 2 f_equal; lia.
    - intros b t Hb Ht. destruct (Nat.ltb_spec (b * 512 + t) k); [|reflexivity]. destruct (Z.leb_spec 0 (Z.of_nat (b * 512 + t))); [|lia].
      destruct HS as [(-> & -> & HS)|(-> & -> & -> & HS)]; [|apply HS; lia]. destruct (HS (b * 512 + t)%nat) as [S1 S2]; [lia|]. split; [exact S1|]. rewrite S2.
      destruct (HX (Z.of_nat k) g (Z.of_nat b * 512 + Z.of_nat t) HG) as (o & Eo & Oo); [lia|]. rewrite Eo, Oo by lia. lia. }
  set (c0 := fun i => (x i, Z.of_nat i)).
  pose proof (fun m => ROUND n B m inp None c0 ltac:(lia) ltac:(lia)) as R1. cbv zeta in R1.
  set (y := fun b => twice lt e 16 (fun t => if (b * 512 + t <? n)%nat then c0 (b * 512 + t)%nat else pad)) in *.
  pose proof (fun m HI HT => R1 m (or_introl (conj eq_refl (conj eq_refl (fun i Hi => conj (HI i Hi) eq_refl)))) HT) as R1'. clear R1.
  assert (PY : forall b, (b < B)%nat -> (forall P : A * Z -> Prop, P pad -> (forall j, (j < n)%nat -> P (c0 j)) -> P (y b)) /\
     (forall j, (b * 512 <= j < b * 512 + 512)%nat -> (j < n)%nat -> lt (fst (y b)) (x j) = false) /\ lt (fst (y b)) e = false /\
     ((forall j, (j < n)%nat -> lt e (x j) = false) -> y b = pad)).
  { intros b Hb. destruct (twice_best lt e TO 16 (fun t => if (b * 512 + t <? n)%nat then c0 (b * 512 + t)%nat else pad) ltac:(lia)) as (C1 & C2 & C3). fold (y b) in *. split; [|split; [|split]].
    - intros P P0 PC. apply C1; [exact P0|]. intros t Ht. destruct (Nat.ltb_spec (b * 512 + t) n); [apply PC; lia|exact P0].
    - intros j Hj1 Hj2. specialize (C2 (j - b * 512)%nat ltac:(lia)). cbv beta in C2. replace (b * 512 + (j - b * 512))%nat with j in C2 by lia. destruct (Nat.ltb_spec j n); [exact C2|lia].
    - exact C3.
    - intros H. unfold y. apply (twice_pad lt e TO 16); [lia|]. intros t Ht. destruct (Nat.ltb_spec (b * 512 + t) n); [apply H; lia|apply (lt_irr lt TO)]. }
  destruct (Nat.eq_dec B 1) as [EB|NB].
  - clearbody B. subst B. change (Z.of_nat 1) with 1 in *. cbn [mergeRounds Z.ltb Z.compare Pos.compare Pos.compare_cont app]. eexists. exists (y 0%nat). split; [reflexivity|].
    destruct (PY 0%nat ltac:(lia)) as (C1 & C2 & C3 & C4). split.
    + split; [|split; [|split]].
      * apply C1; [auto|]. intros j Hj. right. exists j. auto.
      * intros j Hj. apply C2; lia.
      * exact C3.
      * exact C4.
    + intros m HI HT HO. eapply always_all_cons; [exact (R1' m HI HT)|]. intros m1 [B1 B2]. apply copies; try assumption; [|apply HO', HO]. intros r Hr. assert (r = 0%nat) as -> by lia. apply B1. lia.
  - assert (EM : forall round, mergeRounds (V := word A) 8 round (Z.of_nat B) = Some [round (Z.of_nat B) 1]).
    { intros round. cbn [mergeRounds]. destruct (Z.ltb_spec 1 (Z.of_nat B)); [|lia].
      destruct (grid_le B ltac:(lia)) as (EG & G0 & G1 & G2); [lia|]. rewrite EG. assert (((B + 511) / 512 = 1)%nat) as -> by lia. reflexivity. }
    rewrite EM. cbn [app]. set (z := twice lt e 16 (fun t => if (0 * 512 + t <? B)%nat then y (0 * 512 + t)%nat else pad)). eexists. exists z. split; [reflexivity|]. split.
    + destruct (twice_best lt e TO 16 (fun t => if (0 * 512 + t <? B)%nat then y (0 * 512 + t)%nat else pad) ltac:(lia)) as (C1 & C2 & C3). fold z in C1, C2, C3. split; [|split; [|split]].
      * apply C1; [auto|]. intros t Ht. cbn [Nat.mul Nat.add]. destruct (Nat.ltb_spec t B); [|auto]. apply (PY t); [assumption|auto|]. intros j Hj. right. exists j. auto.
      * intros j Hj. pose proof (Nat.div_mod j 512 ltac:(lia)). pose proof (Nat.mod_upper_bound j 512 ltac:(lia)). assert (j / 512 < B)%nat by lia.
        apply (le_trans lt TO _ (fst (y (j / 512)%nat))).
        -- apply (PY (j / 512)%nat); lia.
        -- specialize (C2 (j / 512)%nat ltac:(lia)). cbv beta in C2. cbn [Nat.mul Nat.add] in C2. destruct (Nat.ltb_spec (j / 512) B); [exact C2|lia].
      * exact C3.
      * intros H. unfold z. apply (twice_pad lt e TO 16); [lia|]. intros t Ht. cbn [Nat.mul Nat.add]. destruct (Nat.ltb_spec t B); [|apply (lt_irr lt TO)].
        destruct (PY t ltac:(lia)) as (_ & _ & _ & C4). rewrite (C4 H). apply (lt_irr lt TO).
    + intros m HI HT HO. eapply always_all_cons; [exact (R1' m HI HT)|]. intros m1 [B1 B2]. change (1 mod 2 ^ 32) with 1. change (Z.to_nat 1) with 1%nat.
      eapply always_all_cons.
      { apply (ROUND B 1%nat m1 tmpV (Some tmpI) y); [lia|lia|right; auto|]. intros b Hb. destruct (B1 b ltac:(lia)) as [-> ->]. split; discriminate. }
      intros m2 [D1 D2]. apply copies; try assumption; [|apply HO', HO|].
      * intros r Hr. assert (r = 0%nat) as -> by lia. apply (D1 0%nat). lia.
      * intros a Q1 Q2. rewrite D2 by assumption. apply B2; assumption.
Qed.

Lemma index_all2 : forall n g index, Z.of_nat g * 512 < 2 ^ 32 -> 0 <= index < Z.of_nat g * 512 ->
  exists o, indexAll2 n 1 g index = Some ((if index <? n then index else -1), o) /\ (index < n -> o = index).
Proof. intros n g index _ _. unfold indexAll2. eexists. split; [reflexivity|]. intros H. destruct (Z.ltb_spec index n); [reflexivity|lia]. Qed.

Lemma index_last2 : forall n g index, Z.of_nat g * 512 < 2 ^ 32 -> 0 <= index < Z.of_nat g * 512 ->
  exists o, indexLastDim2 n 1 g index = Some ((if index <? n then index else -1), o) /\ (index < n -> o = index).
Proof.
  intros n g index HG Hi. unfold indexLastDim2. cbn [Z.eqb]. change (Z.of_nat blockSize) with 512.
  rewrite Z.div_1_r, (Z.mod_small (Z.of_nat g * 512)) by lia. destruct (Z.eqb_spec (Z.of_nat g * 512) 0); [lia|].
  rewrite Z.div_small, Z.mod_small by lia. exists index. split; [|reflexivity]. destruct (index <? n); do 2 f_equal; lia.
Qed.
End Merge.
