(* Extremes over one dimension. *)
From Coq Require Import List Arith ZArith Bool Lia Permutation.
From Verif Require Import ShapeModel ShapeSpec ShapeProofs TensorModel TensorSpec TensorLemmas BcastModel BufModel BufProofs CutSpec ReduceModel ReduceSpec ReduceProofs2
  GpuModel GpuSpec GpuProofs GpuLemmas GpuWarp GpuOrder
  CudaModel CudaSpec CudaProofs CudaItems CudaFillProofs CudaMoveModel CudaTile CudaReduceModel CudaReduceSpec CudaReduceProofs CudaReduceProofs2 CudaReduceProofs3 CudaReduceProofs4
  CudaExtremeModel CudaExtremeSpec CudaExtremeProofs CudaExtremeProofs2 CudaExtremeProofs3.
Import ListNotations.

Lemma nth_error_map_seq : forall {A} (x : nat -> A) n j y, nth_error (map x (seq 0 n)) j = Some y <-> j < n /\ y = x j.
Proof.
  intros A x n j y. rewrite nth_error_map. destruct (Nat.lt_ge_cases j n) as [L|L].
  - rewrite (nth_error_nth' _ 0) by (rewrite seq_length; lia). rewrite seq_nth by lia. cbn [option_map Nat.add]. split; [intros E; injection E as <-; auto|intros [_ ->]; reflexivity].
  - replace (nth_error (seq 0 n) j) with (@None nat); [|symmetry; apply nth_error_None; rewrite seq_length; lia]. split; [discriminate|lia].
Qed.

Section Dim.
Context {A : Type} (lt : A -> A -> bool) (e : A).
Hypothesis TO : total_order lt.

(* what one thread finds in a line *)
Definition lastl (l : list A) (r : A * Z) : Prop :=
  (exists v i, r = (v, Z.of_nat i) /\ last_max lt l v i) \/ (r = (e, 0%Z) /\ forall x, In x l -> lt x e = true).
(* what the blocks find in a line *)
Definition pickl (l : list A) (r : A * Z) : Prop :=
  (exists v i, r = (v, Z.of_nat i) /\ some_max lt l v i /\ lt e v = true) \/ (r = (e, (-1)%Z) /\ forall x, In x l -> lt e x = false).

Lemma pick_pickl : forall n x r, pick lt e n x r -> pickl (map x (seq 0 n)) r.
Proof.
  intros n x r H. destruct (existsb (fun j => lt e (x j)) (seq 0 n)) eqn:E.
  - left. apply existsb_exists in E as (j & Hj & L). apply in_seq in Hj. destruct (pick_max lt e n x r H) as (i & -> & M); [exists j; split; [lia|exact L]|].
    exists (x i), i. split; [reflexivity|]. split; [exact M|]. destruct (lt e (x i)) eqn:L'; [reflexivity|].
    assert (U : lt (x i) (x j) = false) by (apply (proj2 M j); rewrite nth_error_map, (nth_error_nth' _ 0) by (rewrite seq_length; lia); rewrite seq_nth by lia; reflexivity).
    rewrite (le_trans lt TO _ _ _ U L') in L. discriminate.
  - right. assert (AL : forall j, j < n -> lt e (x j) = false).
    { intros j Hj. destruct (lt e (x j)) eqn:L; [|reflexivity]. rewrite <- E. symmetry. apply existsb_exists. exists j. split; [apply in_seq; lia|exact L]. }
    split; [apply H, AL|]. intros y Hy. apply in_map_iff in Hy as (j & <- & Hj). apply in_seq in Hj. apply AL. lia.
Qed.

Definition scanned (n : nat) (x : nat -> A) : A * Z := fold_left (keepOf lt) (map (fun j => (x j, Z.of_nat j)) (seq 0 n)) (e, 0%Z).

Lemma scanned_last : forall n x, lastl (map x (seq 0 n)) (scanned n x).
Proof.
  intros n x.
  assert (G : lt (fst (scanned n x)) e = false /\ (forall j, j < n -> lt (fst (scanned n x)) (x j) = false) /\
    ((scanned n x = (e, 0%Z) /\ forall j, j < n -> lt (x j) e = true) \/ exists j, j < n /\ scanned n x = (x j, Z.of_nat j) /\ forall i, j < i < n -> lt (x i) (x j) = true)).
  { unfold scanned. induction n as [|n (H0 & H1 & H2)]; [cbn; split; [apply (lt_irr lt TO)|]; split; [lia|left; split; [reflexivity|lia]]|].
    rewrite seq_S, map_app, fold_left_app. cbn [Nat.add map fold_left]. set (r := fold_left _ _ _) in *. rewrite (keep_spec lt TO). cbn [fst].
    destruct (lt (x n) (fst r)) eqn:L.
    - split; [exact H0|]. split.
      + intros j Hj. destruct (Nat.eq_dec j n) as [->|]; [apply (lt_asym lt TO), L|apply H1; lia].
      + destruct H2 as [[E H2]|(j & Hj & E & H2)].
        * left. split; [exact E|]. intros j Hj. destruct (Nat.eq_dec j n) as [->|]; [rewrite E in L; exact L|apply H2; lia].
        * right. exists j. split; [lia|]. split; [exact E|]. intros i Hi. destruct (Nat.eq_dec i n) as [->|]; [rewrite E in L; exact L|apply H2; lia].
    - cbn [fst]. split; [apply (le_trans lt TO _ (fst r)); assumption|]. split.
      + intros j Hj. destruct (Nat.eq_dec j n) as [->|]; [apply (lt_irr lt TO)|]. apply (le_trans lt TO _ (fst r)); [apply H1; lia|exact L].
      + right. exists n. split; [lia|]. split; [reflexivity|]. lia. }
  destruct G as (_ & H1 & [[E H2]|(j & Hj & E & H2)]).
  - right. split; [exact E|]. intros y Hy. apply in_map_iff in Hy as (j & <- & Hj). apply in_seq in Hj. apply H2. lia.
  - left. exists (x j), j. split; [exact E|]. split; [apply nth_error_map_seq; auto|]. intros i y Hy. apply nth_error_map_seq in Hy as [Hi ->].
    split; [|intros L; apply H2; lia]. rewrite E in H1. apply H1, Hi.
Qed.

Lemma scan_plan2 : forall n p src stride j0 r k (m : addr -> cell (word A)) (x : nat -> A) R W,
  (forall j, j < n -> m (p, src + Z.of_nat j * stride)%Z = Some (Some (El (x j)))) ->
  (let r' := fold_left (keepOf lt) (map (fun j => (x j, (j0 + Z.of_nat j)%Z)) (seq 0 n)) r in plan (k (fst r') (snd r')) m = Some (R, W)) ->
  exists R', plan (scanIdx lt n p src stride j0 (fst r) (snd r) k) m = Some (R', W) /\ forall a, In a R' -> fst a = p \/ In a R.
Proof.
  induction n as [|n IH]; intros p src stride j0 r k m x R W Hx Hp; cbn [scanIdx].
  - exists R. split; [exact Hp|auto].
  - destruct (IH p (src + stride)%Z stride (j0 + 1)%Z (keepOf lt r (x 0, j0)) k m (fun j => x (S j)) R W) as (R' & E & H).
    + intros j Hj. rewrite <- (Hx (S j)) by lia. f_equal. f_equal. lia.
    + cbn [seq map fold_left] in Hp. rewrite <- seq_shift, map_map in Hp. replace (j0 + Z.of_nat 0)%Z with j0 in Hp by lia.
      erewrite map_ext; [exact Hp|]. intros j. cbn beta. f_equal. lia.
    + exists ((p, src) :: R'). split.
      * apply (plan_ld _ _ _ (El (x 0))); [rewrite <- (Hx 0) by lia; f_equal; f_equal; lia|]. rewrite (keep_spec lt TO) in E. cbn [fst] in E.
        assert (S : sameVal lt (maxOf lt (x 0) (fst r)) (x 0) = negb (lt (x 0) (fst r))).
        { unfold maxOf. destruct (lt (fst r) (x 0)) eqn:L; [rewrite (same_refl lt TO), (lt_asym lt TO _ _ L); reflexivity|]. unfold sameVal. rewrite L. reflexivity. }
        rewrite S. destruct (lt (x 0) (fst r)); exact E.
      * intros a [<-|Hin]; [auto|]. apply H, Hin.
Qed.

Lemma kernelFor2_ok : forall m total n outV outI (P : Z -> thr (word A)) (y : nat -> A * Z), outV <> outI ->
  n <= total -> (0 < Z.of_nat total <= 2 ^ 32)%Z ->
  (forall i, i < n -> exists R, plan (P (Z.of_nat i)) m = Some (R, [((outV, Z.of_nat i), El (fst (y i))); ((outI, Z.of_nat i), Ix (snd (y i)))]) /\ forall a, In a R -> fst a <> outV /\ fst a <> outI) ->
  always (kernelFor (Z.of_nat total) (Z.of_nat n) P) m (fun m' =>
    (forall i, i < n -> m' (outV, Z.of_nat i) = Some (Some (El (fst (y i)))) /\ m' (outI, Z.of_nat i) = Some (Some (Ix (snd (y i))))) /\
    (forall q i, (q = outV \/ q = outI -> ~ (0 <= i < Z.of_nat n)%Z) -> m' (q, i) = m (q, i))).
Proof.
  intros m total n outV outI P y NE HT HZ HP.
  set (P' := fun i => if (i <? Z.of_nat n)%Z then P i else Done).
  assert (K : is1d (kernelFor (Z.of_nat total) (Z.of_nat n) P) (Z.of_nat total) P').
  { split; [reflexivity|]. split; [reflexivity|]. split; [reflexivity|]. intros b t. cbn [code kernelFor]. unfold P'.
    destruct (Z.ltb_spec (gidx blockSize b t) (Z.of_nat n)); destruct (Z.ltb_spec (gidx blockSize b t) (Z.of_nat total)); auto; lia. }
  set (R := fun i => match plan (P' i) m with Some (R, _) => R | None => [] end).
  set (W := fun i => if (i <? Z.of_nat n)%Z then [((outV, i), El (fst (y (Z.to_nat i)))); ((outI, i), Ix (snd (y (Z.to_nat i))))] else []).
  assert (PL : forall i, (0 <= i)%Z -> plan (P' i) m = Some (R i, W i) /\ forall a, In a (R i) -> fst a <> outV /\ fst a <> outI).
  { intros i Hi. unfold R, W, P'. destruct (Z.ltb_spec i (Z.of_nat n)) as [L|L].
    - destruct (HP (Z.to_nat i) ltac:(lia)) as (R0 & E & H). rewrite Z2Nat.id in E by lia. rewrite E. auto.
    - cbn [plan]. split; [reflexivity|intros a []]. }
  assert (WV : forall i a v, In (a, v) (W i) -> (i < Z.of_nat n)%Z /\ (a = (outV, i) /\ v = El (fst (y (Z.to_nat i))) \/ a = (outI, i) /\ v = Ix (snd (y (Z.to_nat i))))).
  { intros i a v Hin. unfold W in Hin. destruct (Z.ltb_spec i (Z.of_nat n)); [|destruct Hin]. split; [assumption|]. destruct Hin as [X|[X|[]]]; injection X as <- <-; auto. }
  eapply always_mono.
  - apply (scatters _ m (Z.of_nat total) P' R W K HZ).
    + intros i Hi. apply PL. lia.
    + intros i j a v Hi Hj Hin Hw. destruct (PL i ltac:(lia)) as [_ N]. destruct (N a Hin) as [N1 N2]. destruct (WV j a v Hw) as [_ [[-> _]|[-> _]]]; cbn in *; congruence.
  - cbv beta. intros m' Hm. split.
    + intros i Hi. assert (WI : W (Z.of_nat i) = [((outV, Z.of_nat i), El (fst (y i))); ((outI, Z.of_nat i), Ix (snd (y i)))]).
      { unfold W. destruct (Z.ltb_spec (Z.of_nat i) (Z.of_nat n)); [|lia]. rewrite Nat2Z.id. reflexivity. } split.
      * destruct (Hm (outV, Z.of_nat i)) as [(j & v & Hj & Hin & ->)|[N _]].
        -- destruct (WV j _ v Hin) as [_ [[X ->]|[X _]]]; [injection X as <-; rewrite Nat2Z.id; reflexivity|injection X as X _; congruence].
        -- exfalso. apply (N (Z.of_nat i) (El (fst (y i)))); [lia|]. rewrite WI. left. reflexivity.
      * destruct (Hm (outI, Z.of_nat i)) as [(j & v & Hj & Hin & ->)|[N _]].
        -- destruct (WV j _ v Hin) as [_ [[X _]|[X ->]]]; [injection X as X _; congruence|injection X as <-; rewrite Nat2Z.id; reflexivity].
        -- exfalso. apply (N (Z.of_nat i) (Ix (snd (y i)))); [lia|]. rewrite WI. right. left. reflexivity.
    + intros q i Hq. destruct (Hm (q, i)) as [(j & v & Hj & Hin & _)|[_ ->]]; [|reflexivity].
      exfalso. destruct (WV j _ v Hin) as [Hn [[X _]|[X _]]]; injection X as -> ->; apply Hq; auto; lia.
Qed.

(* ---- the two outputs ---- *)

Definition leaves (m : addr -> cell (word A)) (outV outI : nat) (scratch : list nat) (rest : nat) (Y : nat -> A * Z) (m' : addr -> cell (word A)) : Prop :=
  (forall i, i < rest -> m' (outV, Z.of_nat i) = Some (Some (El (fst (Y i)))) /\ m' (outI, Z.of_nat i) = Some (Some (Ix (snd (Y i))))) /\
  (forall q i, ~ In q scratch -> (q = outV \/ q = outI -> ~ (0 <= i < Z.of_nat rest)%Z) -> m' (q, i) = m (q, i)).

Section Scan.
Variables (pre : list nat) (n : nat) (post : list nat) (F : list nat -> A) (m : addr -> cell (word A)) (outV outI p : nat).
Let sh := pre ++ n :: post.
Let rsh := pre ++ post.
Hypothesis HZ : (0 < Z.of_nat (numel sh) <= 2 ^ 32)%Z.
Hypothesis HF : has m p sh (fun idx => El (F idx)).
Hypothesis HV : room m outV (numel rsh).
Hypothesis HI : room m outI (numel rsh).
Hypothesis NV : outV <> p.
Hypothesis NI : outI <> p.
Hypothesis NE : outV <> outI.
Let l i := line F false (length pre) n (offsetToIndices rsh i).
Let y i := scanned n (fun j => nth j (l i) e).

Lemma nth_l : forall i, map (fun j => nth j (l i) e) (seq 0 n) = l i.
Proof. intros i. assert (E : length (l i) = n) by (unfold l, line; rewrite map_length, seq_length; reflexivity). rewrite <- E at 1. generalize (l i). induction l0 as [|a l0 IH]; [reflexivity|]. cbn [length seq map nth]. f_equal. rewrite <- seq_shift, map_map. exact IH. Qed.

Lemma y_last : forall i, lastl (l i) (y i).
Proof. intros i. rewrite <- nth_l at 1. apply scanned_last. Qed.

Lemma scan_line2 : forall i src, i < numel rsh -> src = Z.of_nat (getReduceSrcIndex rsh sh i (length pre) false) ->
  forall stride, stride = Z.of_nat (numel post) ->
  exists R, plan (scanIdx lt n p src stride 0%Z e 0%Z (fun val idx => St (outV, Z.of_nat i) (El val) (St (outI, Z.of_nat i) (Ix idx) Done))) m
    = Some (R, [((outV, Z.of_nat i), El (fst (y i))); ((outI, Z.of_nat i), Ix (snd (y i)))]) /\ forall a, In a R -> fst a <> outV /\ fst a <> outI.
Proof.
  intros i src Hi -> stride ->. destruct (line_at F pre n post i Hi) as (src & Es & _ & _ & idx & EL & HX). fold rsh sh in Es.
  assert (EY : forall j, j < n -> nth j (l i) e = F (idx j)).
  { intros j Hj. fold rsh in EL. unfold l. rewrite EL. rewrite (nth_indep _ e (F (idx 0))) by (rewrite map_length, seq_length; lia). rewrite (map_nth (fun j => F (idx j)) (seq 0 n) 0), seq_nth by lia. reflexivity. }
  destruct (scan_plan2 n p (Z.of_nat src) (Z.of_nat (numel post)) 0%Z (e, 0%Z) (fun val idx => St (outV, Z.of_nat i) (El val) (St (outI, Z.of_nat i) (Ix idx) Done)) m (fun j => nth j (l i) e) [] [((outV, Z.of_nat i), El (fst (y i))); ((outI, Z.of_nat i), Ix (snd (y i)))]) as (R & E & H).
  - intros j Hj. destruct (HX j Hj) as [HV' HE]. replace (Z.of_nat src + Z.of_nat j * Z.of_nat (numel post))%Z with (Z.of_nat (ravel sh (idx j))) by (unfold sh; rewrite HE; lia).
    rewrite EY by exact Hj. apply (has_at _ m p sh _ _ HF). exact HV'.
  - cbv zeta. change (fold_left (keepOf lt) (map (fun j => (nth j (l i) e, (0 + Z.of_nat j)%Z)) (seq 0 n)) (e, 0%Z)) with (y i).
    apply plan_st; [apply (room_at _ m outV _ _ HV); lia|]. apply plan_st; [apply (room_at _ m outI _ _ HI); lia|]. reflexivity.
  - exists R. rewrite Es. split; [exact E|]. intros a Hin. destruct (H a Hin) as [->|[]]. auto.
Qed.

Lemma to_leaves : forall lch, always lch m (fun m' =>
    (forall i, i < numel rsh -> m' (outV, Z.of_nat i) = Some (Some (El (fst (y i)))) /\ m' (outI, Z.of_nat i) = Some (Some (Ix (snd (y i))))) /\
    (forall q i, (q = outV \/ q = outI -> ~ (0 <= i < Z.of_nat (numel rsh))%Z) -> m' (q, i) = m (q, i))) ->
  forall scratch, always_all [lch] m (leaves m outV outI scratch (numel rsh) y).
Proof. intros lch H scratch. cbn [always_all]. eapply always_mono; [exact H|]. intros m' [B1 B2]. split; [exact B1|]. intros q i _. apply B2. Qed.

Lemma scan_mid2 : forall scratch, always_all [kReduceIdxDim lt e outV outI rsh (mkD p sh) (length pre)] m (leaves m outV outI scratch (numel rsh) y).
Proof.
  pose proof (sizes pre n post (proj1 HZ)) as SZ. fold sh rsh in SZ. apply to_leaves. apply kernelFor2_ok; [exact NE|exact (proj1 SZ)|exact HZ|]. intros i Hi. cbn [dbuf dshape].
  assert (nth (length pre) sh 0 = n) as -> by apply nth_mid.
  assert (nth (length pre) (strides sh) 0 = numel post) as ->.
  { unfold sh. rewrite strides_app, app_nth2; rewrite map_length, strides_length; [|lia]. rewrite Nat.sub_diag, strides_cons. reflexivity. }
  apply scan_line2; [exact Hi| |reflexivity]. apply srcIndexCuda_ok, Hi.
Qed.

Lemma scan_end2 : forall first, (first = true -> pre = []) -> (first = false -> post = []) ->
  forall scratch, always_all [kReduceIdxDimFirstOrLast lt e first outV outI p (Z.of_nat (numel sh)) (Z.of_nat n) (Z.of_nat (numel rsh))] m (leaves m outV outI scratch (numel rsh) y).
Proof.
  intros first H1 H2. pose proof (sizes pre n post (proj1 HZ)) as SZ. fold sh rsh in SZ. apply to_leaves. apply kernelFor2_ok; [exact NE|exact (proj1 SZ)|exact HZ|]. intros i Hi. rewrite Nat2Z.id.
  destruct (line_at F pre n post i Hi) as (src & Es & C & D & _). fold rsh sh in Es. apply scan_line2; [exact Hi| |].
  - rewrite Es. destruct first; [rewrite C by auto; reflexivity|rewrite D by auto; lia].
  - destruct first; [unfold rsh; rewrite H1 by auto; reflexivity|rewrite H2 by auto; reflexivity].
Qed.

End Scan.

Lemma last_rows2 : forall pre n (F : list nat -> A) outV outI p tmpV tmpI,
  let sh := pre ++ [n] in let rsh := pre ++ [] in
  (0 < Z.of_nat (numel sh) <= 2 ^ 32)%Z ->
  (n <= 512 /\ (Z.of_nat (numel rsh) * 512 < 2 ^ 32)%Z) \/ (numel rsh = 1 /\ n <= 512 * 512) ->
  NoDup [p; outV; outI; tmpV; tmpI] ->
  exists ls Y, reduceIdxMerge lt e indexLastDim2 (Some outV) (Some outI) p tmpV tmpI (Z.of_nat n) (Z.of_nat (numel rsh)) = Some ls /\
    (forall i, i < numel rsh -> pickl (line F false (length pre) n (offsetToIndices rsh i)) (Y i)) /\
    forall m, has m p sh (fun idx => El (F idx)) -> room m outV (numel rsh) -> room m outI (numel rsh) ->
      room m tmpV (numel rsh * ((n + 511) / 512)) -> room m tmpI (numel rsh * ((n + 511) / 512)) ->
      always_all ls m (leaves m outV outI [tmpV; tmpI] (numel rsh) Y).
Proof.
  intros pre n F outV outI p tmpV tmpI sh rsh HZ HC ND. set (post := @nil nat) in *. set (l := fun i => line F false (length pre) n (offsetToIndices rsh i)). assert (Hpost : post = []) by reflexivity. pose proof (sizes pre n post (proj1 HZ)) as SZ. fold sh rsh in SZ.
  inversion ND as [|? ? D1 ND1]; subst. inversion ND1 as [|? ? D2 ND2]; subst. inversion ND2 as [|? ? D3 ND3]; subst. inversion ND3 as [|? ? D4 _]; subst. cbn [In] in D1, D2, D3, D4. clear ND ND1 ND2 ND3.
  assert (NT : tmpV <> tmpI) by (intros ->; tauto). assert (N1 : p <> tmpV) by (intros ->; tauto). assert (N2 : p <> tmpI) by (intros ->; tauto).
  assert (NVV : forall q, Some outV = Some q -> q <> tmpV /\ q <> tmpI /\ Some outI <> Some q).
  { intros q E. injection E as <-. split; [intros ->; tauto|]. split; [intros ->; tauto|]. intros X. injection X as ->. tauto. }
  assert (NII : forall q, Some outI = Some q -> q <> tmpV /\ q <> tmpI).
  { intros q E. injection E as <-. split; intros ->; tauto. }
  assert (HX : forall m, has m p sh (fun idx => El (F idx)) -> forall i, i < numel rsh * n -> m (p, Z.of_nat i) = Some (Some (El (F (offsetToIndices sh i))))).
  { intros m HF i Hi. rewrite (has_ix _ m p sh _ _ HF) by lia. rewrite Nat2Z.id. reflexivity. }
  assert (HY : forall r, r < numel rsh -> l r = map (fun j => F (offsetToIndices sh (r * n + j))) (seq 0 n)).
  { intros r Hr. unfold l. destruct (line_at F pre n post r Hr) as (src & Es & _ & B & idx & EL & HX'). fold rsh in EL. rewrite EL. apply map_ext_in. intros j Hj. apply in_seq in Hj.
    destruct (HX' j ltac:(lia)) as [HV' HE]. fold sh in HV', HE. rewrite (B Hpost) in HE. assert (En : numel post = 1) by (rewrite Hpost; apply numel_nil).
    rewrite En, Nat.mul_1_r in HE. rewrite <- HE, o2i_ravel by exact HV'. reflexivity. }
  assert (HO : forall m : addr -> cell (word A), room m outV (numel rsh) -> room m outI (numel rsh) -> forall q i, Some outV = Some q \/ Some outI = Some q -> (0 <= i < Z.of_nat (numel rsh))%Z -> m (q, i) <> None).
  { intros m HV HI q i [X|X] Hi; injection X as <-; [apply (room_at _ m outV _ _ HV)|apply (room_at _ m outI _ _ HI)]; lia. }
  assert (TL : forall m Y m', merged2 m (Some outV) (Some outI) tmpV tmpI (numel rsh) Y m' -> leaves m outV outI [tmpV; tmpI] (numel rsh) Y m').
  { intros m Y m' (B1 & B2 & B3). split; [intros i Hi; split; [apply B1; auto|apply B2; auto]|]. intros q i Q1 Q2. cbn [In] in Q1. apply B3; [intros ->; tauto|intros ->; tauto|].
    intros X. apply Q2. destruct X as [X|X]; injection X as ->; auto. }
  assert (T0 : forall m : addr -> cell (word A), room m tmpV (numel rsh * ((n + 511) / 512)) -> room m tmpI (numel rsh * ((n + 511) / 512)) -> forall i, i < numel rsh * ((n + 511) / 512) -> m (tmpV, Z.of_nat i) <> None /\ m (tmpI, Z.of_nat i) <> None).
  { intros m HTV HTI i Hi. split; [apply (room_at _ m tmpV _ _ HTV)|apply (room_at _ m tmpI _ _ HTI)]; lia. }
  destruct HC as [[HC HK]|[H1 HC]].
  - assert (EB : (n + 511) / 512 = 1) by (pose proof (Nat.div_mod (n + 511) 512 ltac:(lia)); pose proof (Nat.mod_upper_bound (n + 511) 512 ltac:(lia)); lia).
    rewrite EB, Nat.mul_1_r in T0. rewrite EB, Nat.mul_1_r.
    destruct (merge_rows2 lt e TO (Some outV) (Some outI) p tmpV tmpI n (numel rsh) (fun i => F (offsetToIndices sh i)) ltac:(lia) ltac:(lia) HK NT N1 N2 NVV NII) as (ls & Y & E & HP & G).
    exists ls, Y. split; [exact E|]. split.
    + intros r Hr. change (line F false (length pre) n (offsetToIndices rsh r)) with (l r). rewrite HY by exact Hr. apply pick_pickl, HP, Hr.
    + intros m HF HV HI HTV HTI. specialize (G m (HX m HF) (T0 m HTV HTI) (HO m HV HI)). revert G. apply always_all_mono, TL.
  - rewrite H1 in *. change (Z.of_nat 1) with 1%Z in *. rewrite Nat.mul_1_l in *.
    destruct (merge_list2 lt e TO indexLastDim2 (Some outV) (Some outI) p tmpV tmpI n (fun i => F (offsetToIndices sh i)) ltac:(lia) NT N1 N2 NVV NII (index_last2)) as (ls & r & E & HP & G).
    exists ls, (fun _ => r). split; [exact E|]. split.
    + intros r' Hr. change (line F false (length pre) n (offsetToIndices rsh r')) with (l r'). rewrite HY by lia. assert (r' = 0) as -> by lia. apply pick_pickl, HP.
    + intros m HF HV HI HTV HTI. specialize (G m (HX m HF) (T0 m HTV HTI) (fun q Hq => HO m HV HI q 0%Z Hq ltac:(lia))). revert G. apply always_all_mono, TL.
Qed.

Lemma first_rows2 : forall n post F m outV outI p tmpV tmpI tr, (0 < Z.of_nat (numel (n :: post)) <= 2 ^ 32)%Z -> has m p (n :: post) (fun idx => El (F idx)) ->
  room m outV (numel post) -> room m outI (numel post) ->
  (n <= 512 /\ (Z.of_nat (numel post) * 512 < 2 ^ 32)%Z) \/ (numel post = 1 /\ n <= 512 * 512) -> NoDup [p; outV; outI; tmpV; tmpI; tr] ->
  room m tmpV (numel post * ((n + 511) / 512)) -> room m tmpI (numel post * ((n + 511) / 512)) -> room m tr (n * numel post) ->
  exists ls Y, option_map (cons (cudaTranspose2d tr p (Z.of_nat (numel post)) (Z.of_nat n))) (reduceIdxMerge lt e indexLastDim2 (Some outV) (Some outI) tr tmpV tmpI (Z.of_nat n) (Z.of_nat (numel post))) = Some ls /\
    (forall i, i < numel post -> pickl (line F false 0 n (offsetToIndices post i)) (Y i)) /\ always_all ls m (leaves m outV outI [tmpV; tmpI; tr] (numel post) Y).
Proof.
  intros n post F m outV outI p tmpV tmpI tr HZ HF HV HI HC ND HTV HTI HTR.
  pose proof (sizes [] n post (proj1 HZ)) as SZ. cbn [app] in SZ.
  set (k := numel post) in *.
  set (G := fun idx => F (offsetToIndices (n :: post) (ravel [n; k] idx))).
  assert (HG : has m p [n; k] (fun idx => El (G idx))).
  { unfold has in *. replace (map (fun idx => El (G idx)) (indices [n; k])) with (map (fun idx => El (F idx)) (indices (n :: post))); [exact HF|].
    rewrite <- !map_seq_indices. replace (numel [n; k]) with (numel (n :: post)) by (rewrite !numel_cons, numel_nil; fold k; lia).
    apply map_ext_in. intros i Hi. apply in_seq in Hi. unfold G. rewrite ravel_o2i; [reflexivity|]. rewrite !numel_cons, numel_nil in *. fold k in Hi. lia. }
  assert (ND' : forall i j, i < 6 -> j < 6 -> nth i [p; outV; outI; tmpV; tmpI; tr] 0 = nth j [p; outV; outI; tmpV; tmpI; tr] 0 -> i = j).
  { intros i j. apply (proj1 (NoDup_nth _ 0) ND). }
  assert (X1 : tr <> outV) by (intros X; specialize (ND' 5 1 ltac:(lia) ltac:(lia) X); lia). assert (X2 : tr <> outI) by (intros X; specialize (ND' 5 2 ltac:(lia) ltac:(lia) X); lia).
  assert (X3 : tr <> tmpV) by (intros X; specialize (ND' 5 3 ltac:(lia) ltac:(lia) X); lia). assert (X4 : tr <> tmpI) by (intros X; specialize (ND' 5 4 ltac:(lia) ltac:(lia) X); lia).
  assert (X5 : tr <> p) by (intros X; specialize (ND' 5 0 ltac:(lia) ltac:(lia) X); lia). assert (X6 : outV <> outI) by (intros X; specialize (ND' 1 2 ltac:(lia) ltac:(lia) X); lia).
  assert (NDR : NoDup [tr; outV; outI; tmpV; tmpI]).
  { inversion ND as [|? ? _ ND1]; subst. constructor; [cbn [In]; intuition congruence|].
    change [outV; outI; tmpV; tmpI; tr] with ([outV; outI; tmpV; tmpI] ++ [tr]) in ND1. apply NoDup_remove_1 in ND1. rewrite app_nil_r in ND1. exact ND1. }
  assert (E1 : numel ([k] ++ []) = k) by (cbn [app]; rewrite numel_cons, numel_nil; lia).
  destruct (last_rows2 [k] n (fun idx => G (rev idx)) outV outI tr tmpV tmpI) as (ls & Y & E & HP & C); cbn [app] in *; rewrite ?E1 in *.
  - rewrite !numel_cons, numel_nil in *. fold k in HZ. lia.
  - exact HC.
  - exact NDR.
  - rewrite E. cbn [option_map]. exists (cudaTranspose2d tr p (Z.of_nat k) (Z.of_nat n) :: ls), Y. split; [reflexivity|]. split.
    + intros r Hr. specialize (HP r Hr).
      replace (line F false 0 n (offsetToIndices post r)) with (line (fun idx => G (rev idx)) false (length [k]) n (offsetToIndices [k] r)); [exact HP|].
      assert (Ho : offsetToIndices [k] r = [r]).
      { rewrite <- (o2i_ravel [k] [r]) by (repeat constructor; exact Hr). f_equal. rewrite ravel_cons, ravel_nil, numel_nil. lia. }
      unfold line. rewrite Ho. apply map_ext_in. intros j Hj. apply in_seq in Hj. unfold with_coord, G. cbn [length firstn skipn app rev].
      rewrite <- (o2i_ravel (n :: post) (j :: offsetToIndices post r)); [|constructor; [lia|apply o2i_valid; exact Hr]]. do 2 f_equal.
      rewrite !ravel_cons, ravel_nil, numel_nil, numel_cons, numel_nil, ravel_o2i by exact Hr. fold k. lia.
    + eapply always_all_cons.
      { apply (tile_ok k n (fun idx => El (G idx)) tr p m).
        - rewrite numel_cons in HZ. fold k in HZ. lia.
        - lia.
        - exact HG.
        - exact HTR.
        - exact X5. }
      intros m1 [H1 S1].
      assert (C1 : always_all ls m1 (leaves m1 outV outI [tmpV; tmpI] k Y)).
      { apply C; [exact H1| | | |]; intros i; rewrite S1 by congruence; auto. }
      revert C1. apply always_all_mono. intros m' [B1 B2]. split; [exact B1|]. intros q i Q1 Q2. cbn [In] in Q1. rewrite B2; [apply S1; intros ->; tauto|cbn [In]; tauto|exact Q2].
Qed.
End Dim.
