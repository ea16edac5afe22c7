(* The rounds of reduceMerge. *)
From Coq Require Import List Arith ZArith Bool Lia Permutation.
From Verif Require Import ShapeModel ShapeSpec ShapeProofs TensorModel TensorSpec TensorLemmas GpuModel GpuSpec GpuProofs GpuLemmas GpuWarp GpuOrder
  CudaModel CudaSpec CudaProofs CudaItems CudaMoveModel CudaMoveProofs3 CudaReduceModel CudaReduceProofs.
Import ListNotations.
Local Open Scope Z_scope.

Section Rounds.
Context {V : Type} (op : V -> V -> V) (e : V).
Hypothesis Hc : forall a b, op a b = op b a.
Hypothesis Ha : forall a b c, op a (op b c) = op (op a b) c.
Hypothesis He : op e e = e.

Lemma fold_valid : forall (f : nat -> V) n N, (n <= N)%nat ->
  fold_right op e (map (fun t => if (t <? n)%nat then f t else e) (seq 0 N)) = fold_right op e (map f (seq 0 n)).
Proof.
  intros f n N H. replace N with (n + (N - n))%nat by lia. rewrite seq_app, map_app, (fold_app op e Hc Ha He).
  replace (map (fun t => if (t <? n)%nat then f t else e) (seq (0 + n) (N - n))) with (map (fun _ : nat => e) (seq (0 + n) (N - n))).
  2:{ apply map_ext_in. intros t Ht. apply in_seq in Ht. destruct (Nat.ltb_spec t n); [lia|reflexivity]. }
  rewrite (fold_pads op e He), (fold_e op e Ha He). f_equal. apply map_ext_in. intros t Ht. apply in_seq in Ht.
  destruct (Nat.ltb_spec t n); [reflexivity|lia].
Qed.

Lemma always_all_cons : forall (l : launch V) ls m (Q Q' : (addr -> cell V) -> Prop),
  always l m Q -> (forall m', Q m' -> always_all ls m' Q') -> always_all (l :: ls) m Q'.
Proof. intros l ls m Q Q' H1 H2. cbn [always_all]. eapply always_mono; eauto. Qed.

(* device-to-device copy *)
Lemma copy_device : forall (m : addr -> cell V) dst src n (x : nat -> V), dst <> src ->
  (forall i, (i < n)%nat -> m (src, Z.of_nat i) = Some (Some (x i))) ->
  (forall i, (i < n)%nat -> m (dst, Z.of_nat i) <> None) ->
  always (copyDevice dst src n) m (fun m' => (forall i, (i < n)%nat -> m' (dst, Z.of_nat i) = Some (Some (x i)))
    /\ forall a, (forall i, (i < n)%nat -> a <> (dst, Z.of_nat i)) -> m' a = m a).
Proof.
  intros m dst src n x N H1 H2. eapply always_mono.
  - apply (covers_at (copyDevice dst src n) m dst 0 (Z.of_nat n) (fun i => x (Z.to_nat i))).
    + split; [|split]; cbn; lia.
    + intros b t Hb Ht. cbn [code copyDevice]. do 2 eexists. split; [apply (copy_ok V m n x); [exact H1|exact H2]|]. split.
      * intros a Hin Ea. apply in_map_iff in Hin as (k & <- & _). cbn [fst] in Ea. congruence.
      * intros a v Hin. apply in_map_iff in Hin as (k & E & Hk). injection E as <- <-. apply in_seq in Hk.
        exists (Z.of_nat k). split; [lia|]. rewrite Nat2Z.id. split; [|reflexivity]. f_equal. 
    + intros i Hi. exists 0%nat, 0%nat. cbn [grid bdim copyDevice]. split; [lia|]. split; [lia|]. intros R W E.
      cbn [code copyDevice] in E. rewrite (copy_ok V m n x) in E by assumption. injection E as _ <-.
      apply in_map_iff. exists (Z.to_nat i). split; [|apply in_seq; lia]. do 2 f_equal. lia.
  - cbv beta. intros m' [A B]. split.
    + intros i Hi. specialize (A (Z.of_nat i) ltac:(lia)). rewrite Nat2Z.id in A. exact A.
    + intros a Hna. apply B. intros i Hi E. apply (Hna (Z.to_nat i)); [lia|]. rewrite Z2Nat.id by lia. exact E.
Qed.

(* ---- every block a row of at most 512 ---- *)

Lemma round_rows : forall m out inp n k (x : nat -> V),
  (0 < n <= 512)%nat -> (0 < k)%nat -> (Z.of_nat k * 512 < 2 ^ 32) -> out <> inp ->
  (forall i, (i < k * n)%nat -> m (inp, Z.of_nat i) = Some (Some (x i))) ->
  (forall i, (i < k)%nat -> m (out, Z.of_nat i) <> None) ->
  always (kReduceMerge op e indexLastDim out inp (Z.of_nat n) (Z.of_nat k) k) m (fun m' =>
    (forall r, (r < k)%nat -> m' (out, Z.of_nat r) = Some (Some (fold_right op e (map (fun j => x (r * n + j)%nat) (seq 0 n)))))
    /\ forall a, fst a <> out -> m' a = m a).
Proof.
  intros m out inp n k x Hn Hk HK NE HI HO.
  assert (IDX : forall b t, (b < k)%nat -> (t < blockSize)%nat ->
    indexLastDim (Z.of_nat n) (Z.of_nat k) k (gidx blockSize b t) = Some (if (t <? n)%nat then Z.of_nat (b * n + t) else -1)).
  { intros b t Hb Ht. assert (Z.of_nat blockSize = 512) as BS by reflexivity. unfold indexLastDim, gidx. rewrite BS.
    assert (Z.of_nat t < 512) by lia.
    destruct (Z.eqb_spec (Z.of_nat k) 0); [lia|]. rewrite (Z.mod_small (Z.of_nat k * 512)) by lia.
    rewrite (Z.mul_comm (Z.of_nat k) 512), Z.div_mul by lia. cbn [Z.eqb].
    rewrite (Z.mod_small (Z.of_nat b * 512 + Z.of_nat t)) by lia.
    rewrite (Z.add_comm (Z.of_nat b * 512)), Z.div_add, Z.mod_add, Z.div_small, (Z.mod_small (Z.of_nat t)) by lia.
    destruct (Z.ltb_spec (Z.of_nat t) (Z.of_nat n)), (Nat.ltb_spec t n); try lia; f_equal; lia. }
  eapply always_mono.
  - apply (block_merge op e Hc Ha He _ m inp (fun b t => if (t <? n)%nat then Z.of_nat (b * n + t) else -1) (fun b => (out, Z.of_nat b))
             (fun b t => if (t <? n)%nat then x (b * n + t)%nat else e) 16).
    + reflexivity.
    + lia.
    + assert (BS : (0 < blockSize <= 1024)%nat) by (unfold blockSize; lia). split; [|split]; cbn [grid bdim kReduceMerge]; [lia| |exact BS].
      change (2 ^ 31 - 1) with (2 ^ 23 + 2139095039). change (2 ^ 32) with (2 ^ 23 * 512) in HK. lia.
    + intros a. reflexivity.
    + intros b t Hb Ht. cbn [grid bdim code kReduceMerge] in *. rewrite IDX by assumption. reflexivity.
    + intros b t Hb Ht. cbn [grid bdim kReduceMerge] in *. destruct (Nat.ltb_spec t n); [|reflexivity].
      destruct (Z.leb_spec 0 (Z.of_nat (b * n + t))); [|lia]. apply HI. nia.
    + intros b Hb. apply HO, Hb.
    + intros b b' Hb Hb' E. injection E as E. lia.
    + intros b b' t Hb Hb' Ht H0 E. injection E as E _. contradiction.
  - cbv beta. intros m' [A B]. cbn [grid kReduceMerge] in *. split.
    + intros r Hr. rewrite (A r Hr). do 2 f_equal. change (32 * 16)%nat with 512%nat. apply fold_valid. lia.
    + intros a Hna. apply B. intros b Hb ->. apply Hna. reflexivity.
Qed.

(* ---- every block 512 of a list ---- *)

Lemma chunks_acc : forall g, (0 < g)%nat -> Z.of_nat g * 512 <= 2 ^ 32 -> forall sm c, accepted (@mkLaunch V g blockSize sm c).
Proof.
  intros g Hg HG sm c. assert (BS : (0 < blockSize <= 1024)%nat) by (unfold blockSize; lia). split; [|split]; cbn [grid bdim]; [exact Hg| |exact BS].
  change (2 ^ 31 - 1) with (2 ^ 23 + 2139095039). change (2 ^ 32) with (2 ^ 23 * 512) in HG. lia.
Qed.

Lemma round_chunks : forall indexer m out inp n k g (x : nat -> V),
  (0 < g)%nat -> Z.of_nat g * 512 <= 2 ^ 32 -> (out <> inp \/ g = 1%nat) ->
  (forall index, 0 <= index < Z.of_nat g * 512 -> indexer (Z.of_nat n) k g index = Some (if index <? Z.of_nat n then index else -1)) ->
  (forall i, (i < n)%nat -> m (inp, Z.of_nat i) = Some (Some (x i))) ->
  (forall i, (i < g)%nat -> m (out, Z.of_nat i) <> None) ->
  always (kReduceMerge op e indexer out inp (Z.of_nat n) k g) m (fun m' =>
    (forall b, (b < g)%nat -> m' (out, Z.of_nat b)
       = Some (Some (fold_right op e (map (fun t => if (b * 512 + t <? n)%nat then x (b * 512 + t)%nat else e) (seq 0 512)))))
    /\ forall a, fst a <> out \/ ~ 0 <= snd a < Z.of_nat g -> m' a = m a).
Proof.
  intros indexer m out inp n k g x Hg HG NE HX HI HO.
  assert (IDX : forall b t, (b < g)%nat -> (t < blockSize)%nat ->
    indexer (Z.of_nat n) k g (gidx blockSize b t) = Some (if (b * 512 + t <? n)%nat then Z.of_nat (b * 512 + t) else -1)).
  { intros b t Hb Ht. assert (Z.of_nat blockSize = 512) as BS by reflexivity. unfold gidx. rewrite BS.
    assert (Z.of_nat t < 512) by lia. rewrite (Z.mod_small (Z.of_nat b * 512 + Z.of_nat t)) by lia. rewrite HX by lia.
    destruct (Z.ltb_spec (Z.of_nat b * 512 + Z.of_nat t) (Z.of_nat n)), (Nat.ltb_spec (b * 512 + t) n); try lia; f_equal; lia. }
  eapply always_mono.
  - apply (block_merge op e Hc Ha He _ m inp (fun b t => if (b * 512 + t <? n)%nat then Z.of_nat (b * 512 + t) else -1) (fun b => (out, Z.of_nat b))
             (fun b t => if (b * 512 + t <? n)%nat then x (b * 512 + t)%nat else e) 16).
    + reflexivity.
    + lia.
    + apply chunks_acc; assumption.
    + intros a. reflexivity.
    + intros b t Hb Ht. cbn [grid bdim code kReduceMerge] in *. rewrite IDX by assumption. reflexivity.
    + intros b t Hb Ht. cbn [grid bdim kReduceMerge] in *. destruct (Nat.ltb_spec (b * 512 + t) n); [|reflexivity].
      destruct (Z.leb_spec 0 (Z.of_nat (b * 512 + t))); [|lia]. apply HI. lia.
    + intros b Hb. apply HO, Hb.
    + intros b b' Hb Hb' E. injection E as E. lia.
    + intros b b' t Hb Hb' Ht H0 E. cbn [grid kReduceMerge] in *. destruct NE as [NE| ->]; [injection E as E _; contradiction|].
      apply (f_equal snd) in E. cbn [snd] in E. destruct (Nat.ltb_spec (b' * 512 + t) n); lia.
  - cbv beta. intros m' [A B]. cbn [grid kReduceMerge] in *. split.
    + intros b Hb. rewrite (A b Hb). reflexivity.
    + intros a Hna. apply B. intros b Hb ->. cbn [fst snd] in Hna. lia.
Qed.

Lemma index_all : forall n k g index, indexAll n k g index = Some (if index <? n then index else -1).
Proof. reflexivity. Qed.

Lemma index_last_one : forall n g index, Z.of_nat g * 512 < 2 ^ 32 -> 0 <= index < Z.of_nat g * 512 ->
  indexLastDim n 1 g index = Some (if index <? n then index else -1).
Proof.
  intros n g index HG Hi. unfold indexLastDim. cbn [Z.eqb]. change (Z.of_nat blockSize) with 512.
  rewrite Z.div_1_r, (Z.mod_small (Z.of_nat g * 512)) by lia. destruct (Z.eqb_spec (Z.of_nat g * 512) 0); [lia|].
  rewrite Z.div_small, Z.mod_small by lia. destruct (index <? n); f_equal; lia.
Qed.

(* chunks of chunks *)
Lemma chunk_fold : forall (x : nat -> V) n g, (g * 512 >= n)%nat ->
  fold_right op e (map (fun b => fold_right op e (map (fun t => if (b * 512 + t <? n)%nat then x (b * 512 + t)%nat else e) (seq 0 512))) (seq 0 g))
  = fold_right op e (map x (seq 0 n)).
Proof.
  intros x n g H. rewrite <- (fold_valid x n (g * 512)%nat) by lia.
  assert (G : forall (f : nat -> V) g, fold_right op e (map (fun b => fold_right op e (map (fun t => f (b * 512 + t)%nat) (seq 0 512))) (seq 0 g))
                             = fold_right op e (map f (seq 0 (g * 512)))).
  { clear H n x g. intros f g. assert (M : forall a, map (fun t => f (a + t)%nat) (seq 0 512) = map f (seq a 512)).
    { intros a. transitivity (map f (map (fun i => a + i)%nat (seq 0 512))).
      - rewrite map_map. reflexivity.
      - rewrite map_add_seq, Nat.add_0_r. reflexivity. }
    induction g as [|g IH]; [reflexivity|]. rewrite (seq_S g 0), map_app, (fold_app op e Hc Ha He), IH.
    replace (S g * 512)%nat with (g * 512 + 512)%nat by lia. rewrite (seq_app (g * 512) 512 0), map_app, (fold_app op e Hc Ha He).
    f_equal. cbn [map]. cbn [fold_right]. rewrite (fold_e op e Ha He), M. reflexivity. }
  exact (G (fun t => if (t <? n)%nat then x t else e) g).
Qed.
End Rounds.
