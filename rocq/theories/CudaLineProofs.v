(* Softmax on the GPU: one block. *)
From Coq Require Import List Arith ZArith NArith Bool Lia Reals Lra Permutation.
From Verif Require Import ShapeModel TensorModel BcastModel BufModel ReduceModel ReduceSpec LineModel SoftmaxModel
  GpuModel GpuSpec GpuProofs GpuLemmas CudaModel CudaReduceModel CudaExtremeModel CudaExtremeProofs2 CudaLineModel GpuWarp GpuBlock GpuLines.
Import ListNotations.
Local Open Scope nat_scope.

(* ---- nextPow2 ---- *)
Definition smeared (w x y : N) : Prop := forall i, N.testbit y i = true <-> exists j, (i <= j < i + w)%N /\ N.testbit x j = true.

Lemma smear_step : forall w x y, smeared w x y -> smeared (2 * w) x (N.lor y (N.shiftr y w)).
Proof.
  unfold smeared. intros w x y H i. rewrite N.lor_spec, orb_true_iff, N.shiftr_spec', !H. split.
  - intros [(j & Hj & B)|(j & Hj & B)]; exists j; (split; [lia|exact B]).
  - intros (j & Hj & B). destruct (N.lt_ge_cases j (i + w)); [left|right]; exists j; (split; [lia|exact B]).
Qed.

Lemma smear_all : forall x, (x < 2 ^ 32)%N -> 
  let v := x in let v := N.lor v (N.shiftr v 1) in let v := N.lor v (N.shiftr v 2) in let v := N.lor v (N.shiftr v 4) in let v := N.lor v (N.shiftr v 8) in
  N.lor v (N.shiftr v 16) = N.ones (N.size x).
Proof.
  intros x Hx v1 v2 v3 v4 v5. assert (S5 : smeared 32 x (N.lor v5 (N.shiftr v5 16))).
  { apply (smear_step 16). apply (smear_step 8). apply (smear_step 4). apply (smear_step 2). apply (smear_step 1).
    intros i. split; [intros B; exists i; split; [lia|exact B]|]. intros (j & Hj & B). replace i with j by lia. exact B. }
  apply N.bits_inj. intros i. destruct (N.eq_dec x 0) as [->|N0].
  { cbn [N.size N.ones N.shiftl N.pred]. destruct (N.testbit (N.lor v5 (N.shiftr v5 16)) i) eqn:B; [|rewrite N.bits_0; reflexivity]. apply S5 in B as (j & _ & B). rewrite N.bits_0 in B. discriminate. }
  rewrite N.size_log2 by exact N0. assert (Hl : (N.log2 x < 32)%N) by (apply N.log2_lt_pow2; lia).
  destruct (N.le_gt_cases i (N.log2 x)) as [Hi|Hi].
  - rewrite N.ones_spec_low by lia. apply S5. exists (N.log2 x). split; [lia|]. apply N.bit_log2, N0.
  - rewrite N.ones_spec_high by lia. destruct (N.testbit (N.lor v5 (N.shiftr v5 16)) i) eqn:B; [|reflexivity]. apply S5 in B as (j & Hj & B). rewrite N.bits_above_log2 in B by lia. discriminate.
Qed.

Lemma nextPow2_value : forall v, (0 < v <= 2 ^ 32)%N -> nextPow2 v = (2 ^ N.size (v - 1) mod 2 ^ 32)%N.
Proof.
  intros v Hv. unfold nextPow2. destruct (N.eqb_spec v 0); [lia|]. cbv zeta. rewrite (smear_all (v - 1)) by lia. f_equal. rewrite N.ones_equiv.
  assert (2 ^ N.size (v - 1) <> 0)%N by (apply N.pow_nonzero; lia). lia.
Qed.

Lemma size_spec : forall x k, (N.size x <= k <-> x < 2 ^ k)%N.
Proof.
  intros x k. destruct (N.eq_dec x 0) as [->|N0]. { cbn [N.size]. assert (2 ^ k <> 0)%N by (apply N.pow_nonzero; lia). lia. }
  rewrite N.size_log2 by exact N0. pose proof (N.log2_lt_pow2 x k). lia.
Qed.

Lemma nextPow2_least : forall v, (0 < v <= 2 ^ 31)%N -> exists k, nextPow2 v = (2 ^ k)%N /\ (v <= 2 ^ k)%N /\ forall j, (v <= 2 ^ j)%N -> (k <= j)%N.
Proof.
  intros v Hv. exists (N.size (v - 1)). assert (HS : (N.size (v - 1) <= 31)%N) by (apply size_spec; lia). assert (HP : (2 ^ N.size (v - 1) <= 2 ^ 31)%N) by (apply N.pow_le_mono_r; lia).
  split; [|split].
  - rewrite nextPow2_value by lia. apply N.mod_small. lia.
  - assert (X : (N.size (v - 1) <= N.size (v - 1))%N) by lia. apply size_spec in X. lia.
  - intros j Hj. apply size_spec. lia.
Qed.

Lemma nextPow2_shape : forall v, (v < 2 ^ 32)%N -> nextPow2 v = 0%N \/ exists k, nextPow2 v = (2 ^ k)%N.
Proof.
  intros v Hv. destruct (N.eq_dec v 0) as [->|N0]; [right; exists 0%N; reflexivity|]. rewrite nextPow2_value by lia.
  assert (HS : (N.size (v - 1) <= 32)%N) by (apply size_spec; lia). destruct (N.eq_dec (N.size (v - 1)) 32) as [->|N1]; [left; reflexivity|].
  right. exists (N.size (v - 1)). apply N.mod_small. apply N.pow_lt_mono_r; lia.
Qed.

Lemma lineBlock_ok : forall n, exists W, 0 < W <= 32 /\ lineBlock n = 32 * W.
Proof.
  intros n. unfold lineBlock. destruct (nextPow2_shape (N.of_nat n mod 2 ^ 32)) as [E|[k E]]; [apply N.mod_lt; discriminate| |]; rewrite E.
  - exists 1. split; [lia|reflexivity].
  - destruct (N.le_gt_cases k 5) as [K|K].
    + assert (2 ^ k <= 2 ^ 5)%N by (apply N.pow_le_mono_r; lia). exists 1. split; [lia|]. rewrite N.max_l by lia. reflexivity.
    + destruct (N.le_gt_cases k 10) as [K'|K'].
      * exists (N.to_nat (2 ^ (k - 5))). assert (E1 : (2 ^ k = 32 * 2 ^ (k - 5))%N) by (change 32%N with (2 ^ 5)%N; rewrite <- N.pow_add_r; f_equal; lia).
        assert (2 ^ (k - 5) <> 0)%N by (apply N.pow_nonzero; lia). assert (2 ^ (k - 5) <= 2 ^ 5)%N by (apply N.pow_le_mono_r; lia). split; [lia|]. lia.
      * assert (2 ^ 10 <= 2 ^ k)%N by (apply N.pow_le_mono_r; lia). exists 32. split; [lia|]. rewrite N.max_r, N.min_l by lia. reflexivity.
Qed.

(* ---- maxima of reals ---- *)
Lemma R_total : total_order (fun a b => if Rlt_dec a b then true else false).
Proof.
  repeat split.
  - intros x. destruct (Rlt_dec x x); [lra|reflexivity].
  - intros x y z. destruct (Rlt_dec x y), (Rlt_dec y z), (Rlt_dec x z); try discriminate; try reflexivity. lra.
  - intros x y. destruct (Rlt_dec x y), (Rlt_dec y x); try discriminate. intros _ _. lra.
Qed.
Lemma maxR_comm : forall a b, maxR a b = maxR b a.
Proof. exact (max_comm _ R_total). Qed.
Lemma maxR_assoc : forall a b c, maxR a (maxR b c) = maxR (maxR a b) c.
Proof. exact (max_assoc _ R_total). Qed.
Lemma maxR_same : forall a, maxR a a = a.
Proof. intros a. apply max_same. Qed.
Lemma maxR_ge : forall a b, (a <= maxR a b /\ b <= maxR a b)%R.
Proof. intros a b. unfold maxR, maxOf. destruct (Rlt_dec b a); split; lra. Qed.
Lemma foldMax_ge : forall lo l v, In v l -> (v <= fold_right maxR lo l)%R.
Proof.
  intros lo. induction l as [|x l IH]; intros v [].
  - subst. cbn [fold_right]. apply maxR_ge.
  - cbn [fold_right]. apply Rle_trans with (fold_right maxR lo l); [apply IH; assumption|apply maxR_ge].
Qed.

Lemma plus_comm_R : forall a b : R, (a + b = b + a)%R. Proof. intros; ring. Qed.
Lemma plus_assoc_R : forall a b c : R, (a + (b + c) = a + b + c)%R. Proof. intros; ring. Qed.
Lemma plus_zero_R : (0 + 0 = 0)%R. Proof. ring. Qed.

Definition RS (f : nat -> R) (n : nat) : R := fold_right Rplus 0%R (map f (seq 0 n)).
Definition RM (lo : R) (f : nat -> R) (n : nat) : R := fold_right maxR lo (map f (seq 0 n)).

Section Block.
Variable m : addr -> cell R.
Variable out : nat.
Variable at_ : nat -> Z.
Variable n : nat.
Hypothesis INJ : forall i j, i < n -> j < n -> at_ i = at_ j -> i = j.
Hypothesis AV : forall i, i < n -> m (out, at_ i) <> None.

Definition alloc (S : addr -> cell R) : Prop := forall q z, q < 2 -> (0 <= z < 32)%Z -> S (q, z) <> None.

Lemma alloc_other : forall S S' sa, alloc S -> (forall a, fst a <> sa -> S' a = S a) -> (forall z, (0 <= z < 32)%Z -> S' (sa, z) <> None) -> alloc S'.
Proof.
  intros S S' sa A B C q z Hq Hz. destruct (Nat.eq_dec q sa) as [->|N]; [apply C, Hz|]. rewrite B by exact N. apply A; assumption.
Qed.

Lemma expThen_quiet : forall M x k, (x <= M)%R -> expThen M x k = k (exp x).
Proof. intros M x k H. unfold expThen, expf. destruct (Rle_dec x M); [reflexivity|contradiction]. Qed.

(* the threads read their shares and add them up *)
Lemma share_reduce : forall op e W S (body : nat -> nat -> R -> (R -> thr R) -> thr R) (k : nat -> R -> thr R) c sa (v : nat -> R) (f : nat -> list nat) l Q,
  (forall a b, op a b = op b a) -> (forall a b c, op a (op b c) = op (op a b) c) -> op e e = e ->
  0 < W <= 32 -> (forall z, (0 <= z < 32)%Z -> S (sa, z) <> None) -> (forall t a, t < 32 * W -> In a (c t) -> fst a <> sa) ->
  (forall t i acc k, t < 32 * W -> In i (f t) -> quietly m out (body t i acc k) (k (op acc (v i)))) ->
  Permutation (flat_map f (seq 0 (32 * W))) l ->
  (forall S', (forall a, fst a <> sa -> S' a = S a) -> (forall z, (0 <= z < 32)%Z -> S' (sa, z) <> None) ->
     gets m out (32 * W) S' (fun t => k t (fold_right op e (map v l))) (fun _ => [(sa, 0%Z)]) Q) ->
  gets m out (32 * W) S (fun t => each (f t) (body t) e (fun x => blockReduce sa op (32 * W) t x e (k t))) c Q.
Proof.
  intros op e W S body k c sa v f l Q Hc Ha He HW HS HC HB HP H.
  apply gets_quietly with (P' := fun t => blockReduce sa op (32 * W) t (fold_left (fun acc i => op acc (v i)) (f t) e) e (k t)).
  { intros t Ht. apply (quietly_each m out R (body t) (fun acc i => op acc (v i)) (fun x => blockReduce sa op (32 * W) t x e (k t))). intros i acc k' Hi. apply HB; assumption. }
  apply gets_reduce; auto.
  - intros t. apply (left_absorb op e Hc Ha He).
  - intros S' A B. rewrite (total_shares op e Hc Ha He v f (32 * W) l HP). apply H; assumption.
Qed.

(* the last loop *)
Lemma share_write : forall BD S (body : nat -> nat -> unit -> (unit -> thr R) -> thr R) (y : nat -> R) (f : nat -> list nat) c,
  0 < BD -> (forall t, t < BD -> NoDup (f t)) -> (forall t i, t < BD -> In i (f t) -> i < n) ->
  (forall t i u k, t < BD -> i < n -> quietly m out (body t i u k) (St (out, at_ i) (y i) (k tt))) ->
  gets m out BD S (fun t => each (f t) (body t) tt (fun _ => Done)) c (fun Lf => forall t, t < BD -> wrote out at_ y (f t) (Lf t)).
Proof.
  intros BD S body y f c HB ND HI H. apply gets_write.
  - intros t i u k Ht Hi. apply H; eauto.
  - exact ND.
  - intros t i j Ht Hi Hj. apply INJ; eauto.
  - intros t i Ht Hi. apply AV; eauto.
Qed.

Section Softmax.
Variable self : nat.
Variable x : nat -> R.
Hypothesis HX : forall i, i < n -> m (self, at_ i) = Some (Some (x i)).
Hypothesis NE : self <> out.
Variables lo M : R.
Hypothesis HM : (0 <= M)%R.

Let mx := RM lo x n.
Let total := RS (fun i => exp (x i - mx)) n.
Definition softmaxFlat (isLog : bool) (i : nat) : R := if isLog then (x i - mx - ln total)%R else (exp (x i - mx) / total)%R.

Lemma below : forall i, i < n -> (x i - mx <= M)%R.
Proof.
  intros i Hi. assert (x i <= mx)%R; [|lra]. apply foldMax_ge. apply in_map, in_seq. lia.
Qed.

Lemma load : forall i k, i < n -> quietly m out (Ld (self, at_ i) k) (k (x i)).
Proof. intros i k Hi. apply quietly_ld; [exact NE|apply HX, Hi]. Qed.

Lemma write_block : forall isLog BD S f c, 0 < BD -> (forall t, t < BD -> NoDup (f t)) -> (forall t i, t < BD -> In i (f t) -> i < n) ->
  gets m out BD S (fun t => softmaxWrite M isLog out self at_ (f t) mx total) c (fun Lf => forall t, t < BD -> wrote out at_ (softmaxFlat isLog) (f t) (Lf t)).
Proof.
  intros isLog BD S f c HB ND HI. unfold softmaxWrite, softmaxFlat. destruct isLog.
  - apply share_write; auto. intros t i u k Ht Hi. apply load, Hi.
  - apply share_write; auto. intros t i u k Ht Hi. eapply quietly_trans; [apply load, Hi|]. rewrite expThen_quiet by (apply below, Hi). apply quietly_refl.
Qed.

Lemma max_block : forall W S c (k : nat -> R -> thr R) f Q, 0 < W <= 32 -> alloc S -> (forall t a, t < 32 * W -> In a (c t) -> fst a <> 0) ->
  Permutation (flat_map f (seq 0 (32 * W))) (seq 0 n) ->
  (forall S', (forall a, fst a <> 0 -> S' a = S a) -> alloc S' -> gets m out (32 * W) S' (fun t => k t mx) (fun _ => [(0, 0%Z)]) Q) ->
  gets m out (32 * W) S (fun t => localMax lo self at_ (f t) (fun mx => blockReduce 0 maxR (32 * W) t mx lo (k t))) c Q.
Proof.
  intros W S c k f Q HW HS HC HP H. unfold localMax.
  apply (share_reduce maxR lo W S (fun t i mx k => Ld (self, at_ i) (fun x => k (maxR mx x))) k c 0 x f (seq 0 n)); auto using maxR_comm, maxR_assoc, maxR_same.
  - intros t i acc k' Ht Hi. apply (load i (fun x => k' (maxR acc x))). assert (X : In i (seq 0 n)); [|apply in_seq in X; lia]. apply (Permutation_in i HP). apply in_flat_map. exists t. split; [apply in_seq; lia|exact Hi].
  - intros S' A B. apply H; [exact A|]. apply (alloc_other S S' 0); assumption.
Qed.

Lemma exp_block : forall W S c (k : nat -> R -> thr R) f Q, 0 < W <= 32 -> alloc S -> (forall t a, t < 32 * W -> In a (c t) -> fst a <> 1) ->
  Permutation (flat_map f (seq 0 (32 * W))) (seq 0 n) ->
  (forall S', (forall a, fst a <> 1 -> S' a = S a) -> alloc S' -> gets m out (32 * W) S' (fun t => k t total) (fun _ => [(1, 0%Z)]) Q) ->
  gets m out (32 * W) S (fun t => localExp M self at_ (f t) mx (fun s => blockReduce 1 Rplus (32 * W) t s 0%R (k t))) c Q.
Proof.
  intros W S c k f Q HW HS HC HP H. unfold localExp.
  apply (share_reduce Rplus 0%R W S (fun t i sum k => Ld (self, at_ i) (fun x => expThen M (x - mx) (fun e => k (sum + e)%R))) k c 1 (fun i => exp (x i - mx)) f (seq 0 n)); auto using plus_comm_R, plus_assoc_R, plus_zero_R.
  - intros t i acc k' Ht Hi. assert (Hn : i < n). { assert (X : In i (seq 0 n)); [|apply in_seq in X; lia]. apply (Permutation_in i HP). apply in_flat_map. exists t. split; [apply in_seq; lia|exact Hi]. }
    eapply quietly_trans; [apply load, Hn|]. rewrite expThen_quiet by (apply below, Hn). apply quietly_refl.
  - intros S' A B. apply H; [exact A|]. apply (alloc_other S S' 1); assumption.
Qed.

Lemma small_block : forall isLog W S, 0 < W <= 32 -> alloc S ->
  gets m out (32 * W) S (fun t => let is := strided n t (32 * W) n in
    localMax lo self at_ is (fun mx => blockReduce 0 maxR (32 * W) t mx lo (fun mx =>
    localExp M self at_ is mx (fun sum => blockReduce 1 Rplus (32 * W) t sum 0%R (fun sum =>
    softmaxWrite M isLog out self at_ is mx sum))))) (fun _ => [])
  (fun Lf => forall t, t < 32 * W -> wrote out at_ (softmaxFlat isLog) (strided n t (32 * W) n) (Lf t)).
Proof.
  intros isLog W S HW HS. set (f := fun t => strided n t (32 * W) n). assert (HP := strided_shares n (32 * W) ltac:(lia)).
  apply (max_block W S (fun _ => []) (fun t mx => localExp M self at_ (f t) mx (fun sum => blockReduce 1 Rplus (32 * W) t sum 0%R (fun sum => softmaxWrite M isLog out self at_ (f t) mx sum))) f); auto.
  intros S1 A1 B1. apply (exp_block W S1 (fun _ => [(0, 0%Z)]) (fun t sum => softmaxWrite M isLog out self at_ (f t) mx sum) f); auto.
  { intros t a _ [<-|[]]. discriminate. }
  intros S2 A2 B2. apply write_block; [lia| |].
  - intros t Ht. apply strided_nodup. lia.
  - intros t i Ht Hi. apply strided_mod in Hi; [apply Hi|lia|exact Ht].
Qed.

(* shared[0] is combined to shared[1], which everyone reads *)
Lemma tiles_block : forall op e W S (k : nat -> R -> thr R) sa v Q,
  (forall a b, op a b = op b a) -> (forall a b c, op a (op b c) = op (op a b) c) -> op e e = e -> op v e = v -> sa < 2 ->
  0 < W <= 32 -> alloc S -> S (2, 0%Z) = Some (Some v) -> S (2, 1%Z) <> None ->
  (forall S', S' (2, 0%Z) <> None -> S' (2, 1%Z) <> None -> alloc S' -> gets m out (32 * W) S' (fun t => k t v) (fun _ => [(2, 1%Z)]) Q) ->
  gets m out (32 * W) S (fun t => combineTiles sa op e (32 * W) t (k t)) (fun _ => []) Q.
Proof.
  intros op e W S k sa v Q Hc Ha He Hv Hsa HW HS H0 H1 H. unfold combineTiles.
  set (k2 := fun t v => publish t (2, 1%Z) v (SLd (2, 1%Z) (k t))).
  intros r HR. apply ends_run with (L' := lanes m S (fun t => blockReduce sa op (32 * W) t (if t =? 0 then op e v else e) e (k2 t)) r (fun t => if t =? 0 then [(2, 0%Z)] else [])).
  { intros t Ht. unfold run, lanes. cbn [lp lg ls gr gw sr sw]. cbn [strided]. destruct (Nat.eqb_spec t 0) as [->|N].
    - cbn [Nat.ltb Nat.leb each solo Z.of_nat]. rewrite H0. reflexivity.
    - destruct (Nat.ltb_spec t 1); [lia|]. reflexivity. }
  revert r HR. change (gets m out (32 * W) S (fun t => blockReduce sa op (32 * W) t (if t =? 0 then op e v else e) e (k2 t)) (fun t => if t =? 0 then [(2, 0%Z)] else []) Q).
  apply gets_reduce; auto.
  - intros t. destruct (t =? 0); [|exact He]. rewrite <- Ha, Hv. reflexivity.
  - intros t a Ht. destruct (t =? 0); [|intros []]. intros [<-|[]]. cbn [fst]. lia.
  - intros S' A B. rewrite (one_share op e Hc He v (32 * W)) by (lia || exact Hv). unfold k2, publish.
    assert (AS : alloc S') by (apply (alloc_other S S' sa); assumption).
    apply (gets_publish m out (32 * W) S' (fun t => SLd (2, 1%Z) (k t)) (2, 1%Z) v); [lia| | |].
    + rewrite A by (cbn [fst]; lia). exact H1.
    + intros t Ht [X|[]]. apply (f_equal fst) in X. cbn [fst] in X. lia.
    + apply gets_sld with (v := v); [apply upd_same|]. apply H.
      * rewrite upd_other by discriminate. rewrite A by (cbn [fst]; lia). rewrite H0. discriminate.
      * rewrite upd_same. discriminate.
      * intros q z Hq Hz. rewrite upd_other; [apply AS; assumption|]. intros X. apply (f_equal fst) in X. cbn [fst] in X. lia.
Qed.

Lemma publish_block : forall BD S (P : nat -> thr R) z v c Q, 0 < BD -> alloc S -> S (2, z) <> None -> (forall t a, t < BD -> In a (c t) -> fst a <> 2) ->
  (alloc (upd S (2, z) (Some (Some v))) -> gets m out BD (upd S (2, z) (Some (Some v))) P (fun _ => []) Q) ->
  gets m out BD S (fun t => publish t (2, z) v (P t)) c Q.
Proof.
  intros BD S P z v c Q HB AS HS HC H. unfold publish. apply gets_publish; [exact HB|exact HS| |].
  - intros t Ht X. apply (HC t _ Ht X). reflexivity.
  - apply H. intros q y Hq Hy. rewrite upd_other; [apply AS; assumption|]. intros X. apply (f_equal fst) in X. cbn [fst] in X. lia.
Qed.

Lemma large_block : forall isLog W S, 0 < W <= 32 -> alloc S -> S (2, 0%Z) <> None -> S (2, 1%Z) <> None ->
  gets m out (32 * W) S (fun t => let is := strided n t (32 * W) n in
    localMax lo self at_ is (fun mx => blockReduce 0 maxR (32 * W) t mx lo (fun mx => publish t (2, 0%Z) mx (
    combineTiles 0 maxR lo (32 * W) t (fun mx =>
    localExp M self at_ is mx (fun sum => blockReduce 1 Rplus (32 * W) t sum 0%R (fun sum => publish t (2, 0%Z) sum (
    combineTiles 1 Rplus 0%R (32 * W) t (fun sum =>
    softmaxWrite M isLog out self at_ is mx sum))))))))) (fun _ => [])
  (fun Lf => forall t, t < 32 * W -> wrote out at_ (softmaxFlat isLog) (strided n t (32 * W) n) (Lf t)).
Proof.
  intros isLog W S HW HS S0 S1. set (f := fun t => strided n t (32 * W) n). assert (HP := strided_shares n (32 * W) ltac:(lia)).
  set (k4 := fun t mx sum => softmaxWrite M isLog out self at_ (f t) mx sum).
  set (k3 := fun t mx sum => publish t (2, 0%Z) sum (combineTiles 1 Rplus 0%R (32 * W) t (k4 t mx))).
  set (k2 := fun t mx => localExp M self at_ (f t) mx (fun sum => blockReduce 1 Rplus (32 * W) t sum 0%R (k3 t mx))).
  set (k1 := fun t mx => publish t (2, 0%Z) mx (combineTiles 0 maxR lo (32 * W) t (k2 t))).
  apply (max_block W S (fun _ => []) k1 f); auto. intros Sa A1 B1.
  apply (publish_block (32 * W) Sa (fun t => combineTiles 0 maxR lo (32 * W) t (k2 t)) 0%Z mx (fun _ => [(0, 0%Z)])); [lia|exact B1|rewrite A1 by discriminate; exact S0|intros t a _ [<-|[]]; discriminate|]. intros B2.
  apply (tiles_block maxR lo W _ k2 0 mx); auto using maxR_comm, maxR_assoc, maxR_same.
  { apply (fold_e maxR lo maxR_assoc (maxR_same lo)). }
  { rewrite upd_other by discriminate. rewrite A1 by discriminate. exact S1. }
  intros Sb N0 N1 B3. apply (exp_block W Sb (fun _ => [(2, 1%Z)]) (fun t => k3 t mx) f); auto. { intros t a _ [<-|[]]. discriminate. }
  intros Sc A4 B4. apply (publish_block (32 * W) Sc (fun t => combineTiles 1 Rplus 0%R (32 * W) t (k4 t mx)) 0%Z total (fun _ => [(1, 0%Z)])); [lia|exact B4|rewrite A4 by discriminate; exact N0|intros t a _ [<-|[]]; discriminate|]. intros B5.
  apply (tiles_block Rplus 0%R W _ (fun t => k4 t mx) 1 total); auto using plus_comm_R, plus_assoc_R, plus_zero_R, upd_same.
  { ring. }
  { rewrite upd_other by discriminate. rewrite A4 by discriminate. exact N1. }
  intros Sd _ _ B6. apply write_block; [lia| |].
  - intros t Ht. apply strided_nodup. lia.
  - intros t i Ht Hi. apply strided_mod in Hi; [apply Hi|lia|exact Ht].
Qed.
End Softmax.
End Block.
