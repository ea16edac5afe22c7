From Coq Require Import ZArith List Arith Bool Lia Permutation.
From Verif Require Import DataModel DataSpec DataProofs.
Import ListNotations.
Open Scope Z_scope.

Section Cols.
Context {T : Type} (d : T) (getItem : nat -> list T) (w : nat).
Hypothesis HW : forall s, length (getItem s) = w.
Definition columns (ids : list nat) : list (list T) := map (fun j => map (fun s => nth j (getItem s) d) ids) (seq 0 w).
Lemma columns_length : forall ids, length (columns ids) = w. Proof. intros. unfold columns. rewrite map_length, seq_length. reflexivity. Qed.
Lemma resize_same : forall X (e : X) l, resizeList e (length l) l = l.
Proof. intros. unfold resizeList. rewrite Nat.sub_diag. cbn. rewrite app_nil_r. apply firstn_all. Qed.
Lemma resize_empty : resizeList [] w [] = columns [].
Proof.
  unfold resizeList. cbn. rewrite Nat.sub_0_r. rewrite firstn_all2 by (rewrite repeat_length; lia). unfold columns. cbn. clear. generalize 0%nat. induction w; intros; cbn; auto. f_equal. auto.
Qed.
Lemma addItem_columns : forall cols p s, resizeList [] w cols = columns p -> addItem cols (getItem s) = columns (p ++ [s]).
Proof.
  intros cols p s HC. unfold addItem. rewrite HW, HC.
  apply nth_ext with [] []; [rewrite map_length, combine_length, HW, !columns_length; lia|]. intros j Hj. rewrite map_length, combine_length, HW, columns_length, Nat.min_id in Hj.
  rewrite (nth_indep _ [] ((fun q : list T * T => fst q ++ [snd q]) ([], d))) by (rewrite map_length, combine_length, HW, columns_length; lia). rewrite (map_nth (fun q : list T * T => fst q ++ [snd q])). rewrite combine_nth by (rewrite HW, columns_length; reflexivity). cbn [fst snd].
  unfold columns. rewrite !(nth_indep _ [] ((fun j => map (fun s => nth j (getItem s) d) p) 0%nat)) by (rewrite map_length, seq_length; lia). rewrite (map_nth (fun j => map (fun s => nth j (getItem s) d) p)).
  rewrite (nth_indep _ _ ((fun j => map (fun s => nth j (getItem s) d) (p ++ [s])) 0%nat)) by (rewrite map_length, seq_length; lia). rewrite (map_nth (fun j => map (fun s => nth j (getItem s) d) (p ++ [s]))). rewrite seq_nth by lia. cbn [Nat.add]. rewrite map_app. reflexivity.
Qed.
Lemma fold_columns : forall ids p cols, resizeList [] w cols = columns p -> (ids <> [] \/ cols = columns p) -> fold_left addItem (map getItem ids) cols = columns (p ++ ids).
Proof.
  induction ids as [|s ids IH]; intros p cols HC HE; cbn [map fold_left].
  - rewrite app_nil_r. destruct HE; [contradiction|auto].
  - rewrite (addItem_columns cols p s HC). rewrite (IH (p ++ [s])).
    + rewrite <- app_assoc. reflexivity.
    + rewrite <- (columns_length (p ++ [s])) at 1. apply resize_same.
    + right; reflexivity.
Qed.
End Cols.

Lemma order_perm : forall n sh draw, Permutation (seq 0 n) (order (Plain n sh draw)).
Proof. intros n sh draw. cbn. destruct sh; auto. apply shuffle_perm. Qed.
Lemma makeLoader_ok : forall src bs dl, 0 < bs < 2 ^ 64 -> (dl = false -> Z.of_nat (length (order src)) <= 2 ^ 24) ->
  makeLoader src bs dl = Some (mkLoader bs (batches (length (order src)) bs dl) (order src)).
Proof.
  intros src bs dl Hb HN. unfold makeLoader. fold (order src). destruct dl; cbn [batches].
  - rewrite (proj2 (Z.eqb_neq bs 0)) by lia. reflexivity.
  - rewrite ceilDivF_ok; auto. split; [lia|auto].
Qed.
Lemma batch_bound : forall n bs dl k, 0 < bs < 2 ^ 64 -> Z.of_nat n <= 2 ^ 63 -> 0 <= k < batches n bs dl -> k * bs + bs < 2 ^ 64 /\ k * bs < Z.of_nat n.
Proof.
  intros n bs dl k Hb Hn Hk. assert (HK : k * bs < Z.of_nat n).
  { unfold batches in Hk. destruct dl.
    - assert (k * bs + bs <= Z.of_nat n); [|lia]. pose proof (Z.div_mod (Z.of_nat n) bs ltac:(lia)). pose proof (Z.mod_pos_bound (Z.of_nat n) bs ltac:(lia)). nia.
    - pose proof (Z.div_mod (Z.of_nat n + bs - 1) bs ltac:(lia)). pose proof (Z.mod_pos_bound (Z.of_nat n + bs - 1) bs ltac:(lia)). nia. }
  split; auto. destruct (Z.eq_dec k 0) as [->|]; [lia|]. assert (bs <= k * bs) by nia. lia.
Qed.
Lemma range_of : forall idx bs dl k, 0 < bs < 2 ^ 64 -> Z.of_nat (length idx) <= 2 ^ 63 -> 0 <= k < batches (length idx) bs dl ->
  batchRange (mkLoader bs (batches (length idx) bs dl) idx) k = firstn (Z.to_nat bs) (skipn (Z.to_nat k * Z.to_nat bs) idx).
Proof.
  intros idx bs dl k Hb Hn Hk. destruct (batch_bound _ _ _ _ Hb Hn Hk) as [H1 H2]. rewrite batchRange_ok; cbn [indices batchSize]; try lia.
  rewrite Z2Nat.inj_mul by lia. reflexivity.
Qed.
Lemma visited_ok : forall idx bs dl, 0 < bs < 2 ^ 64 -> Z.of_nat (length idx) <= 2 ^ 63 ->
  visited (mkLoader bs (batches (length idx) bs dl) idx) = firstn (Z.to_nat (batches (length idx) bs dl) * Z.to_nat bs) idx.
Proof.
  intros idx bs dl Hb Hn. unfold visited. cbn [batchCnt]. rewrite <- chunks_concat. f_equal. apply map_ext_in. intros k Hk. apply in_seq in Hk.
  rewrite range_of by lia. rewrite Nat2Z.id. reflexivity.
Qed.
Lemma batches_all : forall n bs, 0 < bs -> (n <= Z.to_nat (batches n bs false) * Z.to_nat bs)%nat.
Proof.
  intros n bs Hb. unfold batches. pose proof (Z.div_mod (Z.of_nat n + bs - 1) bs ltac:(lia)). pose proof (Z.mod_pos_bound (Z.of_nat n + bs - 1) bs ltac:(lia)).
  assert (0 <= (Z.of_nat n + bs - 1) / bs) by (apply Z.div_pos; lia). rewrite <- Z2Nat.inj_mul by lia. lia.
Qed.
Lemma epoch_ok : forall T (d : T) getItem stack w idx bs dl, (forall s, length (getItem s) = w) -> 0 < bs < 2 ^ 64 -> Z.of_nat (length idx) <= 2 ^ 63 ->
  epoch getItem stack (mkLoader bs (batches (length idx) bs dl) idx)
  = map (fun k => (Z.of_nat k, map (fun j => stack (map (fun s => nth j (getItem s) d) (firstn (Z.to_nat bs) (skipn (k * Z.to_nat bs) idx)))) (seq 0 w))) (seq 0 (Z.to_nat (batches (length idx) bs dl))).
Proof.
  intros T d getItem stack w idx bs dl HW Hb Hn. unfold epoch. cbn [batchCnt]. apply map_ext_in. intros k Hk. apply in_seq in Hk. unfold batchAt. f_equal.
  rewrite range_of by lia. rewrite Nat2Z.id. destruct (batch_bound (length idx) bs dl (Z.of_nat k) Hb Hn ltac:(lia)) as [_ HB].
  rewrite (fold_columns d getItem w HW _ []).
  - unfold columns. rewrite map_map. reflexivity.
  - apply resize_empty.
  - left. intros HE. apply (f_equal (@length nat)) in HE. rewrite firstn_length, skipn_length in HE. cbn in HE. assert (k * Z.to_nat bs < length idx)%nat by (rewrite <- (Nat2Z.id k); rewrite <- Z2Nat.inj_mul; lia). lia.
Qed.

(** * Distributed sampler *)
Definition dorder (engine : Z -> nat -> nat) n (sh : bool) seed ep : list nat := if sh then shuffle (engine ((seed + ep) mod 2 ^ 32)) (iota n) else iota n.
Lemma dorder_perm : forall engine n sh seed ep, Permutation (seq 0 n) (dorder engine n sh seed ep).
Proof. intros. unfold dorder. destruct sh; [apply shuffle_perm|apply Permutation_refl]. Qed.
Lemma dorder_length : forall engine n sh seed ep, length (dorder engine n sh seed ep) = n.
Proof. intros. rewrite <- (Permutation_length (dorder_perm engine n sh seed ep)). apply seq_length. Qed.
Lemma slices_concat : forall (l : list nat) ns R, (ns * R = length l)%nat -> concat (map (fun r => firstn ns (skipn (r * ns) l)) (seq 0 R)) = l.
Proof. intros l ns R H. rewrite chunks_concat. apply firstn_all2. lia. Qed.
Lemma dist_keep : forall engine n R sh seed ep, 0 < R < 2 ^ 64 -> Z.of_nat n <= 2 ^ 24 -> let ns := (Z.of_nat n + R - 1) / R in ns * R <= 2 * Z.of_nat n ->
  let p := dorder engine n sh seed ep in
  forall r, 0 <= r < R -> distIndices engine n R r sh seed ep false = Some (firstn (Z.to_nat ns) (skipn (Z.to_nat r * Z.to_nat ns) (p ++ firstn (Z.to_nat (ns * R) - n) p))).
Proof.
  intros engine n R sh seed ep HR Hn ns HP p r Hr. unfold distIndices, numSamples. rewrite ceilDivF_ok by lia. fold ns. fold (dorder engine n sh seed ep). fold p. cbv zeta.
  assert (HL : length p = n) by apply dorder_length. rewrite HL. assert (Hns : 0 <= ns) by (apply Z.div_pos; lia).
  assert (HC : Z.of_nat n <= ns * R). { unfold ns. pose proof (Z.div_mod (Z.of_nat n + R - 1) R ltac:(lia)). pose proof (Z.mod_pos_bound (Z.of_nat n + R - 1) R ltac:(lia)). nia. }
  unfold u64. rewrite (Z.mod_small (ns * R)) by lia. assert (HS : 0 <= ns * r /\ ns * r + ns <= ns * R) by nia. rewrite (Z.mod_small (ns * r)) by lia.
  assert (HAll : (if Z.of_nat n <? ns * R then match slice p 0 (ns * R - Z.of_nat n) with Some q => Some (p ++ q) | None => None end else Some p) = Some (p ++ firstn (Z.to_nat (ns * R) - n) p)).
  { destruct (Z.ltb_spec (Z.of_nat n) (ns * R)) as [H|H].
    - unfold slice. rewrite HL. rewrite (proj2 (Z.leb_le 0 (ns * R - Z.of_nat n))) by lia. rewrite (proj2 (Z.leb_le (0 + (ns * R - Z.of_nat n)) (Z.of_nat n))) by lia. cbn [andb Z.leb]. cbn. do 3 f_equal. lia.
    - replace (Z.to_nat (ns * R) - n)%nat with 0%nat by lia. cbn. rewrite app_nil_r. reflexivity. }
  rewrite HAll. unfold slice. rewrite app_length, firstn_length, HL. rewrite (proj2 (Z.leb_le 0 (ns * r))) by lia. rewrite (proj2 (Z.leb_le 0 ns)) by lia.
  rewrite (proj2 (Z.leb_le (ns * r + ns) _)) by lia. cbn [andb]. rewrite Z.mul_comm, Z2Nat.inj_mul by lia. reflexivity.
Qed.
Lemma dist_drop : forall engine n R sh seed ep, 0 < R < 2 ^ 64 -> Z.of_nat n < 2 ^ 64 -> let ns := Z.of_nat n / R in
  let p := dorder engine n sh seed ep in
  forall r, 0 <= r < R -> distIndices engine n R r sh seed ep true = Some (firstn (Z.to_nat ns) (skipn (Z.to_nat r * Z.to_nat ns) (firstn (Z.to_nat (ns * R)) p))).
Proof.
  intros engine n R sh seed ep HR Hn ns p r Hr. unfold distIndices, numSamples. rewrite (proj2 (Z.eqb_neq R 0)) by lia. fold ns. fold (dorder engine n sh seed ep). fold p. cbv zeta.
  assert (HL : length p = n) by apply dorder_length. assert (Hns : 0 <= ns) by (apply Z.div_pos; lia).
  assert (HC : ns * R <= Z.of_nat n). { unfold ns. pose proof (Z.div_mod (Z.of_nat n) R ltac:(lia)). pose proof (Z.mod_pos_bound (Z.of_nat n) R ltac:(lia)). nia. }
  unfold u64. rewrite (Z.mod_small (ns * R)) by nia. assert (HS : 0 <= ns * r /\ ns * r + ns <= ns * R) by nia. rewrite (Z.mod_small (ns * r)) by lia.
  unfold resizeList. rewrite HL. replace (Z.to_nat (ns * R) - n)%nat with 0%nat by lia. cbn [repeat]. rewrite app_nil_r.
  unfold slice. rewrite firstn_length, HL. rewrite (proj2 (Z.leb_le 0 (ns * r))) by lia. rewrite (proj2 (Z.leb_le 0 ns)) by lia.
  rewrite (proj2 (Z.leb_le (ns * r + ns) _)) by lia. cbn [andb]. rewrite Z.mul_comm, Z2Nat.inj_mul by lia. reflexivity.
Qed.
