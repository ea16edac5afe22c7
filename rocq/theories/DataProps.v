(** C33 and C34: data loader and distributed sampler. *)
From Coq Require Import ZArith List Arith Bool Lia Permutation.
From Verif Require Import DataModel DataSpec DataProofs DataProofs2.
Import ListNotations.
Open Scope Z_scope.

(** * C33 *)
(** Up to 2^24 samples (any number below 2^63 with dropLast): the number of
    batches is right, batch k stacks the samples k*bs, ..., of the order, one
    stacked tensor per component of an item. *)
Theorem loader_epoch_partial : forall T (d : T) getItem stack w src bs dropLast,
  (forall s, length (getItem s) = w) -> 0 < bs < 2 ^ 64 ->
  Z.of_nat (length (order src)) <= 2 ^ 63 -> (dropLast = false -> Z.of_nat (length (order src)) <= 2 ^ 24) ->
  exists l, makeLoader src bs dropLast = Some l /\ batchCnt l = batches (length (order src)) bs dropLast /\
  epoch getItem stack l
  = map (fun k => (Z.of_nat k, map (fun j => stack (map (fun s => nth j (getItem s) d) (firstn (Z.to_nat bs) (skipn (k * Z.to_nat bs) (order src))))) (seq 0 w)))
        (seq 0 (Z.to_nat (batches (length (order src)) bs dropLast))).
Proof.
  intros T d getItem stack w src bs dl HW Hb HN HD. exists (mkLoader bs (batches (length (order src)) bs dl) (order src)). split; [apply makeLoader_ok; auto|]. split; [reflexivity|]. apply epoch_ok; auto.
Qed.
(** Without dropLast a pass goes through the whole order, with dropLast through
    its longest prefix of full batches. *)
Theorem loader_visits_all_partial : forall src bs l, 0 < bs < 2 ^ 64 -> Z.of_nat (length (order src)) <= 2 ^ 24 ->
  makeLoader src bs false = Some l -> visited l = order src.
Proof.
  intros src bs l Hb HN HL. rewrite makeLoader_ok in HL by auto. assert (E : l = mkLoader bs (batches (length (order src)) bs false) (order src)) by congruence. rewrite E. rewrite visited_ok by lia. apply firstn_all2. apply batches_all. lia.
Qed.
Theorem loader_drop_last : forall src bs l, 0 < bs < 2 ^ 64 -> Z.of_nat (length (order src)) <= 2 ^ 63 ->
  makeLoader src bs true = Some l -> visited l = firstn (length (order src) / Z.to_nat bs * Z.to_nat bs) (order src).
Proof.
  intros src bs l Hb HN HL. rewrite makeLoader_ok in HL by (auto; discriminate). assert (E : l = mkLoader bs (batches (length (order src)) bs true) (order src)) by congruence. rewrite E. rewrite visited_ok by lia. f_equal. cbn [batches]. f_equal.
  rewrite <- (Nat2Z.id (length (order src) / Z.to_nat bs)). f_equal. rewrite Nat2Z.inj_div. rewrite Z2Nat.id by lia. reflexivity.
Qed.
(** Every sample exactly once, shuffled or not. *)
Theorem loader_each_sample_once_partial : forall n sh draw bs l, 0 < bs < 2 ^ 64 -> Z.of_nat n <= 2 ^ 24 ->
  makeLoader (Plain n sh draw) bs false = Some l -> Permutation (visited l) (seq 0 n).
Proof.
  intros n sh draw bs l Hb HN HL. assert (HO : length (order (Plain n sh draw)) = n) by (rewrite <- (Permutation_length (order_perm n sh draw)); apply seq_length).
  rewrite (loader_visits_all_partial (Plain n sh draw) bs l); auto; [|rewrite HO; auto]. apply Permutation_sym, order_perm.
Qed.
Theorem random_sampler_permutes : forall engine n seed ep, Permutation (randomIndices engine n seed ep) (seq 0 n).
Proof. intros. apply Permutation_sym, shuffle_perm. Qed.
(** The float quotient: with 2^24 + 1 samples and batches of one, the last
    sample is never delivered. *)
Theorem loader_large_refuted : forall src, Z.of_nat (length (order src)) = 2 ^ 24 + 1 ->
  exists l, makeLoader src 1 false = Some l /\ batchCnt l = 2 ^ 24 /\ length (visited l) <> length (order src).
Proof.
  intros src HN. unfold makeLoader. fold (order src). rewrite HN. assert (HC : ceilDivF (2 ^ 24 + 1) 1 = Some (2 ^ 24)) by (vm_compute; reflexivity). rewrite HC.
  eexists. split; [reflexivity|]. split; [reflexivity|]. unfold visited. cbn [batchCnt].
  assert (HK : Z.of_nat (Z.to_nat (2 ^ 24)) = 2 ^ 24) by (apply Z2Nat.id; lia). revert HK. generalize (Z.to_nat (2 ^ 24)). intros N HK.
  replace (map (fun k => batchRange {| batchSize := 1; batchCnt := 2 ^ 24; indices := order src |} (Z.of_nat k)) (seq 0 N))
    with (map (fun k => firstn 1 (skipn (k * 1) (order src))) (seq 0 N)).
  2: { apply map_ext_in. intros k Hk. apply in_seq in Hk. rewrite batchRange_ok; cbn [batchSize indices]; try lia. f_equal. f_equal. lia. }
  rewrite chunks_concat, firstn_length. lia.
Qed.
(** A batch size of zero is undefined behaviour. *)
Theorem loader_zero_batch_refuted : forall l dropLast, makeLoader (FromSampler l) 0 true = None /\ (Z.of_nat (length l) = 5 -> makeLoader (FromSampler l) 0 dropLast = None).
Proof.
  intros l dl. split; [reflexivity|]. intros HL. unfold makeLoader. rewrite HL. destruct dl; [reflexivity|]. assert (HC : ceilDivF 5 0 = None) by (vm_compute; reflexivity). rewrite HC. reflexivity.
Qed.
Example loader_example2 : exists l, makeLoader (Plain 5 true (fun i => (7 * i + 3)%nat)) 2 false = Some l /\ batchCnt l = 3 /\ visited l = [3; 4; 2; 1; 0]%nat.
Proof. eexists. split; [vm_compute; reflexivity|]. split; vm_compute; reflexivity. Qed.
Example loader_example3 : exists l, makeLoader (Plain 5 false (fun i => i)) 2 false = Some l /\
  epoch (fun s => [[s]; [10 * s]%nat]) (@concat nat) l = [(0, [[0; 1]; [0; 10]]%nat); (1, [[2; 3]; [20; 30]]%nat); (2, [[4]; [40]]%nat)].
Proof. eexists. split; [vm_compute; reflexivity|]. vm_compute; reflexivity. Qed.

(** * C34 *)
(** Without dropLast: equal shares; together the ranks get a permutation of the
    samples followed by a repetition of its beginning.  The number of samples
    is at most 2^24 and the padding not longer than the dataset. *)
Theorem sampler_shares_partial : forall engine n R sh seed ep, 0 < R < 2 ^ 64 -> Z.of_nat n <= 2 ^ 24 -> ((Z.of_nat n + R - 1) / R) * R <= 2 * Z.of_nat n ->
  exists (share : nat -> list nat) p, Permutation p (seq 0 n) /\
  (forall r, (r < Z.to_nat R)%nat -> distIndices engine n R (Z.of_nat r) sh seed ep false = Some (share r) /\ Z.of_nat (length (share r)) = (Z.of_nat n + R - 1) / R) /\
  concat (map share (seq 0 (Z.to_nat R))) = p ++ firstn (Z.to_nat ((Z.of_nat n + R - 1) / R * R) - n) p.
Proof.
  intros engine n R sh seed ep HR Hn HP. set (ns := (Z.of_nat n + R - 1) / R) in *. set (p := dorder engine n sh seed ep).
  assert (HL : length p = n) by apply dorder_length. assert (Hns : 0 <= ns) by (apply Z.div_pos; lia).
  assert (HC : Z.of_nat n <= ns * R). { unfold ns. pose proof (Z.div_mod (Z.of_nat n + R - 1) R ltac:(lia)). pose proof (Z.mod_pos_bound (Z.of_nat n + R - 1) R ltac:(lia)). nia. }
  set (all := p ++ firstn (Z.to_nat (ns * R) - n) p). assert (HA : length all = (Z.to_nat ns * Z.to_nat R)%nat).
  { unfold all. rewrite app_length, firstn_length, HL, <- Z2Nat.inj_mul by lia. lia. }
  exists (fun r => firstn (Z.to_nat ns) (skipn (r * Z.to_nat ns) all)), p. split; [apply Permutation_sym, dorder_perm|]. split.
  - intros r Hr. split.
    + rewrite (dist_keep engine n R sh seed ep HR Hn HP (Z.of_nat r)) by lia. fold ns. fold p. fold all. rewrite Nat2Z.id. reflexivity.
    + rewrite firstn_length, skipn_length, HA. assert (HM : (S r * Z.to_nat ns <= Z.to_nat R * Z.to_nat ns)%nat) by (apply Nat.mul_le_mono_r; lia). rewrite Nat.mul_succ_l, (Nat.mul_comm (Z.to_nat R)) in HM. lia.
  - apply slices_concat. symmetry. exact HA.
Qed.
(** Covered: in particular whenever there are at least as many samples as
    ranks. *)
Theorem sampler_covers_partial : forall engine n R sh seed ep i, 0 < R <= Z.of_nat n -> Z.of_nat n <= 2 ^ 24 -> (i < n)%nat ->
  exists r share, 0 <= r < R /\ distIndices engine n R r sh seed ep false = Some share /\ In i share.
Proof.
  intros engine n R sh seed ep i HR Hn Hi.
  assert (HP : ((Z.of_nat n + R - 1) / R) * R <= 2 * Z.of_nat n) by (pose proof (Z.div_mod (Z.of_nat n + R - 1) R ltac:(lia)); pose proof (Z.mod_pos_bound (Z.of_nat n + R - 1) R ltac:(lia)); nia).
  destruct (sampler_shares_partial engine n R sh seed ep ltac:(lia) Hn HP) as (share & p & HPm & HS & HCc).
  assert (HI : In i (concat (map share (seq 0 (Z.to_nat R))))). { rewrite HCc. apply in_or_app. left. apply (Permutation_in _ (Permutation_sym HPm)). apply in_seq. lia. }
  apply in_concat in HI. destruct HI as (x & Hx & HIx). apply in_map_iff in Hx. destruct Hx as (r & Er & Hr). apply in_seq in Hr. subst x.
  exists (Z.of_nat r), (share r). split; [lia|]. split; [apply HS; lia|exact HIx].
Qed.
(** With dropLast: equal shares of distinct samples, fewer than R left out. *)
Theorem sampler_drop_last : forall engine n R sh seed ep, 0 < R < 2 ^ 64 -> Z.of_nat n < 2 ^ 64 ->
  exists (share : nat -> list nat) p, Permutation p (seq 0 n) /\
  (forall r, (r < Z.to_nat R)%nat -> distIndices engine n R (Z.of_nat r) sh seed ep true = Some (share r) /\ Z.of_nat (length (share r)) = Z.of_nat n / R) /\
  concat (map share (seq 0 (Z.to_nat R))) = firstn (Z.to_nat (Z.of_nat n / R * R)) p.
Proof.
  intros engine n R sh seed ep HR Hn. set (ns := Z.of_nat n / R) in *. set (p := dorder engine n sh seed ep).
  assert (HL : length p = n) by apply dorder_length. assert (Hns : 0 <= ns) by (apply Z.div_pos; lia).
  assert (HC : ns * R <= Z.of_nat n). { unfold ns. pose proof (Z.div_mod (Z.of_nat n) R ltac:(lia)). pose proof (Z.mod_pos_bound (Z.of_nat n) R ltac:(lia)). nia. }
  set (all := firstn (Z.to_nat (ns * R)) p). assert (HA : length all = (Z.to_nat ns * Z.to_nat R)%nat).
  { unfold all. rewrite firstn_length, HL, <- Z2Nat.inj_mul by lia. lia. }
  exists (fun r => firstn (Z.to_nat ns) (skipn (r * Z.to_nat ns) all)), p. split; [apply Permutation_sym, dorder_perm|]. split.
  - intros r Hr. split.
    + rewrite (dist_drop engine n R sh seed ep HR Hn (Z.of_nat r)) by lia. fold ns. fold p. fold all. rewrite Nat2Z.id. reflexivity.
    + rewrite firstn_length, skipn_length, HA. assert (HM : (S r * Z.to_nat ns <= Z.to_nat R * Z.to_nat ns)%nat) by (apply Nat.mul_le_mono_r; lia). rewrite Nat.mul_succ_l, (Nat.mul_comm (Z.to_nat R)) in HM. lia.
  - apply slices_concat. symmetry. exact HA.
Qed.
(** Too few samples: the padding reads past the end of the index list. *)
Theorem sampler_padding_refuted : forall engine seed ep r sh, distIndices engine 1 3 r sh seed ep false = None.
Proof.
  intros. unfold distIndices. replace (numSamples (Z.of_nat 1) 3 false) with (Some 1) by (vm_compute; reflexivity). destruct sh; reflexivity.
Qed.
(** Many samples: the float quotient is too small and a sample is lost. *)
Theorem sampler_large_refuted : forall engine n sh seed ep, Z.of_nat n = 2 ^ 25 + 1 ->
  ~ (forall i, (i < n)%nat -> exists r share, 0 <= r < 2 /\ distIndices engine n 2 r sh seed ep false = Some share /\ In i share).
Proof.
  intros engine n sh seed ep Hn H.
  assert (HD : forall r, 0 <= r < 2 -> forall share, distIndices engine n 2 r sh seed ep false = Some share -> Z.of_nat (length share) = 2 ^ 24).
  { intros r Hr share E. unfold distIndices in E. rewrite Hn in E. replace (numSamples (2 ^ 25 + 1) 2 false) with (Some (2 ^ 24)) in E by (vm_compute; reflexivity). cbv zeta in E.
    match type of E with match ?a with _ => _ end = _ => destruct a as [l|]; [|discriminate] end. unfold slice in E.
    match type of E with (if ?c then _ else _) = _ => destruct c eqn:HB; [|discriminate] end.
    apply andb_prop in HB. destruct HB as [HB H3]. apply andb_prop in HB. destruct HB as [H1 _]. apply Z.leb_le in H1. apply Z.leb_le in H3.
    assert (E' : share = firstn (Z.to_nat (2 ^ 24)) (skipn (Z.to_nat (u64 (2 ^ 24 * r))) l)) by congruence. subst share. rewrite firstn_length, skipn_length. lia. }
  set (got := fun r => match distIndices engine n 2 r sh seed ep false with Some l => l | None => [] end).
  assert (HG : forall r, 0 <= r < 2 -> Z.of_nat (length (got r)) <= 2 ^ 24). { intros r Hr. unfold got. destruct (distIndices engine n 2 r sh seed ep false) eqn:E; [rewrite (HD r Hr _ E)|cbn]; lia. }
  assert (HI : incl (seq 0 n) (got 0 ++ got 1)).
  { intros i Hi. apply in_seq in Hi. destruct (H i ltac:(lia)) as (r & share & Hr & E & HIn). apply in_or_app. assert (HR : r = 0 \/ r = 1) by lia. destruct HR as [->| ->]; [left|right]; unfold got; rewrite E; exact HIn. }
  pose proof (NoDup_incl_length (seq_NoDup n 0) HI) as HL. rewrite seq_length, app_length in HL. pose proof (HG 0 ltac:(lia)). pose proof (HG 1 ltac:(lia)). lia.
Qed.
Example sampler_example : map (fun r => distIndices (fun _ i => i) 5 2 r false 0 0 false) [0; 1] = [Some [0; 1; 2]; Some [3; 4; 0]]%nat.
Proof. vm_compute. reflexivity. Qed.
Print Assumptions loader_epoch_partial.
Print Assumptions loader_visits_all_partial.
Print Assumptions loader_drop_last.
Print Assumptions loader_each_sample_once_partial.
Print Assumptions random_sampler_permutes.
Print Assumptions loader_large_refuted.
Print Assumptions loader_zero_batch_refuted.
Print Assumptions sampler_shares_partial.
Print Assumptions sampler_covers_partial.
Print Assumptions sampler_drop_last.
Print Assumptions sampler_padding_refuted.
Print Assumptions sampler_large_refuted.
