(* C73: sums of CUDA tensors. *)
From Coq Require Import List Arith ZArith Bool Lia.
From Verif Require Import ShapeModel ShapeSpec ShapeProofs TensorModel TensorSpec TensorLemmas BufModel BufProofs
  BcastModel BcastSpec CutSpec ReduceModel ReduceSpec ReduceProofs ReduceProofs2
  GpuModel GpuSpec GpuProofs CudaModel CudaSpec CudaProofs CudaFillModel
  CudaReduceModel CudaReduceSpec CudaReduceProofs3 CudaReduceProofs4 CudaReduceRaces CudaReduceMulti CudaReduceGroup CudaFillProofs.
Import ListNotations.
Local Open Scope nat_scope.

Lemma fold_map : forall A B C (op : B -> C -> C) (e : C) (f : A -> B) l, fold_right op e (map f l) = fold_right (fun i acc => op (f i) acc) e l.
Proof. induction l as [|x l IH]; [reflexivity|]. cbn. rewrite IH. reflexivity. Qed.

(* ---- over all elements ---- *)

(* Whatever the schedules, the sum of all the elements, as long as they are at
   most 512 * 512; (size sh + 511) / 512 is what the code allocates for the
   partial sums. *)
Theorem cuda_sum_all_partial : forall (K : cring) sh (F : list nat -> K) m p out tmp,
  sh <> [] -> 0 < size sh <= 512 * 512 -> tmp <> p -> out <> tmp ->
  has m p sh F -> room m tmp ((size sh + 511) / 512) -> room m out (size []) ->
  exists ls, sumAllCuda (mkD p sh) out tmp = Ok ([], Some ls) /\
    computes_all ls m out [tmp] [] (fun _ => sum F (indices sh)).
Proof.
  intros K sh F m p out tmp HS HZ N1 N2 HF HT HO. rewrite size_numel in *.
  destruct (reduce_all add zero (add_comm K) (add_assoc K) (add_0_r K zero) m p sh F out tmp HS HZ N1 N2 HF HT HO) as (ls & E & C).
  exists ls. split; [exact E|]. rewrite fold_map in C. exact C.
Qed.

(* The sum of a scalar is the scalar itself. *)
Theorem cuda_sum_scalar : forall (K : cring) p out tmp tr dims keep,
  sumAllCuda (K := K) (mkD p []) out tmp = Ok ([], None) /\ sumDimsCuda (K := K) (mkD p []) dims keep out tmp tr = Ok ([], None).
Proof. intros. split; reflexivity. Qed.

(* A tensor of more elements than 512 * 512: with ones only, some schedule does
   not give the number of elements. *)
Lemma count_ones : forall k n c, fold_right Z.add 0%Z (map (fun t => if (c + t <? n)%nat then 1%Z else 0%Z) (seq 0 k)) = Z.of_nat (Nat.min k (n - c)).
Proof.
  intros k n. assert (H : forall k c s, fold_right Z.add 0%Z (map (fun t => if (c + t <? n)%nat then 1%Z else 0%Z) (seq s k)) = Z.of_nat (Nat.min k (n - (c + s)))).
  { clear k. induction k as [|k IH]; intros c s; [reflexivity|]. cbn [seq map fold_right]. rewrite IH.
    destruct (Nat.ltb_spec (c + s) n); lia. }
  intros c. rewrite H. rewrite Nat.add_0_r. reflexivity.
Qed.

Lemma ones_has : forall bufs p sh, nth p bufs [] = repeat (Some 1%Z) (numel sh) -> has (mem_of bufs) p sh (fun _ => 1%Z).
Proof.
  intros bufs p sh E. apply holds_of. rewrite E, map_map.
  transitivity (map (fun _ => Some 1%Z) (indices sh)); [|reflexivity].
  rewrite <- (indices_length sh). induction (indices sh); cbn; congruence.
Qed.

Lemma chunk_ones : forall n b, chunk Z.add 0%Z (fun _ => 1%Z) n b = Z.of_nat (Nat.min 512 (n - b * 512)).
Proof. intros. unfold chunk. apply count_ones. Qed.

Lemma chunk_all : forall n, Z.of_nat n = 262145%Z -> chunk Z.add 0%Z (chunk Z.add 0%Z (fun _ => 1%Z) n) ((n + 511) / 512) 1 = 1%Z.
Proof.
  intros n Hn. replace ((n + 511) / 512) with 513.
  - unfold chunk at 1. change (seq 0 512) with (0 :: seq 1 511). cbn [map fold_right]. change (1 * 512 + 0 <? 513) with true. cbv iota.
    rewrite chunk_ones. rewrite (map_ext_in _ (fun _ => 0%Z)).
    + assert (H : forall l : list nat, fold_right Z.add 0%Z (map (fun _ => 0%Z) l) = 0%Z) by (induction l; [reflexivity|cbn; lia]). rewrite H. lia.
    + intros t Ht. apply in_seq in Ht. destruct (Nat.ltb_spec (1 * 512 + t) 513); [lia|reflexivity].
  - apply Nat2Z.inj. rewrite Nat2Z.inj_div, Nat2Z.inj_add, Hn. reflexivity.
Qed.

Lemma chunk_others : forall n, Z.of_nat n = 262145%Z ->
  fold_right Z.add 0%Z (map (fun b => if (b =? 1)%nat then 1%Z else chunk Z.add 0%Z (fun _ => 1%Z) n b) (seq 0 512)) = 261633%Z.
Proof.
  intros n Hn. rewrite (map_ext_in _ (fun b => if (b =? 1)%nat then 1%Z else 512%Z)); [vm_compute; reflexivity|].
  intros b Hb. apply in_seq in Hb. destruct (b =? 1)%nat; [reflexivity|]. rewrite chunk_ones. lia.
Qed.

Theorem cuda_sum_all_large_refuted :
  let n := Z.to_nat 262145 in
  let m := mem_of [repeat (Some 1%Z) n; [None]; repeat None ((n + 511) / 512)] in
  sum (K := Zring) (fun _ : list nat => 1%Z) (indices [n]) = 262145%Z /\
  exists ls, sumAllCuda (K := Zring) (mkD 0 [n]) 1 2 = Ok ([], Some ls) /\
    sometimes_all ls m (fun m' => m' (1, 0%Z) = Some (Some 261634%Z)).
Proof.
  assert (Hn : Z.of_nat (Z.to_nat 262145) = 262145%Z) by (apply Z2Nat.id; discriminate).
  cbv zeta. set (n := Z.to_nat 262145) in *. clearbody n. set (m := mem_of _).
  assert (HF : has m 0 [n] (fun _ => 1%Z)) by (apply ones_has; cbn [nth]; rewrite numel_cons, numel_nil, Nat.mul_1_r; reflexivity).
  assert (HT : room m 2 ((n + 511) / 512)) by (apply room_of; apply repeat_length).
  assert (HO : room m 1 1) by (apply room_of; reflexivity).
  clearbody m. split.
  { unfold sum. rewrite <- Hn. rewrite <- (fold_map _ _ _ Z.add 0%Z (fun _ => 1%Z)).
    replace (Z.of_nat n) with (Z.of_nat (length (indices [n]))) by (rewrite indices_length, numel_cons, numel_nil; lia).
    induction (indices [n]) as [|x l IH]; [reflexivity|]. cbn [map fold_right length]. rewrite IH. cbn [add Zring]. lia. }
  destruct (list_race Z.add 0%Z Z.add_comm Z.add_assoc eq_refl m 1 0 2 n (fun _ => 1%Z)) as (ls & E & C); try lia.
  - intros i Hi. rewrite (has_ix Z m 0 [n] _ _ HF) by (rewrite numel_cons, numel_nil; lia). reflexivity.
  - intros i Hi. apply (room_at Z m 2 _ _ HT). lia.
  - apply (room_at Z m 1 _ _ HO). lia.
  - exists ls. split.
    + unfold sumAllCuda, reduceAllCuda. cbn [dshape dbuf]. rewrite numel_cons, numel_nil, Nat.mul_1_r. change (@reduceMerge Zring (@add Zring) (@zero Zring) indexAll 1 0 2 (Z.of_nat n) 1 = Some ls) in E. rewrite E. reflexivity.
    + replace 261634%Z with (fold_right Z.add 0%Z (map (fun b => if (b =? 1)%nat then 1%Z else chunk Z.add 0%Z (fun _ => 1%Z) n b) (seq 0 512)) + 1)%Z.
      * cbv zeta in C. replace (chunk Z.add 0%Z (chunk Z.add 0%Z (fun _ => 1%Z) n) ((n + 511) / 512) 1) with 1%Z in C; [exact C|].
        rewrite (chunk_all n) by exact Hn. reflexivity.
      * rewrite (chunk_others n Hn). reflexivity.
Qed.

(* An empty tensor: the first launch is refused. *)
Theorem cuda_sum_empty_refuted : forall (K : cring) p sh out tmp, sh <> [] -> size sh = 0 ->
  exists l ls, sumAllCuda (K := K) (mkD p sh) out tmp = Ok ([], Some (l :: ls)) /\ ~ accepted l.
Proof.
  intros K p sh out tmp HS H0. rewrite size_numel in H0. unfold sumAllCuda, reduceAllCuda. cbn [dshape dbuf].
  destruct sh as [|d sh]; [contradiction|]. rewrite H0. do 2 eexists. split; [reflexivity|]. intros [A _]. cbn in A. lia.
Qed.

(* ---- over one dimension ---- *)

(* Whatever the schedules, result ridx is the sum of the elements whose other
   coordinates are those of ridx.  The first and the last dimension may have
   fewer than 512 elements, exactly 512, or all the elements of the tensor if
   they are at most 512 * 512. *)
Theorem cuda_sum_dim_partial : forall (K : cring) sh (F : list nat -> K) dim k keep m p out tmp tr,
  let n := nth k sh 0 in
  let rest := size (without_dim false k sh) in
  dim_is (length sh) dim k -> (0 < Z.of_nat (size sh) <= 2 ^ 32)%Z ->
  (k = 0 \/ k = length sh - 1 -> n < 512 \/ (n = 512 /\ (Z.of_nat rest * 512 < 2 ^ 32)%Z) \/ (rest = 1 /\ n <= 512 * 512)) ->
  has m p sh F -> room m out rest -> room m tmp (rest * ((n + 511) / 512)) -> room m tr (size sh) ->
  NoDup [p; out; tmp; tr] ->
  exists ls, sumDimsCuda (mkD p sh) [dim] keep out tmp tr = Ok (without_dim keep k sh, Some ls) /\
    computes_all ls m out [tmp; tr] (without_dim keep k sh) (fun ridx => sum (fun j => F (with_coord keep k ridx j)) (seq 0 n)).
Proof.
  intros K sh F dim k keep m p out tmp tr n rest HD HZ HN HF HO HT HR ND. subst n rest. rewrite size_numel in *.
  pose proof HD as [Hk _]. apply axis_some in HD.
  destruct (nth_split sh 0 Hk) as (pre & post & E & L). rewrite <- L in *. remember (nth (length pre) sh 0) as n eqn:En. clear En. subst sh. clear L.
  assert (W : without_dim false (length pre) (pre ++ n :: post) = pre ++ post).
  { unfold without_dim. rewrite firstn_app, Nat.sub_diag, firstn_all. cbn [firstn]. rewrite app_nil_r. f_equal.
    replace (S (length pre)) with (length pre + 1) by lia. rewrite skipn_app, skipn_all2 by lia. replace (length pre + 1 - length pre) with 1 by lia. reflexivity. }
  assert (W2 : without_dim keep (length pre) (pre ++ n :: post) = pre ++ (if keep then [1] else []) ++ post).
  { destruct keep; [|exact W]. unfold without_dim. clear. induction pre as [|a pre IH]; [reflexivity|]. cbn. f_equal. exact IH. }
  rewrite W in *. rewrite W2.
  destruct (sum_dim pre n post F m p dim keep out tmp tr HD HZ) as (ls & E1 & C); auto.
  - unfold sum_dim_ok. destruct (match pre with [] => true | _ => false end || match post with [] => true | _ => false end) eqn:E; [|exact I].
    apply HN. apply orb_true_iff in E as [E|E].
    + destruct pre; [left; reflexivity|discriminate].
    + destruct post; [|discriminate]. right. rewrite app_length. cbn. lia.
  - replace (n * numel (pre ++ post)) with (numel (pre ++ n :: post)); [exact HR|]. rewrite !numel_app, numel_cons. lia.
  - exists ls. split; [|exact C]. unfold sumDimsCuda. cbn [dshape]. rewrite E1. destruct (pre ++ n :: post) eqn:E0; [destruct pre; discriminate|reflexivity].
Qed.

Theorem cuda_sum_dim_rejects : forall (K : cring) sh dim keep p out tmp tr, sh <> [] ->
  (forall k, ~ dim_is (length sh) dim k) -> sumDimsCuda (K := K) (mkD p sh) [dim] keep out tmp tr = Fail.
Proof.
  intros K sh dim keep p out tmp tr HS HD. unfold sumDimsCuda, reduceDimCuda. cbn [dshape].
  destruct (axis (length sh) dim) as [k|] eqn:E; [exfalso; apply (HD k), axis_some, E|]. destruct sh; [contradiction|reflexivity].
Qed.

(* Two rows of more than 512 elements: some schedule adds the whole of row 1 to
   the first 512 elements of row 0. *)
Theorem cuda_sum_rows_refuted : forall (K : cring) n (F : list nat -> K) keep m p out tmp tr,
  512 < n <= 1024 -> has m p [2; n] F -> room m out 2 -> room m tmp 4 -> tmp <> p -> out <> tmp ->
  exists ls, sumDimsCuda (mkD p [2; n]) [-1]%Z keep out tmp tr = Ok (2 :: (if keep then [1] else []), Some ls) /\
    sometimes_all ls m (fun m' => m' (out, 0%Z) =
      Some (Some (add (sum (fun j => F [0; j]) (seq 0 512)) (sum (fun j => F [1; j]) (seq 0 n))))).
Proof.
  intros K n F keep m p out tmp tr Hn HF HO HT N1 N2.
  destruct (rows_race add zero (add_comm K) (add_assoc K) (add_0_r K zero) m out p tmp n (fun i => F [i / n; i mod n]) Hn N1 N2) as (ls & E & C).
  - intros i Hi. rewrite (has_ix K m p [2; n] F (Z.of_nat i) HF) by (rewrite !numel_cons, numel_nil; lia). rewrite Nat2Z.id.
    replace (offsetToIndices [2; n] i) with [i / n; i mod n]; [reflexivity|].
    assert (Vi : valid [2; n] [i / n; i mod n]) by (apply Forall2_cons; [apply Nat.div_lt_upper_bound; lia|apply Forall2_cons; [apply Nat.mod_upper_bound; lia|apply Forall2_nil]]).
    rewrite <- (o2i_ravel _ _ Vi). f_equal. rewrite !ravel_cons, ravel_nil, numel_cons, numel_nil. pose proof (Nat.div_mod i n ltac:(lia)). lia.
  - intros i Hi. apply (room_at K m tmp _ _ HT). lia.
  - intros i Hi. apply (room_at K m out _ _ HO). lia.
  - exists ls. split.
    + unfold sumDimsCuda, reduceDimCuda. cbn [dshape dbuf length]. change (axis 2 (-1)) with (Some 1). cbv beta iota zeta. cbn [nth Nat.eqb Nat.sub].
      replace (Z.of_nat n <? Z.of_nat blockSize)%Z with false by (symmetry; apply Z.ltb_ge; unfold blockSize; lia). unfold reduceDimLast.
      change (numel (reduceShape1 [2; n] 1 false)) with 2. change (Z.of_nat 2) with 2%Z. rewrite E. destruct keep; reflexivity.
    + match goal with |- sometimes_all _ _ (fun m' => _ = Some (Some ?a)) => match type of C with sometimes_all _ _ (fun m' => _ = Some (Some ?b)) => replace a with b; [exact C|] end end.
      rewrite !fold_map. unfold sum at 1 2. f_equal; apply (sum_ext (K := K)); intros j Hj; apply in_seq in Hj.
      * rewrite Nat.div_small, Nat.mod_small by lia. reflexivity.
      * replace (n + j) with (j + 1 * n) by lia. rewrite Nat.div_add, Nat.mod_add by lia. rewrite Nat.div_small, Nat.mod_small by lia. reflexivity.
Qed.

(* ---- over several dimensions ---- *)

Theorem cuda_sum_dims_rejects : forall (K : cring) sh dims keep p out tmp tr, sh <> [] ->
  dims = [] \/ (exists d, In d dims /\ forall k, ~ dim_is (length sh) d k) ->
  sumDimsCuda (K := K) (mkD p sh) dims keep out tmp tr = Fail.
Proof.
  intros K sh dims keep p out tmp tr HS HD. destruct dims as [|d [|d' dims]].
  - destruct sh; [contradiction|reflexivity].
  - apply cuda_sum_dim_rejects; [exact HS|]. destruct HD as [|(x & [<-|[]] & H)]; [discriminate|exact H].
  - destruct HD as [|H]; [discriminate|]. unfold sumDimsCuda. cbn [dshape].
    destruct (marks (length sh) (d :: d' :: dims)) as [ax|] eqn:E; [|destruct sh; [contradiction|reflexivity]].
    exfalso. destruct H as (x & Hx & Hn). pose proof (marks_spec (length sh) (d :: d' :: dims)) as M. rewrite E in M. destruct M as (_ & A & _). destruct (A x Hx) as (k & Hk). apply (Hn k Hk).
Qed.

(* Over two dimensions or more the kernel writes past the end of the result,
   whatever the tensor, unless the sums are of one element each. *)
Theorem cuda_sum_dims_refuted : forall (K : cring) sh dims ax keep (F : list nat -> K) m p out tmp tr,
  axes_named (length sh) dims ax -> 2 <= length dims -> Forall (fun d => 0 < d) sh ->
  size (reduced_shape ax keep sh) < size sh -> (Z.of_nat (size sh) <= 2 ^ 31 - 1)%Z -> out <> p ->
  has m p sh F -> room m out (size (reduced_shape ax keep sh)) ->
  exists l1 l2, sumDimsCuda (mkD p sh) dims keep out tmp tr = Ok (reduced_shape ax keep sh, Some [l1; l2]) /\
    always l1 m (fun m' => may_crash l2 m').
Proof. intros until tr. rewrite !size_numel. apply sum_dims_crash. Qed.

(* If there are elements to write to after the end of the result, that is if the
   buffer is as large as the operand, the result itself is right. *)
Theorem cuda_sum_dims_partial : forall (K : cring) sh dims ax keep (F : list nat -> K) m p out tmp tr,
  let rsh := reduced_shape ax keep sh in
  axes_named (length sh) dims ax -> 2 <= length dims -> NoDup (map (fun d => d mod Z.of_nat (length sh))%Z dims) ->
  (0 < Z.of_nat (size sh) <= 2 ^ 31 - 1)%Z -> out <> p -> has m p sh F -> room m out (size sh) ->
  exists ls, sumDimsCuda (mkD p sh) dims keep out tmp tr = Ok (rsh, Some ls) /\
    always_all ls m (fun m' =>
      (forall ridx, valid rsh ridx -> m' (out, Z.of_nat (ravel rsh ridx)) = Some (Some (sum F (group ax keep sh ridx)))) /\
      forall q i, q <> out -> m' (q, i) = m (q, i)).
Proof. intros K sh dims ax keep F m p out tmp tr rsh HA HD ND [H0 H1]. rewrite size_numel in *. apply (sum_dims_large p sh dims ax keep F m out tmp tr HA HD ND); lia. Qed.

(* ---- the hypotheses can be met ---- *)

Example cuda_sum_all_ex : let m := mem_of [map Some [1; 2; 3; 4; 5; 6]%Z; [None]; [None]] in
  exists ls, sumAllCuda (K := Zring) (mkD 0 [2; 3]) 1 2 = Ok ([], Some ls) /\ always_all ls m (fun m' => m' (1, 0%Z) = Some (Some 21%Z)).
Proof.
  cbv zeta. set (m := mem_of _).
  destruct (cuda_sum_all_partial Zring [2; 3] (fun idx => Z.of_nat (nth 0 idx 0 * 3 + nth 1 idx 0 + 1)) m 0 1 2) as (ls & E & C);
    try discriminate; try (apply holds_of; reflexivity); try (apply room_of; reflexivity); [split; apply Nat.leb_le; reflexivity|].
  exists ls. split; [exact E|]. unfold computes_all in C. eapply always_all_mono; [|exact C]. intros m' [A _]. exact (A 0%Z).
Qed.

Example cuda_sum_dim_ex : let m := mem_of [map Some [1; 2; 3; 4; 5; 6]%Z; [None; None; None]; repeat None 3; repeat None 6] in
  exists ls, sumDimsCuda (K := Zring) (mkD 0 [2; 3]) [-2]%Z true 1 2 3 = Ok ([1; 3], Some ls) /\ always_all ls m (fun m' => m' (1, 2%Z) = Some (Some 9%Z)).
Proof.
  cbv zeta. set (m := mem_of _).
  destruct (cuda_sum_dim_partial Zring [2; 3] (fun idx => Z.of_nat (nth 0 idx 0 * 3 + nth 1 idx 0 + 1)) (-2)%Z 0 true m 0 1 2 3) as (ls & E & C);
    try (apply holds_of; reflexivity); try (apply room_of; reflexivity).
  - split; cbn; lia.
  - cbn. lia.
  - intros _. left. cbn [nth]. apply Nat.ltb_lt. reflexivity.
  - repeat constructor; cbn; lia.
  - exists ls. split; [exact E|]. eapply always_all_mono; [|exact C]. intros m' [A _]. exact (A 2%Z).
Qed.

Example cuda_sum_dims_ex : axes_named 2 [0; 1]%Z [true; true] /\ size (reduced_shape [true; true] false [2; 3]) < size [2; 3].
Proof.
  split; [|apply Nat.ltb_lt; reflexivity]. split; [reflexivity|]. split; [intros d [<-|[<-|[]]]; [exists 0|exists 1]; split; cbn; lia|].
  intro k. split.
  - destruct k as [|[|k]]; cbn; intro H; [exists 0%Z|exists 1%Z|destruct k; discriminate]; (split; [auto|split; cbn; lia]).
  - intros (d & [<-|[<-|[]]] & H1 & H2); cbn in *; [assert (k = 0) as -> by lia|assert (k = 1) as -> by lia]; reflexivity.
Qed.

Print Assumptions cuda_sum_all_partial.
Print Assumptions cuda_sum_scalar.
Print Assumptions cuda_sum_all_large_refuted.
Print Assumptions cuda_sum_empty_refuted.
Print Assumptions cuda_sum_dim_partial.
Print Assumptions cuda_sum_dim_rejects.
Print Assumptions cuda_sum_rows_refuted.
Print Assumptions cuda_sum_dims_rejects.
Print Assumptions cuda_sum_dims_refuted.
Print Assumptions cuda_sum_dims_partial.
