(* Layer norm and RMS norm on the GPU. *)
From Coq Require Import List Arith ZArith NArith Bool Lia Reals Lra.
From Verif Require Import ShapeModel ShapeSpec ShapeProofs TensorModel TensorSpec BcastModel BufModel CutSpec ReduceModel ReduceSpec LineModel NormModel NormSpec NormProofs
  GpuModel GpuSpec GpuLemmas CudaModel CudaSpec CudaProofs CudaReduceModel CudaMeanProofs CudaLineModel CudaNormSpec CudaNormProofs CudaNormProofs2.
Import ListNotations.
Local Open Scope nat_scope.

Lemma rows_are : forall sh, sh <> [] -> last sh 0 <> 0 -> numel sh / last sh 0 = rows sh.
Proof.
  intros sh HS HN. unfold rows. rewrite size_numel. rewrite (last_split sh HS) at 1. rewrite numel_app, numel_cons. change (numel []) with 1. rewrite Nat.mul_1_r. apply Nat.div_mul, HN.
Qed.

(* Whatever the schedule: each element is divided by the square root of the mean
   square of its row plus eps, scaled by the weight of its column if there are
   weights; nothing else changes.  Any row length. *)
Theorem cuda_rms_norm_partial : forall sh (F : list nat -> R) m p out w wf eps, let n := last sh 0 in
  sh <> [] -> n <> 0 -> rows_launchable sh -> p <> out -> has m p sh F -> room m out (size sh) -> vector_in m out n w wf ->
  exists l, normCuda true (mkD p sh) [n] w None eps out = Ok (sh, l) /\
    computes l m out sh (fun idx => scaled wf (last idx 0) (F idx / sqrt (row_mean_square F n idx + eps))%R).
Proof.
  intros sh F m p out w wf eps n HS HN HZ NE HF HR HW. rewrite size_numel in HR. unfold rows_launchable in HZ. rewrite <- rows_are in HZ by assumption.
  exact (rms_launch sh F m p out w wf HS HN HZ NE HF HR HW eps).
Qed.

(* Layer norm, for rows of at most 32 or more than 1024 elements. *)
Theorem cuda_layer_norm_partial : forall sh (F : list nat -> R) m p out w bs wf bf eps, let n := last sh 0 in
  sh <> [] -> n <> 0 -> n <= 32 \/ 1024 < n -> rows_launchable sh -> p <> out -> has m p sh F -> room m out (size sh) ->
  vector_in m out n w wf -> vector_in m out n bs bf ->
  exists l, normCuda false (mkD p sh) [n] w bs eps out = Ok (sh, l) /\
    computes l m out sh (fun idx => shifted bf (last idx 0) (scaled wf (last idx 0) ((F idx - row_mean F n idx) / sqrt (row_var F n idx + eps))%R)).
Proof.
  intros sh F m p out w bs wf bf eps n HS HN HL HZ NE HF HR HW HB. rewrite size_numel in HR. unfold rows_launchable in HZ. rewrite <- rows_are in HZ by assumption.
  exact (ln_launch sh F m p out w bs wf bf HS HN HZ NE HF HR HW HB eps HL).
Qed.

(* The same numbers as on the CPU. *)
Theorem cuda_norm_cpu_partial : forall sh (F : list nat -> R) m p out w bs wf bf eps, let n := last sh 0 in
  sh <> [] -> n <> 0 -> rows_launchable sh -> p <> out -> has m p sh F -> room m out (size sh) -> vector_in m out n w wf -> vector_in m out n bs bf ->
  (exists l G, normCuda true (mkD p sh) [n] w None eps out = Ok (sh, l) /\ rmsNorm (tensor_of sh F) [n] (vector_of n wf) eps = Ok (tensor_of sh G) /\ computes l m out sh G) /\
  (n <= 32 \/ 1024 < n ->
   exists l G, normCuda false (mkD p sh) [n] w bs eps out = Ok (sh, l) /\ layerNorm (tensor_of sh F) [n] (vector_of n wf) (vector_of n bf) eps = Ok (tensor_of sh G) /\ computes l m out sh G).
Proof.
  intros sh F m p out w bs wf bf eps n HS HN HZ NE HF HR HW HB. split.
  - destruct (cuda_rms_norm_partial sh F m p out w wf eps HS HN HZ NE HF HR HW) as (l & E & C). exists l. eexists. split; [exact E|]. split; [apply rmsNorm_ok; auto|exact C].
  - intros HL. destruct (cuda_layer_norm_partial sh F m p out w bs wf bf eps HS HN HL HZ NE HF HR HW HB) as (l & E & C). exists l. eexists. split; [exact E|]. split; [|exact C].
    rewrite layerNorm_ok by auto. reflexivity.
Qed.

(* Layer norm of longer rows, up to 1024 elements, has a race: its second block
   reduction writes the shared array that warps may still read the first one's
   result from.  The normalised value of a row of equal elements is 0; on rows of
   ones some schedule gives the elements 32 to 63 of every row another value. *)
Theorem cuda_layer_norm_race_refuted : forall sh (F : list nat -> R) m p out eps, let n := last sh 0 in
  sh <> [] -> 32 < n <= 1024 -> rows_launchable sh -> p <> out -> has m p sh F -> (forall idx, F idx = 1%R) -> room m out (size sh) -> (0 < eps)%R ->
  exists l, normCuda false (mkD p sh) [n] None None eps out = Ok (sh, l) /\
    layerNorm (tensor_of sh F) [n] None None eps = Ok (tensor_of sh (fun _ => 0%R)) /\
    sometimes l m (fun m' => exists G, has m' out sh G /\ forall idx, valid sh idx -> 32 <= last idx 0 < 64 -> (G idx <> 0)%R).
Proof.
  intros sh F m p out eps n HS HL HZ NE HF ONE HR HE. assert (HN : n <> 0) by lia. rewrite size_numel in HR. unfold rows_launchable in HZ. rewrite <- rows_are in HZ by assumption.
  destruct (ln_race sh F m p out eps HS HL HZ NE HF ONE HR HE) as (l & E & C). exists l. split; [exact E|]. split; [|exact C].
  pose proof (layerNorm_ok sh F None None eps n HS eq_refl HN) as X. cbn [vector_of option_map] in X. rewrite X. f_equal. apply TensorLemmas.tensor_of_ext. intros idx _. cbn [shifted scaled]. rewrite ONE.
  replace (row_mean F n idx) with 1%R; [unfold Rdiv; ring|]. unfold row_mean, average. rewrite (SoftmaxProofs.Rsum_ext F (fun _ => 1%R)) by (intros; apply ONE). rewrite Rsum_const, row_length. field. apply not_0_INR, HN.
Qed.

(* What is refused: a normalised shape that is not the last dimension alone. *)
Theorem cuda_norm_rejects : forall rms sh p ns w bs eps out, sh <> [] -> last sh 0 <> 0 -> ns <> [last sh 0] -> normCuda rms (mkD p sh) ns w bs eps out = Fail.
Proof.
  intros rms sh p ns w bs eps out HS HN H. unfold normCuda. cbn [dshape]. destruct sh as [|s r]; [contradiction|]. cbv zeta. destruct (Nat.eqb_spec (last (s :: r) 0) 0); [contradiction|].
  destruct ns as [|d [|]]; auto. destruct (Nat.eqb_spec d (last (s :: r) 0)) as [->|]; [contradiction|reflexivity].
Qed.

(* What is not: a scalar and an empty last dimension are undefined; a tensor with
   no rows, or more than 2^31-1, gets a launch that CUDA refuses. *)
Theorem cuda_norm_undefined_refuted : forall rms sh p ns w bs eps out, sh = [] \/ last sh 0 = 0 -> normCuda rms (mkD p sh) ns w bs eps out = UB.
Proof.
  intros rms sh p ns w bs eps out H. unfold normCuda. cbn [dshape]. destruct sh as [|s r]; [reflexivity|]. destruct H as [H|H]; [discriminate|]. cbv zeta. rewrite H. reflexivity.
Qed.
Theorem cuda_norm_rows_refuted : forall rms sh p w bs eps out, sh <> [] -> last sh 0 <> 0 -> ~ rows_launchable sh ->
  exists l, normCuda rms (mkD p sh) [last sh 0] w bs eps out = Ok (sh, l) /\ ~ accepted l.
Proof.
  intros rms sh p w bs eps out HS HN H. eexists. split; [apply normCuda_ok; assumption|]. intros [A B]. apply H. unfold rows_launchable. rewrite <- rows_are by assumption.
  assert (E : grid ((if last sh 0 <=? 1024 then kNormSmall else kNormLarge) rms out p w bs (numel sh / last sh 0) (last sh 0) eps) = numel sh / last sh 0) by (destruct (last sh 0 <=? 1024); reflexivity).
  rewrite E in A, B. lia.
Qed.

Example rms_applies : exists l, normCuda true (mkD 0 [1; 2]) [2] (Some 1) None 0 2 = Ok ([1; 2], l) /\
  always l (mem_of [[Some 3; Some 4]; [Some 1; Some 2]; [None; None]]%R) (fun m' => m' (2, 0%Z) = Some (Some (3 / sqrt (25 / 2)))%R).
Proof.
  destruct (cuda_rms_norm_partial [1; 2] (fun idx => nth (nth 1 idx 0) [3; 4]%R 0%R) (mem_of [[Some 3; Some 4]; [Some 1; Some 2]; [None; None]]%R) 0 2 (Some 1) (Some (fun idx => nth (nth 0 idx 0) [1; 2]%R 0%R)) 0%R) as (l & E & C);
    try discriminate; try reflexivity; [split; [reflexivity|discriminate]|apply holds_of; reflexivity|apply room_of; reflexivity|split; [discriminate|apply holds_of; reflexivity]|].
  exists l. split; [exact E|]. eapply always_mono; [exact C|]. intros m' [A _]. assert (V : valid [1; 2] [0; 0]) by (repeat constructor; lia). pose proof (has_at R m' 2 [1; 2] _ [0; 0] A V) as X. change (Z.of_nat (ravel [1; 2] [0; 0])) with 0%Z in X. rewrite X.
  do 2 f_equal. cbn [last scaled nth]. unfold row_mean_square, average, row_of. cbn. unfold sum. cbn. replace ((3 * 3 + (4 * 4 + 0)) / (1 + 1) + 0)%R with (25 / 2)%R by lra. lra.
Qed.
Example layer_norm_applies : exists l, normCuda false (mkD 0 [1; 2]) [2] None (Some 1) 0 2 = Ok ([1; 2], l) /\
  always l (mem_of [[Some 3; Some 5]; [Some 1; Some 2]; [None; None]]%R) (fun m' => m' (2, 1%Z) = Some (Some 3)%R).
Proof.
  destruct (cuda_layer_norm_partial [1; 2] (fun idx => nth (nth 1 idx 0) [3; 5]%R 0%R) (mem_of [[Some 3; Some 5]; [Some 1; Some 2]; [None; None]]%R) 0 2 None (Some 1) None (Some (fun idx => nth (nth 0 idx 0) [1; 2]%R 0%R)) 0%R) as (l & E & C);
    try discriminate; try reflexivity; [left; cbn; lia|split; [reflexivity|discriminate]|apply holds_of; reflexivity|apply room_of; reflexivity|split; [discriminate|apply holds_of; reflexivity]|].
  exists l. split; [exact E|]. eapply always_mono; [exact C|]. intros m' [A _]. assert (V : valid [1; 2] [0; 1]) by (repeat constructor; lia). pose proof (has_at R m' 2 [1; 2] _ [0; 1] A V) as X. change (Z.of_nat (ravel [1; 2] [0; 1])) with 1%Z in X. rewrite X.
  do 2 f_equal. cbn [last scaled shifted nth]. unfold row_mean, row_var, variance, average, row_of. cbn. unfold sum. cbn.
  replace (((3 - (3 + (5 + 0)) / (1 + 1)) * (3 - (3 + (5 + 0)) / (1 + 1)) + ((5 - (3 + (5 + 0)) / (1 + 1)) * (5 - (3 + (5 + 0)) / (1 + 1)) + 0)) / (1 + 1) + 0)%R with 1%R by lra. rewrite sqrt_1. lra.
Qed.
(* the race, on one row of 64 ones *)
Example race_applies : exists l, normCuda false (mkD 0 [1; 64]) [64] None None 1 1 = Ok ([1; 64], l) /\
  sometimes l (mem_of [repeat (Some 1%R) 64; repeat None 64]) (fun m' => exists v, m' (1, 40%Z) = Some (Some v) /\ (v <> 0)%R).
Proof.
  destruct (cuda_layer_norm_race_refuted [1; 64] (fun _ => 1%R) (mem_of [repeat (Some 1%R) 64; repeat None 64]) 0 1 1%R) as (l & E & _ & C); try discriminate; try reflexivity; try (cbn [last]; lia); try lra.
  - split; [reflexivity|discriminate].
  - apply holds_of. reflexivity.
  - apply room_of. reflexivity.
  - exists l. split; [exact E|]. destruct C as (s & RS & FI & G & A & N). exists s. split; [exact RS|]. split; [exact FI|]. exists (G [0; 40]).
    assert (V : valid [1; 64] [0; 40]) by (repeat constructor; lia). split; [|apply N; [exact V|cbn [last]; lia]]. exact (has_at R _ 1 [1; 64] G [0; 40] A V).
Qed.
Print Assumptions cuda_rms_norm_partial.
Print Assumptions cuda_layer_norm_partial.
Print Assumptions cuda_norm_cpu_partial.
Print Assumptions cuda_layer_norm_race_refuted.
Print Assumptions cuda_norm_rejects.
Print Assumptions cuda_norm_undefined_refuted.
Print Assumptions cuda_norm_rows_refuted.
