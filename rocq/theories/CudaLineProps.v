(* Softmax, log-softmax and their gradients on the GPU. *)
From Coq Require Import List Arith ZArith NArith Bool Lia Reals Lra.
From Verif Require Import ShapeModel ShapeSpec ShapeProofs TensorModel TensorSpec BcastModel BufModel BufProofs CutSpec ReduceModel ReduceSpec LineModel GradSpec SoftmaxModel SoftmaxSpec SoftmaxProofs SoftmaxProofs2
  GpuModel GpuSpec CudaModel CudaSpec CudaProofs CudaReduceModel CudaReduceSpec CudaMeanProofs CudaLineModel CudaLineSpec CudaLineProofs CudaLineProofs2 CudaLineProofs3.
From Verif Require Import GpuLemmas.
Import ListNotations.
Local Open Scope nat_scope.

Lemma fits_of : forall sh k, launchable sh k 1 -> fits sh k.
Proof.
  intros sh k (A & B & C). unfold fits, outerSize, innerSize. unfold before, after in *. rewrite !size_numel in *. repeat split; auto; lia.
Qed.
Lemma fitsBack_of : forall sh k, launchable sh k (blocks_per_line (nth k sh 0)) -> fitsBack sh k.
Proof.
  intros sh k (A & B & C). unfold fitsBack, outerSize, innerSize. unfold before, after, blocks_per_line in *. rewrite !size_numel in *. cbv zeta. split; [exact A|]. split; [exact B|].
  rewrite <- Nat.mul_assoc, (Nat.mul_comm (numel (skipn _ _))), Nat.mul_assoc. exact C.
Qed.

(* Whatever the schedule, the launch leaves in the result, at each index, the
   exponential of the element divided by the sum of the exponentials along the
   dimension, and changes nothing else.  No exponential overflows: exp need only
   be defined up to some M >= 0. *)
Theorem cuda_softmax_partial : forall lo M sh (F : list nat -> R) dim k m p out,
  dim_is (length sh) dim k -> (0 <= M)%R -> launchable sh k 1 -> p <> out -> has m p sh F -> room m out (size sh) ->
  exists l, softmaxCuda lo M false (mkD p sh) dim out = Ok (sh, l) /\
    computes l m out sh (fun idx => exp (F idx) / line_sum (fun i => exp (F i)) k (nth k sh 0%nat) idx)%R.
Proof.
  intros lo M sh F dim k m p out HD HM HL NE HF HR. rewrite size_numel in HR. apply (softmax_launch lo M false sh F dim k m p out HD HM (fits_of sh k HL) NE HF HR).
Qed.
(* Log-softmax: its logarithm. *)
Theorem cuda_log_softmax_partial : forall lo M sh (F : list nat -> R) dim k m p out,
  dim_is (length sh) dim k -> (0 <= M)%R -> launchable sh k 1 -> p <> out -> has m p sh F -> room m out (size sh) ->
  exists l, softmaxCuda lo M true (mkD p sh) dim out = Ok (sh, l) /\
    computes l m out sh (fun idx => ln (exp (F idx) / line_sum (fun i => exp (F i)) k (nth k sh 0%nat) idx))%R.
Proof.
  intros lo M sh F dim k m p out HD HM HL NE HF HR. rewrite size_numel in HR. apply (softmax_launch lo M true sh F dim k m p out HD HM (fits_of sh k HL) NE HF HR).
Qed.
(* The same numbers as on the CPU. *)
Theorem cuda_softmax_cpu_partial : forall lo M sh (F : list nat -> R) dim k m p out,
  dim_is (length sh) dim k -> (0 <= M)%R -> launchable sh k 1 -> p <> out -> has m p sh F -> room m out (size sh) ->
  exists l l' G G', softmaxCuda lo M false (mkD p sh) dim out = Ok (sh, l) /\ softmaxCuda lo M true (mkD p sh) dim out = Ok (sh, l') /\
    softmax lo M (tensor_of sh F) dim = Ok (tensor_of sh G) /\ logSoftmax lo M (tensor_of sh F) dim = Ok (tensor_of sh G') /\
    computes l m out sh G /\ computes l' m out sh G'.
Proof.
  intros lo M sh F dim k m p out HD HM HL NE HF HR.
  destruct (cuda_softmax_partial lo M sh F dim k m p out HD HM HL NE HF HR) as (l & E & C). destruct (cuda_log_softmax_partial lo M sh F dim k m p out HD HM HL NE HF HR) as (l' & E' & C').
  exists l, l', (fun idx => exp (F idx) / line_sum (fun i => exp (F i)) k (nth k sh 0%nat) idx)%R, (fun idx => ln (exp (F idx) / line_sum (fun i => exp (F i)) k (nth k sh 0%nat) idx))%R.
  split; [exact E|]. split; [exact E'|]. split; [exact (softmax_ok lo M sh F dim k HD HM)|]. split; [exact (logSoftmax_ok lo M sh F dim k HD HM)|]. split; [exact C|exact C'].
Qed.

(* Gradients, from the result of the forward pass and the incoming gradient. *)
Theorem cuda_softmax_backward_partial : forall M sh (Y G : list nat -> R) dim k m py pg out part,
  let n := nth k sh 0 in
  dim_is (length sh) dim k -> launchable sh k (blocks_per_line n) -> has m py sh Y -> has m pg sh G -> room m out (size sh) ->
  (1024 < n -> room m part (before sh k * after sh k * blocks_per_line n)) -> NoDup [py; out; part] -> NoDup [pg; out; part] ->
  exists ls, softmaxBackwardCuda M false (mkD pg sh) (mkD py sh) dim out part = Ok (sh, ls) /\
    computes_all ls m out [part] sh (fun idx => Y idx * (G idx - line_sum (fun i => Y i * G i) k n idx))%R.
Proof.
  intros M sh Y G dim k m py pg out part n HD HL HY HG HR HP N1 N2. rewrite size_numel in HR.
  destruct (softmax_back_launch M false sh Y G dim k m py pg out part HD (fitsBack_of sh k HL) HY HG HR) as (ls & E & C).
  - intros Hn. fold n in Hn. specialize (HP Hn). unfold before, after, blocks_per_line in HP. rewrite !size_numel in HP. destruct (Nat.leb_spec n 1024); [lia|]. exact HP.
  - inversion_clear N1. intros ->. apply H. left. reflexivity.
  - inversion_clear N2. intros ->. apply H. left. reflexivity.
  - inversion_clear N1. intros ->. apply H. right. left. reflexivity.
  - inversion_clear N2. intros ->. apply H. right. left. reflexivity.
  - inversion_clear N1. inversion_clear H0. intros ->. apply H1. left. reflexivity.
  - discriminate.
  - exists ls. auto.
Qed.
Theorem cuda_log_softmax_backward_partial : forall M sh (Y G : list nat -> R) dim k m py pg out part,
  let n := nth k sh 0 in
  dim_is (length sh) dim k -> launchable sh k (blocks_per_line n) -> has m py sh Y -> has m pg sh G -> room m out (size sh) ->
  (1024 < n -> room m part (before sh k * after sh k * blocks_per_line n)) -> NoDup [py; out; part] -> NoDup [pg; out; part] ->
  (forall idx, valid sh idx -> (Y idx <= M)%R) ->
  exists ls, softmaxBackwardCuda M true (mkD pg sh) (mkD py sh) dim out part = Ok (sh, ls) /\
    computes_all ls m out [part] sh (fun idx => G idx - exp (Y idx) * line_sum G k n idx)%R.
Proof.
  intros M sh Y G dim k m py pg out part n HD HL HY HG HR HP N1 N2 HM. rewrite size_numel in HR.
  destruct (softmax_back_launch M true sh Y G dim k m py pg out part HD (fitsBack_of sh k HL) HY HG HR) as (ls & E & C).
  - intros Hn. fold n in Hn. specialize (HP Hn). unfold before, after, blocks_per_line in HP. rewrite !size_numel in HP. destruct (Nat.leb_spec n 1024); [lia|]. exact HP.
  - inversion_clear N1. intros ->. apply H. left. reflexivity.
  - inversion_clear N2. intros ->. apply H. left. reflexivity.
  - inversion_clear N1. intros ->. apply H. right. left. reflexivity.
  - inversion_clear N2. intros ->. apply H. right. left. reflexivity.
  - inversion_clear N1. inversion_clear H0. intros ->. apply H1. left. reflexivity.
  - intros _. exact HM.
  - exists ls. auto.
Qed.
(* What they leave is the derivative: of the sum of the results weighted with G,
   by each element of the operand F. *)
Theorem cuda_softmax_gradient_partial : forall lo M sh (F G : list nat -> R) dim k m py pg out part,
  let n := nth k sh 0 in
  dim_is (length sh) dim k -> (0 <= M)%R -> launchable sh k (blocks_per_line n) -> has m py sh (softmax_at F k n) -> has m pg sh G -> room m out (size sh) ->
  (1024 < n -> room m part (before sh k * after sh k * blocks_per_line n)) -> NoDup [py; out; part] -> NoDup [pg; out; part] ->
  exists ls D, softmaxBackwardCuda M false (mkD pg sh) (mkD py sh) dim out part = Ok (sh, ls) /\ computes_all ls m out [part] sh D /\
    is_gradient (fun t => softmax lo M t dim) sh F (tensor_of sh G) (Ok (tensor_of sh D)).
Proof.
  intros lo M sh F G dim k m py pg out part n HD HM HL HY HG HR HP N1 N2.
  destruct (cuda_softmax_backward_partial M sh (softmax_at F k n) G dim k m py pg out part HD HL HY HG HR HP N1 N2) as (ls & E & C).
  exists ls. eexists. split; [exact E|]. split; [exact C|]. pose proof (softmax_grad lo M sh F G dim k HD HM) as X. unfold softmaxGrad in X.
  rewrite (softmax_ok lo M sh F dim k HD HM), (softmaxBackward_ok sh _ G dim k HD) in X. exact X.
Qed.
Theorem cuda_log_softmax_gradient_partial : forall lo M sh (F G : list nat -> R) dim k m py pg out part,
  let n := nth k sh 0 in
  dim_is (length sh) dim k -> (0 <= M)%R -> launchable sh k (blocks_per_line n) -> has m py sh (fun idx => ln (softmax_at F k n idx)) -> has m pg sh G -> room m out (size sh) ->
  (1024 < n -> room m part (before sh k * after sh k * blocks_per_line n)) -> NoDup [py; out; part] -> NoDup [pg; out; part] ->
  exists ls D, softmaxBackwardCuda M true (mkD pg sh) (mkD py sh) dim out part = Ok (sh, ls) /\ computes_all ls m out [part] sh D /\
    is_gradient (fun t => logSoftmax lo M t dim) sh F (tensor_of sh G) (Ok (tensor_of sh D)).
Proof.
  intros lo M sh F G dim k m py pg out part n HD HM HL HY HG HR HP N1 N2.
  assert (HLE : forall idx, valid sh idx -> (ln (softmax_at F k n idx) <= M)%R). { intros idx V. pose proof (ln_softmax_le F sh k idx V (proj1 HD)). fold n in H. lra. }
  destruct (cuda_log_softmax_backward_partial M sh _ G dim k m py pg out part HD HL HY HG HR HP N1 N2 HLE) as (ls & E & C).
  exists ls. eexists. split; [exact E|]. split; [exact C|]. pose proof (logSoftmax_grad lo M sh F G dim k HD HM) as X. unfold logSoftmaxGrad in X.
  rewrite (logSoftmax_ok lo M sh F dim k HD HM), (logSoftmaxBackward_ok M sh _ G dim k HD) in X by exact HLE. exact X.
Qed.

(* A dimension that does not exist, or a gradient of another shape, is rejected. *)
Theorem cuda_softmax_rejects : forall lo M isLog p sh dim out, (forall k, ~ dim_is (length sh) dim k) -> softmaxCuda lo M isLog (mkD p sh) dim out = Fail.
Proof.
  intros lo M isLog p sh dim out H. unfold softmaxCuda. cbn [dshape]. destruct (axis (length sh) dim) as [k|] eqn:E; [|reflexivity]. apply axis_some in E. destruct (H k E).
Qed.
Theorem cuda_softmax_backward_rejects : forall M isLog pg py sh1 sh2 dim out part, (sh1 <> sh2 \/ forall k, ~ dim_is (length sh2) dim k) ->
  softmaxBackwardCuda M isLog (mkD pg sh1) (mkD py sh2) dim out part = Fail.
Proof.
  intros M isLog pg py sh1 sh2 dim out part H. unfold softmaxBackwardCuda. cbn [dshape]. destruct (list_eq_dec Nat.eq_dec sh2 sh1) as [->|N]; [|reflexivity].
  destruct H as [H|H]; [contradiction|]. destruct (axis (length sh1) dim) as [k|] eqn:E; [|reflexivity]. apply axis_some in E. destruct (H k E).
Qed.

(* The limits are needed: beyond them, or with no line at all, the device
   refuses the launch and the result is never written. *)
Theorem cuda_softmax_wide_refuted : forall lo M isLog p sh dim k out, dim_is (length sh) dim k ->
  (65535 < Z.of_nat (after sh k))%Z \/ (1024 < nth k sh 0 /\ (65535 < Z.of_nat (before sh k))%Z) \/ before sh k * after sh k = 0 ->
  exists l, softmaxCuda lo M isLog (mkD p sh) dim out = Ok (sh, l) /\ ~ accepted l.
Proof.
  intros lo M isLog p sh dim k out HD H. unfold softmaxCuda. cbn [dshape dbuf]. rewrite (proj2 (axis_some _ _ _) HD). eexists. split; [reflexivity|].
  unfold before, after in H. rewrite !size_numel in H. fold (innerSize sh k) in H. fold (outerSize sh k) in H. set (inner := innerSize sh k) in *. set (outer := outerSize sh k) in *. set (n := nth k sh 0) in *.
  intros (A & _ & _). destruct (Nat.leb_spec n 1024) as [L|L]; unfold kSoftmaxForward, kSoftmaxForwardLargeDim, grid3 in A; cbn [grid] in A.
  - change (Z.of_nat 1 <=? 65535)%Z with true in A. destruct (Z.leb_spec (Z.of_nat inner) 65535); cbn [andb] in A; [|lia]. rewrite Nat.mul_1_r in A. destruct H as [H|[H|H]]; lia.
  - destruct (Z.leb_spec (Z.of_nat outer) 65535), (Z.leb_spec (Z.of_nat inner) 65535); cbn [andb] in A; lia.
Qed.

(* Block sizes: the least power of two that is not below v. *)
Theorem cuda_next_pow2 : forall v, (0 < v <= 2 ^ 31)%N -> exists k, nextPow2 v = (2 ^ k)%N /\ (v <= 2 ^ k)%N /\ forall j, (v <= 2 ^ j)%N -> (k <= j)%N.
Proof. exact nextPow2_least. Qed.
(* Above 2^31 there is none in 32 bits, and it is 0. *)
Theorem cuda_next_pow2_refuted : forall v, (2 ^ 31 < v < 2 ^ 32)%N -> nextPow2 v = 0%N.
Proof.
  intros v Hv. rewrite nextPow2_value by lia. assert (A : (N.size (v - 1) <= 32)%N) by (apply size_spec; lia). assert (B : ~ (N.size (v - 1) <= 31)%N) by (rewrite size_spec; lia).
  replace (N.size (v - 1)) with 32%N by lia. reflexivity.
Qed.

Definition sample (idx : list nat) : R := INR (nth 0 idx 0%nat + 2 * nth 1 idx 0%nat).
Example cuda_softmax_case : let sh := [2; 3; 2] in let m := mem_of [map Some (map sample (indices sh)); repeat None 12; map Some (map sample (indices sh)); repeat None 4] in
  dim_is (length sh) (-2) 1 /\ launchable sh 1 1 /\ launchable sh 1 (blocks_per_line 3) /\ has m 0 sh sample /\ room m 1 (size sh) /\ has m 2 sh sample /\ NoDup [0; 1; 3] /\ NoDup [2; 1; 3].
Proof.
  cbv zeta. assert (L : launchable [2; 3; 2] 1 1). { split; [cbn; lia|]. split; cbn; lia. }
  split; [split; [simpl; lia|right; reflexivity]|]. split; [exact L|]. split; [exact L|]. split; [apply holds_of; reflexivity|]. split; [apply room_of; reflexivity|]. split; [apply holds_of; reflexivity|].
  split; repeat constructor; simpl; lia.
Qed.
Example cuda_softmax_long_case : blocks_per_line 3000 = 3 /\ before [2; 3000] 1 = 2 /\ after [2; 3000] 1 = 1 /\ launchable [2; 3000] 1 (blocks_per_line 3000).
Proof.
  assert (B : blocks_per_line 3000 = 3) by reflexivity. assert (X : before [2; 3000] 1 = 2) by reflexivity. assert (Y : after [2; 3000] 1 = 1) by reflexivity. split; [exact B|]. split; [exact X|]. split; [exact Y|]. unfold launchable. rewrite B, X, Y. lia.
Qed.

Print Assumptions cuda_softmax_partial.
Print Assumptions cuda_log_softmax_partial.
Print Assumptions cuda_softmax_cpu_partial.
Print Assumptions cuda_softmax_backward_partial.
Print Assumptions cuda_log_softmax_backward_partial.
Print Assumptions cuda_softmax_gradient_partial.
Print Assumptions cuda_log_softmax_gradient_partial.
Print Assumptions cuda_softmax_rejects.
Print Assumptions cuda_softmax_backward_rejects.
Print Assumptions cuda_softmax_wide_refuted.
Print Assumptions cuda_next_pow2.
Print Assumptions cuda_next_pow2_refuted.
