(** C81: the fused gate of a feed-forward layer, on both devices. *)
From Coq Require Import List Arith ZArith Bool Lia Reals.
From Verif Require Import ShapeModel ShapeSpec ShapeProofs TensorModel TensorSpec TensorLemmas BcastModel BufModel CutModel
  GpuModel GpuSpec CudaModel CudaSpec CudaProofs CudaItems FusedModel FusedProofs.
Import ListNotations.
Local Open Scope nat_scope.

(** The logistic function. *)
Definition logistic (x : R) : R := (1 / (1 + exp (- x)))%R.

(** Lines of 2h elements: the first h, each times its logistic, times the last h. *)
Theorem silu_mul_partial : forall pre h (F : list nat -> R), 0 < h ->
  exists G, siluMul (tensor_of (pre ++ [2 * h]) F) = Ok (tensor_of (pre ++ [h]) G) /\
  forall idx j, valid pre idx -> j < h -> G (idx ++ [j]) = (F (idx ++ [j]) * logistic (F (idx ++ [j])) * F (idx ++ [h + j]%nat))%R.
Proof.
  intros pre h F Hh. eexists. split; [apply siluMul_ok, Hh|]. intros idx j _ _. rewrite gated_at. unfold silu, logistic, Rdiv. rewrite Rmult_1_l. rewrite (Nat.add_comm j h). reflexivity.
Qed.
Theorem cuda_silu_mul_partial : forall pre h (F : list nat -> R) self out m, 0 < h -> (0 < Z.of_nat (size (pre ++ [h])) <= 2 ^ 32)%Z ->
  has m self (pre ++ [2 * h]) F -> room m out (size (pre ++ [h])) -> out <> self ->
  exists l G, siluMulCuda (mkD self (pre ++ [2 * h])) out = Ok (pre ++ [h], l) /\ computes l m out (pre ++ [h]) G /\
  forall idx j, valid pre idx -> j < h -> G (idx ++ [j]) = (F (idx ++ [j]) * logistic (F (idx ++ [j])) * F (idx ++ [h + j]%nat))%R.
Proof.
  intros pre h F self out m Hh HZ HF HR N. rewrite size_numel in HZ, HR. destruct (siluMulCuda_ok pre h F self out m Hh HZ HF HR N) as (l & E & C).
  exists l, (gated h F). split; [exact E|]. split; [exact C|].
  intros idx j _ _. rewrite gated_at. unfold silu, logistic, Rdiv. rewrite Rmult_1_l. rewrite (Nat.add_comm j h). reflexivity.
Qed.
(** Both devices give the same tensor. *)
Theorem cuda_silu_mul_as_cpu_partial : forall pre h (F : list nat -> R) self out m, 0 < h -> (0 < Z.of_nat (size (pre ++ [h])) <= 2 ^ 32)%Z ->
  has m self (pre ++ [2 * h]) F -> room m out (size (pre ++ [h])) -> out <> self ->
  exists l G, siluMulCuda (mkD self (pre ++ [2 * h])) out = Ok (pre ++ [h], l) /\ computes l m out (pre ++ [h]) G /\
  siluMul (tensor_of (pre ++ [2 * h]) F) = Ok (tensor_of (pre ++ [h]) G).
Proof.
  intros pre h F self out m Hh HZ HF HR N. rewrite size_numel in HZ, HR. destruct (siluMulCuda_ok pre h F self out m Hh HZ HF HR N) as (l & E & C).
  exists l, (gated h F). split; [exact E|]. split; [exact C|]. apply siluMul_ok, Hh.
Qed.
(** An odd last dimension is refused. *)
Theorem silu_mul_rejects_odd : forall pre h (d : list R) self out,
  siluMul (mkT (pre ++ [2 * h + 1]) d) = Fail /\ siluMulCuda (mkD self (pre ++ [2 * h + 1])) out = Fail.
Proof.
  intros pre h d self out. unfold siluMul, siluMulCuda. cbn [tshape dshape]. rewrite rev_app_distr. cbn [rev app].
  assert (E : (2 * h + 1) mod 2 = 1) by (rewrite Nat.add_comm, Nat.mul_comm, Nat.mod_add by lia; reflexivity). rewrite E. split; reflexivity.
Qed.
(** No last dimension, or one of size 0: not refused but undefined on the CPU; on
    the GPU the latter launches nothing, which aborts. *)
Theorem silu_mul_empty_refuted : forall pre (d : list R) self out,
  siluMul (mkT (pre ++ [0]) d) = UB /\ siluMul (mkT [] d) = UB /\ siluMulCuda (mkD self []) out = UB /\
  exists l, siluMulCuda (mkD self (pre ++ [0])) out = Ok (pre ++ [0], l) /\ ~ accepted l.
Proof.
  intros pre d self out. unfold siluMul, siluMulCuda. cbn [tshape dshape dbuf]. rewrite rev_app_distr. cbn [rev app].
  change (0 mod 2 =? 0) with true. change (0 / 2) with 0. cbn [negb Nat.eqb]. split; [reflexivity|]. split; [reflexivity|]. split; [reflexivity|].
  rewrite rev_involutive. eexists. split; [reflexivity|]. rewrite numel_app, numel_cons, Nat.mul_0_r. intros (G & _). change (grid _) with 0 in G. lia.
Qed.

Example silu_mul_met : let m := mem_of [map (fun idx => Some (INR (ravel [2; 3; 4] idx))) (indices [2; 3; 4]); repeat None 12] in
  0 < 2 /\ (0 < Z.of_nat (size ([2; 3] ++ [2])%nat) <= 2 ^ 32)%Z /\
  has m 0 ([2; 3] ++ [2 * 2]) (fun idx => INR (ravel [2; 3; 4] idx)) /\ room m 1 (size ([2; 3] ++ [2])) /\ valid [2; 3] [1; 2].
Proof.
  intros m. split; [lia|]. split. { cbn; lia. } split. { apply holds_of. rewrite map_map. reflexivity. } split; [apply room_of; reflexivity|]. repeat constructor.
Qed.

Print Assumptions silu_mul_partial.
Print Assumptions cuda_silu_mul_partial.
Print Assumptions cuda_silu_mul_as_cpu_partial.
Print Assumptions silu_mul_rejects_odd.
Print Assumptions silu_mul_empty_refuted.
