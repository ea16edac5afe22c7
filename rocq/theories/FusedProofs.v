(* The fused gate. *)
From Coq Require Import List Arith ZArith Bool Lia Reals.
From Verif Require Import ShapeModel ShapeSpec ShapeProofs TensorModel TensorSpec TensorLemmas BcastModel BufModel BufProofs CutModel CutProofs
  GpuModel GpuSpec GpuProofs GpuLemmas GpuOrder CudaModel CudaSpec CudaProofs CudaItems CudaMoveProofs2 FusedModel.
Import ListNotations.
Local Open Scope nat_scope.

(* The fused product of a tensor whose lines have twice h elements. *)
Definition gated (h : nat) (F : list nat -> R) (idx : list nat) : R :=
  (silu (F idx) * F (removelast idx ++ [last idx 0 + h]%nat))%R.

Lemma double_even h : (2 * h) mod 2 = 0 /\ 2 * h / 2 = h.
Proof. split; [rewrite Nat.mul_comm; apply Nat.mod_mul; lia|rewrite Nat.mul_comm; apply Nat.div_mul; lia]. Qed.

Lemma line_read pre d (F : list nat -> R) i j : i < numel pre -> j < d -> rd (tdata (tensor_of (pre ++ [d]) F)) (i * d + j) = Some (F (offsetToIndices pre i ++ [j])).
Proof.
  intros Hi Hj. assert (V : valid (pre ++ [d]) (offsetToIndices pre i ++ [j])).
  { apply valid_app; [(apply o2i_length || (symmetry; apply o2i_length))|]. split; [apply o2i_valid; lia|]. repeat constructor; lia. }
  pose proof (rd_of_idx (pre ++ [d]) F _ V) as R. rewrite ravel_app in R by (apply o2i_length || (symmetry; apply o2i_length)).
  rewrite ravel_o2i in R by exact Hi. rewrite !ravel_cons, ravel_nil, !numel_cons, numel_nil in R. rewrite <- R. f_equal. lia.
Qed.
Lemma gated_at h F i j : gated h F (i ++ [j]) = (silu (F (i ++ [j])) * F (i ++ [j + h]%nat))%R.
Proof. unfold gated. rewrite removelast_last, last_last. reflexivity. Qed.

Lemma siluMul_ok pre h (F : list nat -> R) : 0 < h -> siluMul (tensor_of (pre ++ [2 * h]) F) = Ok (tensor_of (pre ++ [h]) (gated h F)).
Proof.
  intros Hh. unfold siluMul. change (tshape (tensor_of ?s ?F)) with s. rewrite rev_app_distr. cbn [rev app].
  destruct (double_even h) as [-> ->]. cbn [Nat.eqb negb]. rewrite (proj2 (Nat.eqb_neq _ 0)) by lia. rewrite rev_involutive.
  replace (numel (pre ++ [2 * h]) / (2 * h)) with (numel pre).
  2:{ rewrite numel_app, numel_cons, numel_nil, Nat.mul_1_r, Nat.div_mul; lia. }
  rewrite (loop_ext _ _ (fun ret i => loop (seq 0 h) ret (fun ret j => put ret (i * h + j) (gated h F (offsetToIndices pre i ++ [j]))))).
  2:{ intros ret i Hi. apply in_seq in Hi. apply loop_ext. intros ret' j Hj. apply in_seq in Hj.
      rewrite (line_read pre (2 * h)) by lia. cbn [obind]. replace (i * (2 * h) + j + h) with (i * (2 * h) + (j + h)) by lia. rewrite (line_read pre (2 * h)) by lia. cbn [obind].
      rewrite gated_at. reflexivity. }
  rewrite (loop_nest (fun _ => seq 0 h) (seq 0 (numel pre)) (fun ret i j => put ret (i * h + j) (gated h F (offsetToIndices pre i ++ [j])))).
  assert (PI : forall i j, In (i, j) (flat_map (fun i => map (fun j => (i, j)) (seq 0 h)) (seq 0 (numel pre))) <-> i < numel pre /\ j < h).
  { intros i j. rewrite in_flat_map. split.
    - intros (x & Hx & H). apply in_map_iff in H. destruct H as (y & [= <- <-] & Hy). apply in_seq in Hx, Hy. lia.
    - intros [Hi Hj]. exists i. split; [apply in_seq; lia|]. apply in_map. apply in_seq. lia. }
  apply (fill_tensor _ (fun q => offsetToIndices pre (fst q) ++ [snd q]) (gated h F) (pre ++ [h])).
  - intros c [i j] Hq Lc. apply PI in Hq. cbn [fst snd]. f_equal. rewrite ravel_app by ((apply o2i_length || (symmetry; apply o2i_length))).
    rewrite ravel_o2i by lia. rewrite !ravel_cons, ravel_nil, !numel_cons, numel_nil. lia.
  - intros [i j] Hq. apply PI in Hq. cbn [fst snd]. apply valid_app; [(apply o2i_length || (symmetry; apply o2i_length))|]. split; [apply o2i_valid; lia|]. repeat constructor; lia.
  - intros idx V. assert (LI : length idx = length pre + 1) by (rewrite (valid_length _ _ V), app_length; reflexivity).
    rewrite <- (firstn_skipn (length pre) idx) in V |- *. apply valid_app in V; [|first [apply firstn_length_le; lia|symmetry; apply firstn_length_le; lia]]. destruct V as [V1 V2].
    set (be := firstn (length pre) idx) in *. inversion V2 as [|j ? ? l Hj V3 EI]; subst. inversion V3; subst.
    exists (ravel pre be, j). split.
    + apply PI. pose proof (ravel_lt _ _ V1). auto.
    + cbn [fst snd]. rewrite o2i_ravel by exact V1. congruence.
Qed.

Lemma siluMulCuda_ok pre h (F : list nat -> R) self out m : 0 < h -> (0 < Z.of_nat (numel (pre ++ [h])) <= 2 ^ 32)%Z ->
  has m self (pre ++ [2 * h]) F -> room m out (numel (pre ++ [h])) -> out <> self ->
  exists l, siluMulCuda (mkD self (pre ++ [2 * h])) out = Ok (pre ++ [h], l) /\ computes l m out (pre ++ [h]) (gated h F).
Proof.
  intros Hh HZ HF HR N. unfold siluMulCuda. cbn [dshape dbuf]. rewrite rev_app_distr. cbn [rev app].
  destruct (double_even h) as [-> ->]. cbn [Nat.eqb negb]. rewrite rev_involutive. eexists. split; [reflexivity|].
  unfold kSiluMul. eapply gathers_at; [apply kernel1d_is|exact HZ|exact HR|]. intros idx V. cbv beta zeta.
  assert (LI : length idx = length pre + 1) by (rewrite (valid_length _ _ V), app_length; reflexivity).
  pose proof V as V0. rewrite <- (firstn_skipn (length pre) idx) in V. apply valid_app in V; [|first [apply firstn_length_le; lia|symmetry; apply firstn_length_le; lia]]. destruct V as [V1 V2].
  set (be := firstn (length pre) idx) in *. inversion V2 as [|j ? l ? Hj V3 EI]; subst. inversion V3; subst.
  assert (EX : idx = be ++ [j]) by (rewrite EI; symmetry; apply firstn_skipn). clearbody be. clear EI. subst idx.
  assert (LB : length be = length pre) by (rewrite app_length in LI; cbn in LI; lia).
  assert (ER : forall d x, ravel (pre ++ [d]) (be ++ [x]) = ravel pre be * d + x).
  { intros d x. rewrite ravel_app by (exact LB || (symmetry; exact LB)). rewrite !ravel_cons, ravel_nil, !numel_cons, numel_nil. lia. }
  assert (VV : forall d x, x < d -> valid (pre ++ [d]) (be ++ [x])).
  { intros d x Hx. apply valid_app; [exact LB || (symmetry; exact LB)|]. split; [exact V1|]. repeat constructor; exact Hx. }
  rewrite ER. set (r := ravel pre be) in *.
  assert (E1 : (Z.of_nat (r * h + j) / Z.of_nat h = Z.of_nat r)%Z).
  { rewrite <- Nat2Z.inj_div. f_equal. rewrite Nat.div_add_l by lia. rewrite Nat.div_small by lia. lia. }
  assert (E2 : (Z.of_nat (r * h + j) mod Z.of_nat h = Z.of_nat j)%Z).
  { rewrite <- Nat2Z.inj_mod. f_equal. rewrite Nat.add_comm, Nat.mod_add by lia. apply Nat.mod_small. exact Hj. }
  rewrite E1, E2.
  replace (Z.of_nat r * Z.of_nat h * 2 + Z.of_nat j)%Z with (Z.of_nat (ravel (pre ++ [2 * h]) (be ++ [j]))) by (rewrite ER; unfold r; lia).
  replace (Z.of_nat (ravel (pre ++ [2 * h]%nat) (be ++ [j])) + Z.of_nat h)%Z with (Z.of_nat (ravel (pre ++ [2 * h]) (be ++ [j + h]))) by (rewrite !ER; lia).
  eexists. split.
  - apply (plan_ld _ _ _ (F (be ++ [j]))); [apply has_at with (1 := HF); apply VV; lia|].
    apply (plan_ld _ _ _ (F (be ++ [j + h]%nat))); [apply has_at with (1 := HF); apply VV; lia|].
    rewrite gated_at. apply plan_st; [|reflexivity]. replace (r * h + j) with (ravel (pre ++ [h]) (be ++ [j])) by apply ER. apply room_ravel; auto.
  - intros a [<-|[<-|[]]]; cbn; congruence.
Qed.
