(* Matrix multiplication of CUDA tensors: proofs. *)
From Coq Require Import List Arith ZArith Bool Lia.
From Verif Require Import ShapeModel ShapeSpec ShapeProofs TensorModel TensorSpec TensorLemmas BcastModel BcastSpec BcastProofs BufModel BufProofs
  PermModel PermProofs2 CutModel CutProofs CutProofs2 ReduceModel ReduceProofs ReduceProofs2 LinalgModel LinalgSpec LinalgProofs LinalgProofs2 CudaMatmulModel.
Import ListNotations.

Lemma toInt_id n : (Z.of_nat n < 2 ^ 31)%Z -> toInt n = Z.of_nat n.
Proof. intros H. unfold toInt. rewrite Z.mod_small; lia. Qed.

Section Gemm.
Context {K : cring}.
Add Ring Kr : (cring_ring K).

Lemma dot_loop I (f : I -> K) l : forall acc, loop l acc (fun acc p => Some (add acc (f p))) = Some (add acc (sum f l)).
Proof.
  induction l as [|i l IH]; intros acc; cbn [loop]; [rewrite sum_nil; f_equal; ring|]. cbn [obind]. rewrite IH, sum_cons. f_equal. ring.
Qed.

Lemma flat_map_pair_in' {I J} (m : I -> list J) l i j : In (i, j) (flat_map (fun i => map (pair i) (m i)) l) <-> In i l /\ In j (m i).
Proof.
  rewrite in_flat_map. split.
  - intros (x & Hx & H). apply in_map_iff in H. destruct H as (y & E & Hy). injection E as <- <-. auto.
  - intros [Hi Hj]. exists i. split; [exact Hi|]. apply in_map. exact Hj.
Qed.

Lemma gemmCuda_fill (a b : list K) m k n bs (offs : nat -> nat * nat) (ta tb : bool) (A B : nat -> nat -> nat -> K) G :
  0 < m -> 0 < k -> 0 < n -> (Z.of_nat m < 2 ^ 31)%Z -> (Z.of_nat k < 2 ^ 31)%Z -> (Z.of_nat n < 2 ^ 31)%Z ->
  (forall batch i p, batch < numel bs -> i < m -> p < k -> nth_error a (fst (offs batch) + (if ta then p * m + i else i * k + p)) = Some (A batch i p)) ->
  (forall batch p j, batch < numel bs -> p < k -> j < n -> nth_error b (snd (offs batch) + (if tb then j * k + p else p * n + j)) = Some (B batch p j)) ->
  (forall batch i j, batch < numel bs -> i < m -> j < n -> G (offsetToIndices bs batch ++ [i; j]) = product (A batch) (B batch) k i j) ->
  rbind (gemmCuda (fresh (numel (bs ++ [m; n]))) a b m k n (Z.of_nat (numel bs)) (map (fun batch => (fst (offs batch), snd (offs batch), batch * (m * n))) (seq 0 (numel bs))) ta tb)
    (fun c => finish (bs ++ [m; n]) (Some c)) = Ok (tensor_of (bs ++ [m; n]) G).
Proof.
  intros Pm Pk Pn Im Ik In' HA HB HG. unfold gemmCuda, cublasGemm.
  rewrite (toInt_id n), (toInt_id m), (toInt_id k) by assumption.
  replace (toInt (if ta then m else k)) with (Z.of_nat (if ta then m else k)) by (symmetry; apply toInt_id; destruct ta; assumption).
  replace (toInt (if tb then k else n)) with (Z.of_nat (if tb then k else n)) by (symmetry; apply toInt_id; destruct tb; assumption).
  assert (AC : cublasAccepts tb ta (Z.of_nat n) (Z.of_nat m) (Z.of_nat k) (Z.of_nat (if tb then k else n)) (Z.of_nat (if ta then m else k)) (Z.of_nat n) (Z.of_nat (numel bs)) = true).
  { unfold cublasAccepts. rewrite !andb_true_iff, !Z.leb_le. destruct ta, tb; lia. }
  rewrite AC. cbn [negb]. rewrite !Nat2Z.id. rewrite map_map. cbn [fst snd].
  rewrite firstn_all2 by (rewrite map_length, seq_length; lia).
  match goal with |- context [loop ?l ?s ?f] => set (L := loop l s f) end.
  assert (E : finish (bs ++ [m; n]) L = Ok (tensor_of (bs ++ [m; n]) G)).
  2:{ destruct L as [c|]; [exact E|discriminate]. }
  unfold L. rewrite loop_map. cbn [fst snd].
  rewrite (loop_ext _ _ (fun c batch => loop (list_prod (seq 0 m) (seq 0 n)) c (fun c ji => put c (batch * (m * n) + (fst ji * n + snd ji)) (product (A batch) (B batch) k (fst ji) (snd ji))))).
  2:{ intros c batch Hb. apply in_seq in Hb. apply loop_ext. intros c' [i j] Hij. apply in_prod_iff in Hij. destruct Hij as [Hi Hj]. apply in_seq in Hi, Hj. cbn [fst snd].
      rewrite (loop_ext _ _ (fun acc p => Some (add acc (mul (A batch i p) (B batch p j))))).
      - rewrite dot_loop. cbn [obind]. f_equal; [unfold colMajor; lia|]. unfold product. ring.
      - intros acc p Hp. apply in_seq in Hp.
        assert (E1 : rd b (snd (offs batch) + colMajor tb (if tb then k else n) j p) = Some (B batch p j)).
        { unfold rd. rewrite <- (HB batch p j) by lia. f_equal. unfold colMajor. destruct tb; lia. }
        assert (E2 : rd a (fst (offs batch) + colMajor ta (if ta then m else k) p i) = Some (A batch i p)).
        { unfold rd. rewrite <- (HA batch i p) by lia. f_equal. unfold colMajor. destruct ta; lia. }
        rewrite E1, E2. cbn [obind]. do 2 f_equal. ring. }
  rewrite (loop_nest (fun _ => list_prod (seq 0 m) (seq 0 n)) (seq 0 (numel bs)) (fun c batch ji => put c (batch * (m * n) + (fst ji * n + snd ji)) (product (A batch) (B batch) k (fst ji) (snd ji)))).
  apply (fill_tensor _ (fun q => offsetToIndices bs (fst q) ++ [fst (snd q); snd (snd q)]) G (bs ++ [m; n])).
  - intros c [batch [i j]] Hq Lc. apply flat_map_pair_in' in Hq. destruct Hq as [Hb Hij]. apply in_prod_iff in Hij. destruct Hij as [Hi Hj]. apply in_seq in Hb, Hi, Hj. cbn [fst snd].
    rewrite HG by lia. f_equal. rewrite ravel_app by ((apply o2i_length || (symmetry; apply o2i_length))). rewrite ravel_o2i by lia. rewrite !ravel_cons, ravel_nil, !numel_cons, numel_nil. lia.
  - intros [batch [i j]] Hq. apply flat_map_pair_in' in Hq. destruct Hq as [Hb Hij]. apply in_prod_iff in Hij. destruct Hij as [Hi Hj]. apply in_seq in Hb, Hi, Hj. cbn [fst snd].
    apply valid_app; [(apply o2i_length || (symmetry; apply o2i_length))|]. split; [apply o2i_valid; lia|]. repeat constructor; lia.
  - intros idx V. assert (LI : length idx = length bs + 2) by (rewrite (valid_length _ _ V), app_length; reflexivity).
    rewrite <- (firstn_skipn (length bs) idx) in V |- *. apply valid_app in V; [|first [apply firstn_length_le; lia|symmetry; apply firstn_length_le; lia]]. destruct V as [V1 V2].
    set (be := firstn (length bs) idx) in *. inversion V2 as [|i ? ? l Hi V3 EI]; subst. inversion V3 as [|j ? ? l' Hj V4]; subst. inversion V4; subst.
    exists (ravel bs be, (i, j)). split.
    + apply flat_map_pair_in'. split; [apply in_seq; pose proof (ravel_lt _ _ V1); lia|]. apply in_prod_iff. split; apply in_seq; lia.
    + cbn [fst snd]. rewrite o2i_ravel by exact V1. congruence.
Qed.
End Gemm.
