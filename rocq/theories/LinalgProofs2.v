From Coq Require Import ZArith List Bool Arith Lia.
From Verif Require Import ShapeModel ShapeSpec ShapeProofs TensorModel TensorSpec TensorLemmas BcastModel BcastSpec BcastProofs BufModel BufProofs
  PermModel PermProofs2 CutModel CutProofs CutProofs2 ReduceModel ReduceProofs ReduceProofs2 LinalgModel LinalgSpec LinalgProofs.
Import ListNotations.

Section Matmul.
Context {K : cring}.

Lemma at_numel t r c : numel (at_ t r c) = r * c.
Proof. destruct t; cbn [at_]; rewrite !numel_cons, numel_nil; lia. Qed.
Lemma at_length t r c : length (at_ t r c) = 2.
Proof. destruct t; auto. Qed.
Lemma at_valid t r c i j : i < r -> j < c -> valid (at_ t r c) (at_ t i j).
Proof. intros; destruct t; repeat constructor; auto. Qed.
Lemma at_ravel (t : bool) r c i j : ravel (at_ t r c) (at_ t i j) = if t then j * r + i else i * c + j.
Proof. destruct t; cbn [at_]; rewrite !ravel_cons, ravel_nil, !numel_cons, numel_nil; lia. Qed.

Lemma operand_read bs t r c (F : list nat -> K) be i j : valid bs be -> i < r -> j < c ->
  nth_error (tdata (tensor_of (bs ++ at_ t r c) F)) (ravel bs be * (r * c) + (if t then j * r + i else i * c + j)) = Some (F (be ++ at_ t i j)).
Proof.
  intros V Hi Hj. rewrite <- (at_numel t r c), <- (at_ravel t r c i j), <- ravel_app by (apply valid_length; auto).
  apply rd_of_idx. apply valid_app; [apply valid_length; auto|]. split; auto. apply at_valid; auto.
Qed.

Definition mprod (ba bb bs : list nat) (ta tb : bool) (k : nat) (A B : list nat -> K) (idx : list nat) : K :=
  let be := firstn (length bs) idx in
  on2 zero (product (fun i p => A (bidx ba be ++ at_ ta i p)) (fun p j => B (bidx bb be ++ at_ tb p j)) k) (skipn (length bs) idx).

Lemma matmul_flat ta tb m k n (A B : list nat -> K) :
  matmul (tensor_of (at_ ta m k) A) (tensor_of (at_ tb k n) B) ta tb
  = Ok (tensor_of [m; n] (on2 zero (product (fun i p => A (at_ ta i p)) (fun p j => B (at_ tb p j)) k))).
Proof.
  unfold matmul. cbn [tensor_of tshape]. fold (tensor_of (at_ ta m k) A). fold (tensor_of (at_ tb k n) B).
  assert (G : gemm (tdata (tensor_of (at_ ta m k) A)) 0 (tdata (tensor_of (at_ tb k n) B)) 0 m k n ta tb
    = Some (map (on2 zero (product (fun i p => A (at_ ta i p)) (fun p j => B (at_ tb p j)) k)) (indices [m; n]))).
  { apply gemm_correct.
    - intros i p Hi Hp. apply (operand_read [] ta m k A []); auto. constructor.
    - intros p j Hp Hj. apply (operand_read [] tb k n B []); auto. constructor. }
  destruct ta, tb; cbn [at_] in G |- *; rewrite Nat.eqb_refl; cbn [negb]; rewrite G; reflexivity.
Qed.

Lemma detail_path (a b : tensor K) ta tb : length (tshape a) <> 2 \/ length (tshape b) <> 2 -> matmul a b ta tb = matmulDetail a b ta tb.
Proof.
  intro H. unfold matmul. destruct (tshape a) as [|a0 [|a1 [|a2 sa]]]; auto. destruct (tshape b) as [|b0 [|b1 [|b2 sb]]]; auto. cbn in H. lia.
Qed.
Lemma nth_rows ba (t : bool) r c : nth (length (ba ++ at_ t r c) - (if t then 1 else 2)) (ba ++ at_ t r c) 0 = r.
Proof. rewrite app_length, at_length, app_nth2 by (destruct t; lia). destruct t; cbn [at_]; (replace (length ba + 2 - 1 - length ba) with 1 by lia) || (replace (length ba + 2 - 2 - length ba) with 0 by lia); auto. Qed.
Lemma nth_cols ba (t : bool) r c : nth (length (ba ++ at_ t r c) - (if t then 2 else 1)) (ba ++ at_ t r c) 0 = c.
Proof. rewrite app_length, at_length, app_nth2 by (destruct t; lia). destruct t; cbn [at_]; (replace (length ba + 2 - 1 - length ba) with 1 by lia) || (replace (length ba + 2 - 2 - length ba) with 0 by lia); auto. Qed.

Lemma batch_read ba bb bs t r c (F : list nat -> K) batch i j : positive ba -> positive bb -> is_broadcast [ba; bb] bs ->
  forall b, In b [ba; bb] -> length b = length bs \/ b = [] -> batch < numel bs -> i < r -> j < c ->
  nth_error (tdata (tensor_of (b ++ at_ t r c) F)) (batchOffset (b ++ at_ t r c) (makePaddedStrides (strides (b ++ at_ t r c)) (length bs + 2)) bs batch
     + (if t then j * r + i else i * c + j))
  = Some (F (bidx b (offsetToIndices bs batch) ++ at_ t i j)).
Proof.
  intros Pa Pb HB b Hb L Hn Hi Hj.
  assert (Ps : positive bs) by (apply (is_broadcast_positive [ba; bb]); auto).
  assert (V : valid b (bidx b (offsetToIndices bs batch))) by (apply (bidx_valid b bs); [apply (is_broadcast_bto [ba; bb]); auto|apply o2i_valid; auto]).
  destruct L as [L| ->].
  - rewrite batchOffset_full by (auto using at_length). rewrite at_numel. apply operand_read; auto.
  - cbn [app] in *. rewrite batchOffset_none by (rewrite at_length; auto). rewrite bidx_nil. cbn [app]. apply (operand_read [] t r c F []); auto.
Qed.

Lemma matmul_correct ba bb bs ta tb m k n (A B : list nat -> K) : positive ba -> positive bb -> is_broadcast [ba; bb] bs ->
  length ba = length bb \/ ba = [] \/ bb = [] -> bs = [] \/ m * n <> 0 ->
  matmul (tensor_of (ba ++ at_ ta m k) A) (tensor_of (bb ++ at_ tb k n) B) ta tb = Ok (tensor_of (bs ++ [m; n]) (mprod ba bb bs ta tb k A B)).
Proof.
  intros Pa Pb HB HL Hmn.
  assert (Lbs : length bs = Nat.max (length ba) (length bb)) by (destruct HB as [L _]; cbn in L; lia).
  destruct bs as [|d0 bs0].
  { destruct ba; [|cbn [length] in Lbs; lia]. destruct bb; [|cbn [length] in Lbs; lia]. cbn [app]. apply matmul_flat. }
  destruct Hmn as [|Hmn]; [discriminate|]. set (bs := d0 :: bs0) in *.
  assert (La : length ba = length bs \/ ba = []) by (destruct HL as [?|[->| ->]]; cbn in *; auto; left; lia).
  assert (Lb : length bb = length bs \/ bb = []) by (destruct HL as [?|[->| ->]]; cbn in *; auto; left; lia).
  assert (Ps : positive bs) by (apply (is_broadcast_positive [ba; bb]); auto).
  rewrite detail_path.
  2: { cbn [tensor_of tshape]. rewrite !app_length, !at_length. cbn [length bs] in Lbs. destruct ba, bb; cbn in *; lia. }
  unfold matmulDetail. cbv zeta. unfold tstrides. change (tshape (tensor_of ?s ?F)) with s.
  rewrite (proj2 (Nat.eqb_neq _ 0)) by (rewrite app_length, at_length; lia). rewrite (proj2 (Nat.eqb_neq _ 0)) by (rewrite app_length, at_length; lia). cbn [orb].
  rewrite (proj2 (Nat.eqb_neq (length (ba ++ _)) 1)) by (rewrite app_length, at_length; lia). rewrite (proj2 (Nat.eqb_neq (length (bb ++ _)) 1)) by (rewrite app_length, at_length; lia).
  rewrite !nth_cols, !nth_rows. rewrite Nat.eqb_refl. cbn [negb].
  assert (EB : exists z, broadcastBatch (ba ++ at_ ta m k) (bb ++ at_ tb k n) 2 = Some (bs ++ z) /\ length z = 2).
  { assert (E : forall t r c, exists x y, at_ t r c = [x; y]) by (intros [] r c; cbn; eauto).
    destruct (E ta m k) as (x & y & ->). destruct (E tb k n) as (u & v & ->). destruct (broadcastBatch_bc ba bb x y u v) as (z & -> & Lz).
    exists z. split; auto. apply is_broadcast_bc in HB; auto. rewrite HB. cbn [option_map]. rewrite rev_involutive. auto. }
  destruct EB as (z & -> & Lz). rewrite app_length, Lz. replace (length bs + 2 - 2) with (length bs) by lia.
  rewrite firstn_app, Nat.sub_diag, firstn_all. cbn [firstn]. rewrite app_nil_r.
  rewrite (proj2 (Nat.ltb_lt _ _)) by (unfold bs; cbn [length]; lia). rewrite (proj2 (Nat.eqb_neq _ _) Hmn).
  replace (numel (bs ++ [m; n]) / (m * n)) with (numel bs).
  2: { rewrite numel_app, !numel_cons, numel_nil, Nat.mul_1_r, Nat.div_mul; auto. }
  rewrite (seqopt_map _ (fun batch => map (on2 zero (product (fun i p => A (bidx ba (offsetToIndices bs batch) ++ at_ ta i p))
        (fun p j => B (bidx bb (offsetToIndices bs batch) ++ at_ tb p j)) k)) (indices [m; n]))).
  2: { intros batch Hb. apply in_seq in Hb. apply gemm_correct.
       - intros i p Hi Hp. apply (batch_read ba bb); cbn [In]; auto; lia.
       - intros p j Hp Hj. apply (batch_read ba bb); cbn [In]; auto; lia. }
  unfold squeezed, tensor_of. do 2 f_equal. rewrite indices_app, flat_map_concat_map, concat_map, map_map, <- map_seq_indices. f_equal.
  apply map_ext_in. intros b Hb. apply in_seq in Hb. rewrite map_map. apply map_ext_in. intros ij _. unfold mprod. cbv zeta.
  assert (Lo : length (offsetToIndices bs b) = length bs) by apply o2i_length.
  rewrite firstn_app, skipn_app, Lo, Nat.sub_diag, <- Lo, firstn_all, skipn_all. cbn [firstn skipn app]. rewrite app_nil_r. auto.
Qed.

(** * One-dimensional operands *)
Lemma indices_unit n : indices [1; n] = map (cons 0) (indices [n]).
Proof. cbn [indices seq flat_map]. rewrite app_nil_r. auto. Qed.
Lemma row_data n (P : nat -> nat -> K) : map (on2 zero P) (indices [1; n]) = tdata (tensor_of [n] (fun idx => on2 zero P (0 :: idx))).
Proof. rewrite indices_unit, map_map. reflexivity. Qed.
Lemma col_data n (P : nat -> nat -> K) : map (on2 zero P) (indices [n; 1]) = tdata (tensor_of [n] (fun idx => on2 zero P (idx ++ [0]))).
Proof.
  cbn [tensor_of tdata]. change [n; 1] with ([n] ++ [1]). rewrite indices_app, flat_map_concat_map, concat_map, map_map.
  generalize (indices [n]) as l. induction l as [|x l IH]; auto. cbn [map List.concat]. rewrite IH. reflexivity.
Qed.
Lemma viewAs_flat {A} sh rsh (d : list A) : length d = numel sh -> numel rsh = numel sh -> viewAs (mkT sh d) rsh = mkT rsh d.
Proof. intros. rewrite viewAs_data; auto. Qed.
Lemma len_mn m n (P : list nat -> K) : length (map P (indices [m; n])) = m * n.
Proof. rewrite map_length, indices_length, !numel_cons, numel_nil. lia. Qed.

Lemma matmul_vec_vec k (A B : list nat -> K) ta tb :
  matmul (tensor_of [k] A) (tensor_of [k] B) ta tb = Ok (tensor_of [] (fun _ => product (fun _ p => A [p]) (fun p _ => B [p]) k 0 0)).
Proof.
  rewrite detail_path by (left; cbn; lia). unfold matmulDetail. cbv zeta. unfold tstrides. change (tshape (tensor_of ?s ?F)) with s.
  cbn [length Nat.eqb orb app Nat.sub nth]. rewrite Nat.eqb_refl. cbn [negb].
  change (broadcastBatch [1; k] [k; 1] 2) with (Some [k; 1]). cbn [length Nat.ltb Nat.leb Nat.sub firstn app].
  rewrite (gemm_correct _ _ _ _ _ _ _ _ _ (fun _ p => A [p]) (fun p _ => B [p])).
  - unfold squeezed. rewrite row_data. rewrite (viewAs_flat [1; 1] [1]) by (cbn; auto). rewrite viewAs_flat by (cbn; auto). reflexivity.
  - intros i p Hi Hp. pose proof (rd_of_idx [k] A [p]) as R. rewrite ravel_cons, ravel_nil, numel_nil in R. replace (0 + (i * k + p)) with (p * 1 + 0) by nia. apply R. repeat constructor; auto.
  - intros p j Hp Hj. pose proof (rd_of_idx [k] B [p]) as R. rewrite ravel_cons, ravel_nil, numel_nil in R. replace (0 + (p * 1 + j)) with (p * 1 + 0) by lia. apply R. repeat constructor; auto.
Qed.
Lemma matmul_vec_mat k n (A B : list nat -> K) ta tb :
  matmul (tensor_of [k] A) (tensor_of (at_ tb k n) B) ta tb
  = Ok (tensor_of [n] (fun idx => product (fun _ p => A [p]) (fun p j => B (at_ tb p j)) k 0 (nth 0 idx 0))).
Proof.
  rewrite detail_path by (left; cbn; lia). unfold matmulDetail. cbv zeta. unfold tstrides. change (tshape (tensor_of ?s ?F)) with s. rewrite at_length.
  cbn [length Nat.eqb orb]. pose proof (nth_cols [] tb k n) as E1. pose proof (nth_rows [] tb k n) as E2. cbn [app] in E1, E2. rewrite at_length in E1, E2.
  rewrite ?at_length, E1, E2. cbn [nth Nat.sub]. rewrite Nat.eqb_refl. cbn [negb].
  replace (broadcastBatch [1; k] (at_ tb k n) 2) with (Some (at_ tb k n)) by (destruct tb; reflexivity). rewrite at_length. cbn [length Nat.ltb Nat.leb Nat.sub firstn app].
  rewrite (gemm_correct _ _ _ _ _ _ _ _ _ (fun _ p => A [p]) (fun p j => B (at_ tb p j))).
  - unfold squeezed. rewrite row_data. rewrite viewAs_flat.
    + unfold tensor_of. do 2 f_equal. apply map_ext_in. intros idx Hi. apply indices_in in Hi. inversion Hi as [|a b la lb Hab Hl]. inversion Hl. reflexivity.
    + cbn [tensor_of tdata]. rewrite map_length, indices_length. rewrite !numel_cons, numel_nil. lia.
    + rewrite !numel_cons, numel_nil. lia.
  - intros i p Hi Hp. pose proof (rd_of_idx [k] A [p]) as R. rewrite ravel_cons, ravel_nil, numel_nil in R. replace (0 + (i * k + p)) with (p * 1 + 0) by nia. apply R. repeat constructor; auto.
  - intros p j Hp Hj. apply (operand_read [] tb k n B []); auto. constructor.
Qed.
Lemma matmul_mat_vec m k (A B : list nat -> K) ta tb :
  matmul (tensor_of (at_ ta m k) A) (tensor_of [k] B) ta tb
  = Ok (tensor_of [m] (fun idx => product (fun i p => A (at_ ta i p)) (fun p _ => B [p]) k (nth 0 idx 0) 0)).
Proof.
  rewrite detail_path by (right; cbn; lia). unfold matmulDetail. cbv zeta. unfold tstrides. change (tshape (tensor_of ?s ?F)) with s. rewrite at_length.
  cbn [length Nat.eqb orb app]. pose proof (nth_cols [] ta m k) as E1. pose proof (nth_rows [] ta m k) as E2. cbn [app] in E1, E2. rewrite at_length in E1, E2.
  rewrite ?at_length, E1, E2. cbn [nth Nat.sub]. rewrite Nat.eqb_refl. cbn [negb].
  replace (broadcastBatch (at_ ta m k) [k; 1] 2) with (Some [k; 1]) by (destruct ta; reflexivity). cbn [length Nat.ltb Nat.leb Nat.sub firstn app].
  rewrite (gemm_correct _ _ _ _ _ _ _ _ _ (fun i p => A (at_ ta i p)) (fun p _ => B [p])).
  - unfold squeezed. rewrite col_data. rewrite viewAs_flat.
    + unfold tensor_of. do 2 f_equal. apply map_ext_in. intros idx Hi. apply indices_in in Hi. inversion Hi as [|a b la lb Hab Hl]. inversion Hl. reflexivity.
    + cbn [tensor_of tdata]. rewrite map_length, indices_length. rewrite !numel_cons, numel_nil. lia.
    + rewrite !numel_cons, numel_nil. lia.
  - intros i p Hi Hp. apply (operand_read [] ta m k A []); auto. constructor.
  - intros p j Hp Hj. pose proof (rd_of_idx [k] B [p]) as R. rewrite ravel_cons, ravel_nil, numel_nil in R. replace (0 + (p * 1 + j)) with (p * 1 + 0) by lia. apply R. repeat constructor; auto.
Qed.

(** * Rejections *)
Lemma matmul_scalar (a b : tensor K) ta tb : tshape a = [] \/ tshape b = [] -> matmul a b ta tb = Fail.
Proof.
  intro H. rewrite detail_path by (destruct H as [-> | ->]; cbn; auto). unfold matmulDetail. cbv zeta.
  destruct H as [-> | ->]; cbn [length Nat.eqb orb]; [|rewrite orb_true_r]; auto.
Qed.
Lemma matmul_inner ba bb (a b : tensor K) ta tb m k k' n : tshape a = ba ++ at_ ta m k -> tshape b = bb ++ at_ tb k' n -> k <> k' -> matmul a b ta tb = Fail.
Proof.
  intros Ea Eb Hk. assert (D : matmulDetail a b ta tb = Fail).
  { unfold matmulDetail. cbv zeta. rewrite Ea, Eb.
    rewrite (proj2 (Nat.eqb_neq _ 0)) by (rewrite app_length, at_length; lia). rewrite (proj2 (Nat.eqb_neq _ 0)) by (rewrite app_length, at_length; lia). cbn [orb].
    rewrite (proj2 (Nat.eqb_neq (length (ba ++ _)) 1)) by (rewrite app_length, at_length; lia). rewrite (proj2 (Nat.eqb_neq (length (bb ++ _)) 1)) by (rewrite app_length, at_length; lia).
    rewrite !nth_cols, !nth_rows. rewrite (proj2 (Nat.eqb_neq _ _) Hk). reflexivity. }
  destruct ba as [|x ba], bb as [|y bb].
  2-4: rewrite detail_path; auto; rewrite Ea, Eb, !app_length, !at_length; cbn [length]; lia.
  unfold matmul. rewrite Ea, Eb. apply Nat.eqb_neq in Hk. destruct ta, tb; cbn [app at_]; rewrite Hk; reflexivity.
Qed.
Lemma matmul_batch ba bb (a b : tensor K) ta tb m k k' n : positive ba -> positive bb -> tshape a = ba ++ at_ ta m k -> tshape b = bb ++ at_ tb k' n ->
  (~ exists bs, is_broadcast [ba; bb] bs) -> matmul a b ta tb = Fail.
Proof.
  intros Pa Pb Ea Eb HN. destruct (Nat.eq_dec k k') as [<-|Hk]; [|eapply matmul_inner; eauto].
  assert (EN : bc (rev ba) (rev bb) = None).
  { destruct (bc (rev ba) (rev bb)) as [r|] eqn:E; auto. exfalso. apply HN. exists (rev r). apply is_broadcast_bc; auto. rewrite rev_involutive. auto. }
  rewrite detail_path.
  2: { rewrite Ea, Eb, !app_length, !at_length. destruct ba, bb; cbn [length]; try lia. cbn in EN. discriminate. }
  unfold matmulDetail. cbv zeta. rewrite Ea, Eb.
  rewrite (proj2 (Nat.eqb_neq _ 0)) by (rewrite app_length, at_length; lia). rewrite (proj2 (Nat.eqb_neq _ 0)) by (rewrite app_length, at_length; lia). cbn [orb].
  rewrite (proj2 (Nat.eqb_neq (length (ba ++ _)) 1)) by (rewrite app_length, at_length; lia). rewrite (proj2 (Nat.eqb_neq (length (bb ++ _)) 1)) by (rewrite app_length, at_length; lia).
  rewrite !nth_cols, !nth_rows. rewrite Nat.eqb_refl. cbn [negb].
  assert (E : forall t r c, exists x y, at_ t r c = [x; y]) by (intros [] r c; cbn; eauto).
  destruct (E ta m k) as (x & y & ->). destruct (E tb k n) as (u & v & ->). destruct (broadcastBatch_bc ba bb x y u v) as (z & -> & Lz).
  rewrite EN. reflexivity.
Qed.
Lemma dot_correct sh (A B : list nat -> K) : dotProduct (tensor_of sh A) (tensor_of sh B) = Ok (tensor_of [] (fun _ => inner sh A B)).
Proof.
  Add Ring Kr2 : (cring_ring K).
  unfold dotProduct. change (tnumel (tensor_of sh A)) with (numel sh).
  assert (H : forall l acc, (forall i, In i l -> i < numel sh) -> loop l acc (fun acc i =>
    obind (rd (tdata (tensor_of sh A)) i) (fun x => obind (rd (tdata (tensor_of sh B)) i) (fun y => Some (add acc (mul x y)))))
    = Some (add acc (sum (fun i => mul (A (offsetToIndices sh i)) (B (offsetToIndices sh i))) l))).
  { induction l as [|i l IH]; intros acc Hl; cbn [loop].
    - rewrite sum_nil. f_equal. ring.
    - rewrite !rd_of by (apply Hl; left; auto). cbn [obind]. rewrite IH by (intros; apply Hl; right; auto). rewrite sum_cons. f_equal. ring. }
  rewrite H by (intros i Hi; apply in_seq in Hi; lia). unfold inner. rewrite <- indices_seq, sum_map. unfold tensor_of. cbn [indices map]. do 3 f_equal. ring.
Qed.
End Matmul.
