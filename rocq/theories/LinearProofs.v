(** Proofs about the linear layer. *)
From Coq Require Import ZArith List Bool Arith Lia.
From Verif Require Import ShapeModel ShapeSpec ShapeProofs TensorModel TensorSpec TensorLemmas BcastModel BcastSpec BcastProofs BcastProofs2 BcastProps BufModel CutModel CutSpec IndexProofs ReduceModel ReduceSpec ReduceProofs LinalgModel LinalgSpec LinalgProofs LinalgProofs2 LinalgProofs4 LinalgProps LinearModel LinearSpec.
Import ListNotations.

Section Lin.
Context {K : cring}.
Lemma bcast_nil ba : is_broadcast [ba; []] ba.
Proof.
  split; [cbn; lia|]. intros p Hp. split; [|right; exists ba; cbn; auto]. intros s [<-|[<-|[]]]; auto. left. unfold from_right. destruct p; auto.
Qed.
Lemma bcast_last lead n : is_broadcast [lead ++ [n]; [n]] (lead ++ [n]).
Proof.
  split; [cbn; rewrite app_length; cbn; lia|]. intros p Hp. split; [|right; exists (lead ++ [n]); cbn; auto].
  intros s [<-|[<-|[]]]; auto. unfold from_right. rewrite rev_unit. destruct p as [|[|p]]; cbn; auto.
Qed.
(** Product with a matrix, for every number of leading dimensions. *)
Lemma matmul_lead lead tb k n (A B : list nat -> K) : positive lead -> n <> 0 ->
  exists C, matmul (tensor_of (lead ++ [k]) A) (tensor_of (at_ tb k n) B) false tb = Ok (tensor_of (lead ++ [n]) C)
  /\ forall r j, valid lead r -> j < n -> C (r ++ [j]) = sum (fun p => mul (A (r ++ [p])) (B (at_ tb p j))) (seq 0 k).
Proof.
  intros P Hn. destruct (rev_ind (fun l => l = [] \/ exists ba m, l = ba ++ [m]) (or_introl eq_refl) (fun x l _ => or_intror (ex_intro _ l (ex_intro _ x eq_refl))) lead) as [->|(ba & m & ->)].
  - eexists. split; [apply (matmul_row_vector k n A B false tb)|]. intros r j V Hj. inversion V; subst. reflexivity.
  - apply Forall_app in P. destruct P as [Pb Pm]. inversion Pm as [|? ? Hm _]; subst.
    destruct (matmul_batched_partial ba [] ba false tb m k n A B) as (C & E & HC); auto; [constructor|apply bcast_nil|right; nia|].
    exists C. rewrite <- !app_assoc. split; [exact E|]. intros r j V Hj.
    destruct (Forall2_app_inv_r _ _ V) as (r1 & r2 & V1 & V2 & ->). inversion V2 as [|i ? r3 ? Hi V3]; subst. inversion V3; subst.
    rewrite <- app_assoc. cbn [app]. rewrite HC by auto. unfold batch_product, product. apply sum_ext. intros p _. rewrite bidx_same by auto. cbn [at_]. rewrite <- app_assoc. reflexivity.
Qed.
Lemma linear_of lead k n (X W b : list nat -> K) : positive lead -> n <> 0 ->
  exists Y, linear (tensor_of (lead ++ [k]) X) (tensor_of [n; k] W) (Some (tensor_of [n] b)) = Ok (tensor_of (lead ++ [n]) Y)
  /\ forall r j, valid lead r -> j < n -> Y (r ++ [j]) = affine k X W b r j.
Proof.
  intros P Hn. destruct (matmul_lead lead true k n X W P Hn) as (C & E & HC). unfold linear. cbn [at_] in E. rewrite E. cbn [rbind].
  pose proof (elementwise_inplace_same_partial K (fun l => add (nth 0 l zero) (nth 1 l zero)) (lead ++ [n]) C [Some ([n], b)]) as Q. cbn [map option_map fst snd] in Q.
  eexists. split.
  - apply Q; [|apply bcast_last]. constructor; [apply Forall_app; split; [exact P|repeat constructor; lia]|]. repeat constructor. lia.
  - intros r j V Hj. cbv beta. cbn [nth]. unfold affine. rewrite HC by auto. f_equal. f_equal.
    unfold bidx. rewrite app_length, (valid_length _ _ V). cbn [length]. replace (length lead + 1 - 1) with (length lead) by lia.
    rewrite <- (valid_length _ _ V). rewrite skipn_app, skipn_all, Nat.sub_diag. cbn. destruct (Nat.eqb_spec n 1); auto. replace j with 0 by lia. auto.
Qed.
Lemma linear_nobias_of lead k n (X W : list nat -> K) : positive lead -> n <> 0 ->
  exists Y, linear (tensor_of (lead ++ [k]) X) (tensor_of [n; k] W) None = Ok (tensor_of (lead ++ [n]) Y)
  /\ forall r j, valid lead r -> j < n -> Y (r ++ [j]) = affine k X W (fun _ => zero) r j.
Proof.
  intros P Hn. destruct (matmul_lead lead true k n X W P Hn) as (C & E & HC). unfold linear. cbn [at_] in E. rewrite E. cbn [rbind].
  exists C. split; auto. intros r j V Hj. rewrite HC by auto. unfold affine. rewrite add_0_r. auto.
Qed.
Add Ring Kring : (cring_ring K).
Lemma tensor_of_eq {A} sh (F G : list nat -> A) : tensor_of sh F = tensor_of sh G -> forall idx, valid sh idx -> F idx = G idx.
Proof.
  intros E idx V. unfold tensor_of in E. injection E as E. apply (ext_in_map E). apply indices_in. auto.
Qed.
Lemma sum_lead lead n (f : list nat -> K) : sum f (indices (lead ++ [n])) = sum (fun r => sum (fun j => f (r ++ [j])) (seq 0 n)) (indices lead).
Proof.
  rewrite indices_app, sum_flat_map. apply sum_ext. intros r _. rewrite sum_map. rewrite indices_1. rewrite sum_map. auto.
Qed.
Lemma linear_agrees lead k n X W (b : option (list nat -> K)) Y : positive lead -> n <> 0 ->
  linear (tensor_of (lead ++ [k]) X) (tensor_of [n; k] W) (option_map (tensor_of [n]) b) = Ok (tensor_of (lead ++ [n]) Y) ->
  forall r j, valid lead r -> j < n -> Y (r ++ [j]) = affine k X W (match b with Some b => b | None => fun _ => zero end) r j.
Proof.
  intros P Hn E r j V Hj. assert (VV : valid (lead ++ [n]) (r ++ [j])) by (apply Forall2_app; [exact V|repeat constructor; auto]). destruct b as [b|]; cbn [option_map] in E.
  - destruct (linear_of lead k n X W b P Hn) as (Y' & E' & HY). rewrite E' in E. injection E as E. rewrite <- HY by auto.
    symmetry. apply (ext_in_map E). apply indices_in. auto.
  - destruct (linear_nobias_of lead k n X W P Hn) as (Y' & E' & HY). rewrite E' in E. injection E as E. rewrite <- HY by auto.
    symmetry. apply (ext_in_map E). apply indices_in. auto.
Qed.
Lemma grad_input_of lead k n (G W : list nat -> K) : positive lead -> n <> 0 -> k <> 0 ->
  exists D, linearGradInput (tensor_of (lead ++ [n]) G) (tensor_of [n; k] W) = Ok (tensor_of (lead ++ [k]) D)
  /\ forall X X' b Y Y', linear (tensor_of (lead ++ [k]) X) (tensor_of [n; k] W) (option_map (tensor_of [n]) b) = Ok (tensor_of (lead ++ [n]) Y) ->
       linear (tensor_of (lead ++ [k]) X') (tensor_of [n; k] W) (option_map (tensor_of [n]) b) = Ok (tensor_of (lead ++ [n]) Y') ->
       inner (lead ++ [n]) (fun i => minus (Y' i) (Y i)) G = inner (lead ++ [k]) (fun i => minus (X' i) (X i)) D.
Proof.
  intros P Hn Hk. destruct (matmul_lead lead false n k G W P Hk) as (D & E & HD). exists D. split; [exact E|].
  intros X X' b Y Y' EY EY'. pose proof (linear_agrees _ _ _ _ _ _ _ P Hn EY) as HY. pose proof (linear_agrees _ _ _ _ _ _ _ P Hn EY') as HY'.
  unfold inner. rewrite !sum_lead. apply sum_ext. intros r Hr. apply indices_in in Hr.
  transitivity (sum (fun j => sum (fun p => mul (minus (X' (r ++ [p])) (X (r ++ [p]))) (mul (G (r ++ [j])) (W [j; p]))) (seq 0 k)) (seq 0 n)).
  - apply sum_ext. intros j Hj. apply in_seq in Hj. rewrite HY, HY' by (auto; lia). unfold affine, minus.
    set (bj := match b with Some b => b | None => fun _ => zero end [j]).
    transitivity (mul (G (r ++ [j])) (sum (fun p => add (mul (X' (r ++ [p])) (W [j; p])) (opp (mul (X (r ++ [p])) (W [j; p])))) (seq 0 k))).
    + rewrite sum_add. rewrite (sum_ext (fun p => opp (mul (X (r ++ [p])) (W [j; p]))) (fun p => mul (opp one) (mul (X (r ++ [p])) (W [j; p])))) by (intros; ring).
      rewrite sum_mul_l. ring.
    + rewrite <- sum_mul_l. apply sum_ext. intros p _. ring.
  - rewrite sum_swap. apply sum_ext. intros p Hp. apply in_seq in Hp. rewrite sum_mul_l. f_equal. rewrite HD by (auto; lia). apply sum_ext. intros j _. reflexivity.
Qed.
Lemma grad_weight_of m k n (G X : list nat -> K) : n <> 0 -> m <> 0 ->
  exists D, linearGradWeight (tensor_of [m; n] G) (tensor_of [m; k] X) = Ok (tensor_of [n; k] D)
  /\ forall W W' b Y Y', linear (tensor_of [m; k] X) (tensor_of [n; k] W) (option_map (tensor_of [n]) b) = Ok (tensor_of [m; n] Y) ->
       linear (tensor_of [m; k] X) (tensor_of [n; k] W') (option_map (tensor_of [n]) b) = Ok (tensor_of [m; n] Y') ->
       inner [m; n] (fun i => minus (Y' i) (Y i)) G = inner [n; k] (fun i => minus (W' i) (W i)) D.
Proof.
  intros Hn Hm. eexists. split; [apply (matmul_2d true false n m k G X)|].
  intros W W' b Y Y' EY EY'. assert (P : positive [m]) by (repeat constructor; lia).
  pose proof (linear_agrees [m] _ _ _ _ _ _ P Hn EY) as HY. pose proof (linear_agrees [m] _ _ _ _ _ _ P Hn EY') as HY'.
  unfold inner. change [m; n] with ([m] ++ [n]). change [n; k] with ([n] ++ [k]). rewrite !sum_lead. rewrite !indices_1, !sum_map.
  transitivity (sum (fun i => sum (fun j => sum (fun p => mul (minus (W' [j; p]) (W [j; p])) (mul (G [i; j]) (X [i; p]))) (seq 0 k)) (seq 0 n)) (seq 0 m)).
  - apply sum_ext. intros i Hi. apply in_seq in Hi. apply sum_ext. intros j Hj. apply in_seq in Hj. assert (V : valid [m] [i]) by (repeat constructor; lia).
    rewrite HY, HY' by (auto; lia). unfold affine, minus. cbn [app].
    transitivity (mul (G [i; j]) (sum (fun p => add (mul (X [i; p]) (W' [j; p])) (opp (mul (X [i; p]) (W [j; p])))) (seq 0 k))).
    + rewrite sum_add. rewrite (sum_ext (fun p => opp (mul (X [i; p]) (W [j; p]))) (fun p => mul (opp one) (mul (X [i; p]) (W [j; p])))) by (intros; ring).
      rewrite sum_mul_l. set (bj := match b with Some b => b | None => fun _ => zero end [j]). ring.
    + rewrite <- sum_mul_l. apply sum_ext. intros p _. ring.
  - rewrite sum_swap. apply sum_ext. intros j Hj. rewrite sum_swap. apply sum_ext. intros p _. cbn [app on2 at_]. unfold product. rewrite sum_mul_l. reflexivity.
Qed.
Lemma grad_bias_of m k n (G : list nat -> K) : n <> 0 -> m <> 0 ->
  exists D, linearGradBias (tensor_of [m; n] G) = Ok (tensor_of [n] D)
  /\ forall X W b b' Y Y', linear (tensor_of [m; k] X) (tensor_of [n; k] W) (Some (tensor_of [n] b)) = Ok (tensor_of [m; n] Y) ->
       linear (tensor_of [m; k] X) (tensor_of [n; k] W) (Some (tensor_of [n] b')) = Ok (tensor_of [m; n] Y') ->
       inner [m; n] (fun i => minus (Y' i) (Y i)) G = inner [n] (fun i => minus (b' i) (b i)) D.
Proof.
  intros Hn Hm. eexists. split.
  - unfold linearGradBias, sumOnDim. rewrite (sumOnDims_correct [m; n] [0%Z] [true; false]); [reflexivity|discriminate|discriminate|].
    split; [reflexivity|]. split; [intros d [<-|[]]; exists 0; split; cbn; lia|]. intros [|[|[|q]]]; cbn [nth]; split; try discriminate; auto.
    + intros _. exists 0%Z. split; [left; auto|split; cbn; lia].
    + intros (d & [<-|[]] & [H1 H2]). cbn in *. lia.
    + intros (d & [<-|[]] & [H1 H2]). cbn in *. lia.
    + intros (d & [<-|[]] & [H1 H2]). cbn in *. lia.
  - intros X W b b' Y Y' EY EY'. assert (P : positive [m]) by (repeat constructor; lia).
    pose proof (linear_agrees [m] _ _ _ _ (Some b) _ P Hn EY) as HY. pose proof (linear_agrees [m] _ _ _ _ (Some b') _ P Hn EY') as HY'. cbv iota in HY, HY'.
    unfold inner, group. change [m; n] with ([m] ++ [n]). rewrite sum_lead. rewrite !indices_1, !sum_map. rewrite sum_swap. apply sum_ext. intros j Hj. apply in_seq in Hj.
    transitivity (sum (fun i => mul (minus (b' [j]) (b [j])) (G [i; j])) (seq 0 m)).
    + apply sum_ext. intros i Hi. apply in_seq in Hi. assert (V : valid [m] [i]) by (repeat constructor; lia). rewrite HY, HY' by (auto; lia). unfold affine, minus. cbn [app]. ring.
    + rewrite sum_mul_l. f_equal. rewrite sum_filter, sum_lead, indices_1, sum_map. apply sum_ext. intros i Hi. cbn [app].
      rewrite (sum_ext _ (fun j' => if j' =? j then G [i; j'] else zero)).
      * symmetry. apply (sum_single Nat.eqb Nat.eqb_eq (fun j' => G [i; j'])); [apply seq_NoDup|apply in_seq; lia].
      * intros j' _. cbn. destruct (Nat.eqb_spec j' j) as [->|H]; [rewrite (proj2 (same_idx_true _ _) eq_refl); auto|].
        destruct (same_idx [j'] [j]) eqn:E; auto. apply same_idx_true in E. injection E as E. congruence.
Qed.
End Lin.
