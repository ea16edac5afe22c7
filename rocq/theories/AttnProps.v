(** C65: scaled dot-product attention. *)
From Coq Require Import ZArith List Bool Arith Lia Reals Lra.
From Verif Require Import ShapeModel ShapeSpec ShapeProofs TensorModel TensorSpec TensorLemmas BcastModel BcastSpec BcastProofs BufModel BufProofs CutSpec CutModel
  ReduceModel ReduceSpec PermModel PermProps LinalgModel LinalgProps LinalgSpec SoftmaxModel SoftmaxProofs DropModel DropSpec DropProofs MaskModel AttnModel AttnSpec AttnProofs AttnProofs2.
Import ListNotations.
Open Scope R_scope.

(** The result is the formula, for every batch shape, number of queries and keys,
    size, mask (none, causal, Boolean, additive; of any shape that broadcasts to
    the scores) and scale.  [lo] and [M] are the start of the maximum scan and a
    bound from which exp overflows.  Partial: query, key and value have the same
    non-empty batch dimensions; no dropout; every query sees a key; rounding is
    not modelled. *)
Theorem attention_value_partial : forall lo M b L S E Ev Q K V v scale p draws,
  0 <= M -> positive b -> (0 < L)%nat -> (0 < S)%nat -> (0 < E)%nat -> (0 < Ev)%nat ->
  mask_fits v (b ++ [L; S]) -> sees_something b L S v -> p <= 0 ->
  exists G, sdpAttention lo M (tensor_of (b ++ [L; E]) Q) (tensor_of (b ++ [S; E]) K) (tensor_of (b ++ [S; Ev]) V)
      (is_causal v) (mask_of v) p scale draws = Ok (Some (tensor_of (b ++ [L; Ev]) G))
  /\ forall be i e, valid b be -> G (be ++ [i; e]) = attention (factor E scale) E S Q K V v be i e.
Proof.
  intros lo M b L S E Ev Q K V v scale p draws HM Pb HL HS HE HEv HF HV Hp. eexists. split; [apply attention_ok; auto|].
  intros be i e Vb. apply on3_at; auto.
Qed.
(** Causal attention and attention without a mask need no further hypothesis. *)
Theorem attention_sees : forall b L S, (0 < S)%nat -> sees_something b L S Everything /\ sees_something b L S Past
  /\ mask_fits Everything (b ++ [L; S]) /\ mask_fits Past (b ++ [L; S]).
Proof. intros b L S HS. split; [|split; [|split; exact I]]; intros be i Vb Hi; exists 0%nat; (split; [auto|]); cbn; discriminate. Qed.

(** The weights are non-negative, 0 exactly for hidden keys, and add up to 1, so
    the result lies between any bounds of the visible values. *)
Theorem attention_weights : forall b L S E Q K v s be i, sees_something b L S v -> valid b be -> (i < L)%nat ->
  Rsum (weight s E S Q K v be i) (seq 0 S) = 1
  /\ forall j, 0 <= weight s E S Q K v be i j /\ (weight s E S Q K v be i j = 0 <-> bias_at v be i j = None).
Proof.
  intros b L S E Q K v s be i HV Vb Hi. pose proof (total_pos b L S E Q K v (Some s) HV be i Vb Hi) as P. cbn [factor] in P. unfold weight. split.
  - unfold Rdiv. rewrite (Rsum_scal_r (/ Rsum (importance s E Q K v be i) (seq 0 S))). apply Rinv_r. lra.
  - intro j. pose proof (importance_nonneg E Q K v (Some s) be i j) as I. cbn [factor] in I. pose proof (Rinv_0_lt_compat _ P) as PI. unfold Rdiv. split; [nra|].
    unfold importance at 1. destruct (bias_at v be i j) as [c|]; split; intro H; try discriminate; auto.
    + pose proof (exp_pos (s * similarity E Q K be i j + c)). nra.
    + ring.
Qed.
Theorem attention_is_mean : forall b L S E Q K V v s be i e m1 m2, sees_something b L S v -> valid b be -> (i < L)%nat ->
  (forall j, (j < S)%nat -> bias_at v be i j <> None -> m1 <= V (be ++ [j; e]) <= m2) ->
  m1 <= attention s E S Q K V v be i e <= m2.
Proof.
  intros b L S E Q K V v s be i e m1 m2 HV Vb Hi HB. destruct (attention_weights b L S E Q K v s be i HV Vb Hi) as [H1 H2]. unfold attention.
  assert (G : forall l, (forall j, In j l -> (j < S)%nat) -> m1 * Rsum (weight s E S Q K v be i) l <= Rsum (fun j => weight s E S Q K v be i j * V (be ++ [j; e])) l <= m2 * Rsum (weight s E S Q K v be i) l).
  { induction l as [|j l IH]; intro HL; [change (Rsum (weight s E S Q K v be i) []) with 0; change (Rsum (fun j => weight s E S Q K v be i j * V (be ++ [j; e])) []) with 0; lra|].
    rewrite !sum_cons. change (@add Rring) with Rplus. specialize (IH (fun j H => HL j (or_intror H))). destruct (H2 j) as [H3 H4].
    assert (m1 * weight s E S Q K v be i j <= weight s E S Q K v be i j * V (be ++ [j; e]) <= m2 * weight s E S Q K v be i j).
    { destruct (bias_at v be i j) as [c|] eqn:EB.
      - specialize (HB j (HL j (or_introl eq_refl)) ltac:(congruence)). nra.
      - rewrite (proj2 H4 eq_refl). lra. }
    lra. }
  specialize (G (seq 0 S)). rewrite H1 in G. destruct G; [intros j Hj; apply in_seq in Hj; lia|]. lra.
Qed.
(** What a query does not see does not matter: two sets of keys and values that
    agree on the visible ones give the same result for it. *)
Theorem attention_hidden_irrelevant : forall S E Q K V K' V' v s be i e,
  (forall j, (j < S)%nat -> bias_at v be i j <> None -> (forall p, (p < E)%nat -> K' (be ++ [j; p]) = K (be ++ [j; p])) /\ V' (be ++ [j; e]) = V (be ++ [j; e])) ->
  attention s E S Q K' V' v be i e = attention s E S Q K V v be i e.
Proof.
  intros S E Q K V K' V' v s be i e H.
  assert (I : forall j, (j < S)%nat -> importance s E Q K' v be i j = importance s E Q K v be i j).
  { intros j Hj. unfold importance. destruct (bias_at v be i j) eqn:EB; auto. do 3 f_equal. unfold similarity. apply Rsum_ext. intros p Hp. apply in_seq in Hp.
    rewrite (proj1 (H j Hj ltac:(congruence))) by lia. reflexivity. }
  unfold attention. apply Rsum_ext. intros j Hj. apply in_seq in Hj. unfold weight. rewrite I by lia.
  replace (Rsum (importance s E Q K' v be i) (seq 0 S)) with (Rsum (importance s E Q K v be i) (seq 0 S))
    by (apply Rsum_ext; intros j' Hj'; apply in_seq in Hj'; symmetry; apply I; lia).
  destruct (bias_at v be i j) eqn:EB.
  - rewrite (proj2 (H j ltac:(lia) ltac:(congruence))). reflexivity.
  - unfold importance at 1 3. rewrite EB. unfold Rdiv. ring.
Qed.
(** In particular causal attention at position [i] does not depend on later
    positions. *)
Theorem attention_causal_partial : forall lo M b L S E Ev Q K V K' V' scale i0,
  0 <= M -> positive b -> (0 < L)%nat -> (0 < S)%nat -> (0 < E)%nat -> (0 < Ev)%nat ->
  (forall be j p, (j <= i0)%nat -> K' (be ++ [j; p]) = K (be ++ [j; p]) /\ V' (be ++ [j; p]) = V (be ++ [j; p])) ->
  exists G G',
    sdpAttention lo M (tensor_of (b ++ [L; E]) Q) (tensor_of (b ++ [S; E]) K) (tensor_of (b ++ [S; Ev]) V) true None 0 scale [] = Ok (Some (tensor_of (b ++ [L; Ev]) G))
  /\ sdpAttention lo M (tensor_of (b ++ [L; E]) Q) (tensor_of (b ++ [S; E]) K') (tensor_of (b ++ [S; Ev]) V') true None 0 scale [] = Ok (Some (tensor_of (b ++ [L; Ev]) G'))
  /\ forall be i e, valid b be -> (i <= i0)%nat -> G' (be ++ [i; e]) = G (be ++ [i; e]).
Proof.
  intros lo M b L S E Ev Q K V K' V' scale i0 HM Pb HL HS HE HEv H. destruct (attention_sees b L S HS) as (_ & HV & _ & HF).
  destruct (attention_value_partial lo M b L S E Ev Q K V Past scale 0 [] HM Pb HL HS HE HEv HF HV (Rle_refl 0)) as (G & E1 & H1).
  destruct (attention_value_partial lo M b L S E Ev Q K' V' Past scale 0 [] HM Pb HL HS HE HEv HF HV (Rle_refl 0)) as (G' & E2 & H2).
  exists G, G'. split; [exact E1|]. split; [exact E2|]. intros be i e Vb Hi. rewrite H1, H2 by auto. apply attention_hidden_irrelevant.
  intros j Hj N. cbn in N. destruct (Nat.leb_spec j i); [|congruence]. split; intros; apply H; lia.
Qed.

(** A query that sees nothing: the result contains NaN. *)
Theorem attention_blind_query_nan : forall lo M b L S E Q K value v scale p draws be i,
  0 <= M -> positive b -> (0 < L)%nat -> (0 < S)%nat -> (0 < E)%nat -> mask_fits v (b ++ [L; S]) ->
  valid b be -> (i < L)%nat -> (forall j, (j < S)%nat -> bias_at v be i j = None) ->
  sdpAttention lo M (tensor_of (b ++ [L; E]) Q) (tensor_of (b ++ [S; E]) K) value (is_causal v) (mask_of v) p scale draws = Ok None.
Proof.
  intros lo M b L S E Q K value v scale p draws be i HM Pb HL HS HE HF Vb Hi HB. rewrite head_ok; auto.
  replace (seqopt _) with (@None (list R)); auto. symmetry.
  destruct (seqopt (tdata (tensor_of (b ++ [L; S]) (on3 (length b) (weight_or_nan S E Q K v scale))))) as [l|] eqn:X; auto.
  exfalso. assert (V2 : valid (b ++ [L; S]) (be ++ [i; 0%nat])) by (apply valid2; auto).
  pose proof (rd_of_idx (b ++ [L; S]) (on3 (length b) (weight_or_nan S E Q K v scale)) _ V2) as HR. unfold rd in HR.
  assert (NaN : on3 (length b) (weight_or_nan S E Q K v scale) (be ++ [i; 0%nat]) = None).
  { rewrite on3_at by auto. unfold weight_or_nan. rewrite (Rsum_zero (importance (factor E scale) E Q K v be i)).
    - destruct (Req_EM_T 0 0); [reflexivity|lra].
    - intros j Hj. apply in_seq in Hj. unfold importance. rewrite HB by lia. reflexivity. }
  rewrite NaN in HR. revert X HR. generalize (tdata (tensor_of (b ++ [L; S]) (on3 (length b) (weight_or_nan S E Q K v scale)))) (ravel (b ++ [L; S]) (be ++ [i; 0%nat])).
  clear. intros d. revert l. induction d as [|x d IH]; intros l n X HR; [destruct n; discriminate HR|]. cbn [seqopt] in X. destruct x as [x|]; cbn [obind] in X; [|discriminate X].
  destruct (seqopt d) as [l'|] eqn:Ed; cbn [obind] in X; [|discriminate X]. destruct n as [|n]; cbn in HR; [discriminate HR|]. eapply IH; eauto.
Qed.
(** What is rejected: a mask together with the causal flag, a mask that does not
    fit, keys of another size than the queries. *)
Theorem attention_rejects_two_masks : forall lo M b L S E Q K value m scale p draws,
  positive b -> (0 < L)%nat -> (0 < S)%nat ->
  sdpAttention lo M (tensor_of (b ++ [L; E]) Q) (tensor_of (b ++ [S; E]) K) value true (Some m) p scale draws = Fail.
Proof.
  intros lo M b L S E Q K value m scale p draws Pb HL HS. unfold sdpAttention.
  change (tshape (tensor_of (b ++ [L; E]) Q)) with (b ++ [L; E]). change (tshape (tensor_of (b ++ [S; E]) K)) with (b ++ [S; E]).
  rewrite (proj1 (size_end b L E)), (proj2 (size_end b L E)), (proj1 (size_end b S E)). cbn [ofOption rbind].
  destruct (transpose_last b S E K) as (KT & -> & _). cbn [rbind]. rewrite matmul_same by auto. cbn [rbind]. cbv zeta.
  assert (PW : positive (b ++ [L; S])) by (apply positive_app; split; auto; repeat constructor; auto).
  set (sc := match scale with Some s => s | None => _ end). change (mkT [] [sc]) with (tensor_of [] (fun _ : list nat => sc)).
  rewrite inplace_two by (first [apply Forall_nil | apply PW | apply scalar_fits; apply PW]). reflexivity.
Qed.
Theorem attention_rejects_mask_shape : forall lo M b L S E Q K value sh Mk scale p draws,
  positive b -> (0 < L)%nat -> (0 < S)%nat -> positive sh -> ~ is_broadcast [b ++ [L; S]; sh] (b ++ [L; S]) ->
  sdpAttention lo M (tensor_of (b ++ [L; E]) Q) (tensor_of (b ++ [S; E]) K) value false (Some (BoolMask (tensor_of sh Mk))) p scale draws = Fail.
Proof.
  intros lo M b L S E Q K value sh Mk scale p draws Pb HL HS Psh N. unfold sdpAttention.
  change (tshape (tensor_of (b ++ [L; E]) Q)) with (b ++ [L; E]). change (tshape (tensor_of (b ++ [S; E]) K)) with (b ++ [S; E]).
  rewrite (proj1 (size_end b L E)), (proj2 (size_end b L E)), (proj1 (size_end b S E)). cbn [ofOption rbind].
  destruct (transpose_last b S E K) as (KT & -> & _). cbn [rbind]. rewrite matmul_same by auto. cbn [rbind]. cbv zeta.
  assert (PW : positive (b ++ [L; S])) by (apply positive_app; split; auto; repeat constructor; auto).
  set (sc := match scale with Some s => s | None => _ end). change (mkT [] [sc]) with (tensor_of [] (fun _ : list nat => sc)).
  rewrite inplace_two by (first [apply Forall_nil | apply PW | apply scalar_fits; apply PW]). cbn [rbind].
  unfold attnBias. rewrite unary_not. cbn [ofOption rbind]. unfold zeros. change (tshape (tensor_of sh Mk)) with sh. rewrite repeat_of, MaskProofs.masked_inplace. cbn [rbind].
  rewrite tmap_of. unfold elementwise_inplace. cbn [map operand tshape tensor_of].
  destruct (broadcastShape [b ++ [L; S]; sh]) as [r|] eqn:EB; [|reflexivity].
  unfold list_eqb. destruct (list_eq_dec Nat.eq_dec r (b ++ [L; S])) as [->|]; [|reflexivity].
  exfalso. apply N. apply broadcastShape_iff; auto.
Qed.
Theorem attention_rejects_key_size : forall lo M b L S E E' Q K value causal mask scale p draws, E <> E' ->
  sdpAttention lo M (tensor_of (b ++ [L; E]) Q) (tensor_of (b ++ [S; E']) K) value causal mask p scale draws = Fail.
Proof.
  intros lo M b L S E E' Q K value causal mask scale p draws N. unfold sdpAttention.
  change (tshape (tensor_of (b ++ [L; E]) Q)) with (b ++ [L; E]). change (tshape (tensor_of (b ++ [S; E']) K)) with (b ++ [S; E']).
  rewrite (proj1 (size_end b L E)), (proj2 (size_end b L E)), (proj1 (size_end b S E')). cbn [ofOption rbind].
  destruct (transpose_last b S E' K) as (KT & -> & _). cbn [rbind].
  pose proof (matmul_rejects_inner_size (K := Rring) b b (tensor_of (b ++ [L; E]) Q) (tensor_of (b ++ [E'; S]) KT) false false L E E' S eq_refl eq_refl N) as H.
  cbv zeta. match goal with |- rbind ?x _ = _ => replace x with (@Fail (tensor R)) by (symmetry; exact H) end. reflexivity.
Qed.

(** Refuted: "each weight is dropped with probability [dropoutP]".  With one query
    and one key the result is 0 with probability 1 - dropoutP. *)
Theorem attention_dropout_refuted : forall lo M q k x p, 0 <= M -> x <> 0 -> 0 < p < 1 ->
  expected (dropoutOpParam p) 1 (fun draws =>
    match sdpAttention lo M (mkT [1; 1]%nat [q]) (mkT [1; 1]%nat [k]) (mkT [1; 1]%nat [x]) false None p None draws with
    | Ok (Some r) => if Req_EM_T (nth 0 (tdata r) 0) 0 then 1 else 0
    | _ => 0
    end) = 1 - p.
Proof.
  intros lo M q k x p HM Hx Hp.
  assert (A : forall d, match sdpAttention lo M (mkT [1; 1]%nat [q]) (mkT [1; 1]%nat [k]) (mkT [1; 1]%nat [x]) false None p None [d] with
    | Ok (Some r) => if Req_EM_T (nth 0 (tdata r) 0) 0 then 1 else 0 | _ => 0 end = if d then 0 else 1).
  { intro d. destruct (attention_sees [] 1 1 ltac:(lia)) as (HV & _ & HF & _).
    pose proof (attention_dropped lo M [] 1 1 1 (fun _ => q) (fun _ => k) Everything None HM (Forall_nil _)
      ltac:(lia) ltac:(lia) HF HV 1 (fun _ => x) ltac:(lia) p (fun _ => d) (proj1 Hp)) as H.
    destruct (attention_weights [] 1 1 1 (fun _ => q) (fun _ => k) Everything (factor 1 None) [] 0 HV (Forall2_nil _) ltac:(lia)) as [W _].
    cbn [seq] in W. rewrite sum_cons, sum_nil in W. change (@add Rring) with Rplus in W. change (@zero Rring) with 0 in W.
    change (mkT [1; 1]%nat [q]) with (tensor_of ([] ++ [1; 1])%nat (fun _ : list nat => q)).
    change (mkT [1; 1]%nat [k]) with (tensor_of ([] ++ [1; 1])%nat (fun _ : list nat => k)).
    change (mkT [1; 1]%nat [x]) with (tensor_of ([] ++ [1; 1])%nat (fun _ : list nat => x)).
    change (map (fun _ => d) (indices ([] ++ [1; 1])%nat)) with [d] in H. cbn [is_causal mask_of] in H. rewrite H.
    cbn [tdata tensor_of map nth]. change (indices ([] ++ [1; 1])%nat) with [[0; 0]%nat]. cbn [map nth on3 firstn length seq]. unfold on3. cbn [firstn length nth seq].
    rewrite sum_cons, sum_nil. change (@add Rring) with Rplus. change (@zero Rring) with 0.
    replace (weight (factor 1 None) 1 1 (fun _ => q) (fun _ => k) Everything [] 0 0) with 1 by lra.
    destruct d; destruct (Req_EM_T _ 0) as [Z|Z]; auto; exfalso.
    - assert (1 / p * x <> 0) by (apply Rmult_integral_contrapositive; split; [apply Rgt_not_eq; apply Rdiv_lt_0_compat; lra|auto]). lra.
    - apply Z. ring. }
  rewrite (expected_ext _ _ _ (fun d => (fun b : bool => if b then 0 else 1) (nth 0 d false))).
  - unfold dropoutOpParam. rewrite (expected_bit p (fun b : bool => if b then 0 else 1)) by lia. ring.
  - intros [|d [|]] Hd; try discriminate. cbn [nth]. apply A.
Qed.

(** A 2 x 2 case: hidden key 1 gets weight 0, so query 0 returns value 0. *)
Example attention_case : let v := Past in mask_fits v ([] ++ [2; 2]%nat) /\ sees_something [] 2 2 v
  /\ bias_at v [] 0 1 = None /\ bias_at v [] 1 1 = Some 0
  /\ mask_fits (Allowed [1; 2]%nat (fun idx => nth 1 idx 0%nat =? 0)%nat) ([3] ++ [4; 2])%nat.
Proof.
  cbv zeta. destruct (attention_sees [] 2 2 ltac:(lia)) as (_ & H & _ & _). repeat split; auto; try (repeat constructor; fail).
  - intros s0 [<-|[<-|[]]]; auto. destruct p as [|[|p]]; cbn; auto. left. destruct p; reflexivity.
  - right. exists ([3] ++ [4; 2])%nat. simpl. auto.
Qed.

Print Assumptions attention_value_partial.
Print Assumptions attention_sees.
Print Assumptions attention_weights.
Print Assumptions attention_is_mean.
Print Assumptions attention_hidden_irrelevant.
Print Assumptions attention_causal_partial.
Print Assumptions attention_blind_query_nan.
Print Assumptions attention_rejects_two_masks.
Print Assumptions attention_rejects_mask_shape.
Print Assumptions attention_rejects_key_size.
Print Assumptions attention_dropout_refuted.
