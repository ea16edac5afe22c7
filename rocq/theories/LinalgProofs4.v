From Coq Require Import ZArith List Bool Arith Lia Permutation.
From Verif Require Import ShapeModel ShapeSpec ShapeProofs TensorModel TensorSpec TensorLemmas BcastModel BcastSpec BcastProofs BcastProofs2 BufModel BufProofs
  PermModel PermProofs PermProofs2 CutModel CutSpec CutProofs CutProofs2 IndexProofs ReduceModel ReduceSpec ReduceProofs ReduceProofs2
  LinalgModel LinalgSpec LinalgProofs LinalgProofs2 LinalgProofs3.
Import ListNotations.

(** * Reading a tensor with another shape *)
Definition revidx (sh rsh idx : list nat) : list nat := offsetToIndices sh (ravel rsh idx).
Lemma revidx_valid sh rsh idx : numel rsh = numel sh -> valid rsh idx -> valid sh (revidx sh rsh idx).
Proof. intros E V. apply o2i_valid. rewrite <- E. apply ravel_lt; auto. Qed.
Lemma reshape_of {A} sh rsh (F : list nat -> A) : numel rsh = numel sh -> mkT rsh (tdata (tensor_of sh F)) = tensor_of rsh (fun idx => F (revidx sh rsh idx)).
Proof.
  intro E. rewrite <- (viewAs_data (tensor_of sh F)) by (auto using of_wf). apply (viewAs_of _ _ _ _ (revidx rsh sh)); auto.
  intros idx V. unfold revidx. pose proof (ravel_lt _ _ V) as L. rewrite ravel_o2i by lia. split; auto. split.
  - apply o2i_valid. lia.
  - rewrite o2i_ravel; auto.
Qed.
Lemma sum_reshape {K : cring} sh rsh (H : list nat -> K) : numel rsh = numel sh -> sum (fun idx => H (revidx sh rsh idx)) (indices rsh) = sum H (indices sh).
Proof.
  intro E. rewrite <- (indices_seq sh), <- (indices_seq rsh), !sum_map, E. apply sum_ext. intros k Hk. apply in_seq in Hk.
  unfold revidx. rewrite ravel_o2i; auto. lia.
Qed.
Lemma rev_rev sh rsh idx : numel rsh = numel sh -> valid rsh idx -> revidx rsh sh (revidx sh rsh idx) = idx.
Proof.
  intros E V. unfold revidx. pose proof (ravel_lt _ _ V). rewrite ravel_o2i by lia. apply o2i_ravel; auto.
Qed.

Lemma viewZ_left {A} (t : tensor A) d q : twf t -> d <> 0 -> tnumel t = d * q -> viewZ t [Z.of_nat d; -1]%Z = mkT [d; q] (tdata t).
Proof.
  intros W Hd E. unfold viewZ. cbv zeta.
  assert (NV : vnumel (newView (map Z.of_nat (tshape t)) (tdata t)) = Z.of_nat (d * q)).
  { cbn [newView vnumel]. rewrite numelZ_prod, prod_of_nat. f_equal. exact E. }
  set (v := newView _ _) in *. assert (R : reshape_ v [Z.of_nat d; -1]%Z = mkView [Z.of_nat d; Z.of_nat q] (stridesZ [Z.of_nat d; Z.of_nat q]) (vnumel v) (vdata v)).
  { unfold reshape_. cbn [scan]. rewrite (proj2 (Z.eqb_neq (Z.of_nat d) (-1))) by lia. change (-1 =? -1)%Z with true. cbv iota.
    rewrite NV. rewrite Z.mul_1_l. rewrite (proj2 (Z.eqb_neq (Z.of_nat d) 0)) by lia. cbn [orb].
    rewrite Nat2Z.inj_mul, (Z.mul_comm (Z.of_nat d)), Z.rem_mul, Z.quot_mul by lia. change (0 =? 0)%Z with true; cbn [negb set_nth].
    rewrite numelZ_prod. cbn [prod fold_right]. rewrite (proj2 (Z.eqb_eq _ _)) by lia. auto. }
  rewrite R. cbn [vshape vdata map]. rewrite !Nat2Z.id. reflexivity.
Qed.
Lemma viewZ_right {A} (t : tensor A) d q : twf t -> d <> 0 -> tnumel t = q * d -> viewZ t [-1; Z.of_nat d]%Z = mkT [q; d] (tdata t).
Proof.
  intros W Hd E. unfold viewZ. cbv zeta.
  assert (NV : vnumel (newView (map Z.of_nat (tshape t)) (tdata t)) = Z.of_nat (q * d)).
  { cbn [newView vnumel]. rewrite numelZ_prod, prod_of_nat. f_equal. exact E. }
  set (v := newView _ _) in *. assert (R : reshape_ v [-1; Z.of_nat d]%Z = mkView [Z.of_nat q; Z.of_nat d] (stridesZ [Z.of_nat q; Z.of_nat d]) (vnumel v) (vdata v)).
  { unfold reshape_. cbn [scan]. change (-1 =? -1)%Z with true. cbv iota. rewrite (proj2 (Z.eqb_neq (Z.of_nat d) (-1))) by lia. 
    rewrite NV. rewrite Z.mul_1_l. rewrite (proj2 (Z.eqb_neq (Z.of_nat d) 0)) by lia. cbn [orb].
    rewrite Nat2Z.inj_mul, Z.rem_mul, Z.quot_mul by lia. change (0 =? 0)%Z with true; cbn [negb set_nth].
    rewrite numelZ_prod. cbn [prod fold_right]. rewrite (proj2 (Z.eqb_eq _ _)) by lia. auto. }
  rewrite R. cbn [vshape vdata map]. rewrite !Nat2Z.id. reflexivity.
Qed.
Lemma of_numel {A} sh (F : list nat -> A) : tnumel (tensor_of sh F) = numel sh.
Proof. reflexivity. Qed.
Lemma inner_reshape {K : cring} sh rsh (F G : list nat -> K) : numel rsh = numel sh ->
  inner rsh (fun idx => F (revidx sh rsh idx)) (fun idx => G (revidx sh rsh idx)) = inner sh F G.
Proof. intro E. unfold inner. apply (sum_reshape sh rsh (fun i => mul (F i) (G i))); auto. Qed.
Lemma inner_reshape_l {K : cring} sh rsh (F G : list nat -> K) : numel rsh = numel sh ->
  inner rsh (fun idx => F (revidx sh rsh idx)) G = inner sh F (fun idx => G (revidx rsh sh idx)).
Proof.
  intro E. rewrite <- (inner_reshape sh rsh F) by auto. apply sum_ext. intros idx Hi. apply indices_in in Hi. rewrite rev_rev; auto.
Qed.
Lemma indices_1 m : indices [m] = map (fun i => [i]) (seq 0 m).
Proof. cbn [indices]. generalize (seq 0 m). induction l as [|a l IH]; auto. Qed.
Lemma sum_cons_dim {K : cring} d sh (f : list nat -> K) : sum f (indices (d :: sh)) = sum (fun i => sum (fun q => f (i :: q)) (indices sh)) (seq 0 d).
Proof. cbn [indices]. rewrite sum_flat_map. apply sum_ext. intros i _. apply sum_map. Qed.
Lemma sum_nil_dim {K : cring} (f : list nat -> K) : sum f (indices []) = f [].
Proof. cbn [indices]. rewrite sum_cons, sum_nil. destruct (cring_ring K). rewrite Radd_comm. apply Radd_0_l. Qed.
Lemma sum_2 {K : cring} a b (f : nat -> nat -> K) : sum (on2 zero f) (indices [a; b]) = sum (fun i => sum (f i) (seq 0 b)) (seq 0 a).
Proof. rewrite sum_cons_dim. apply sum_ext. intros i _. rewrite sum_cons_dim. apply sum_ext. intros j _. apply sum_nil_dim. Qed.

(** * Convolution *)
Section Conv.
Context {K : cring} (n c h w oc kh kw : nat) (stride padding : dim2).
Add Ring Kr : (cring_ring K).
Let kernel := D2 kh kw.
Let oh := positions h kh (dh stride) (dh padding).
Let ow := positions w kw (dw stride) (dw padding).
Let img := [n; c; h; w].
Let wsh := [oc; c; kh; kw].
Let R := n * (oh * ow).
Let Q := c * kh * kw.
Hypothesis HW : windows h w kernel stride padding.
Hypothesis Hoc : oc <> 0.

Let colF (X : list nat -> K) (idx : list nat) : K := fetch X (source h w stride padding (untarget n c h w kernel stride padding idx)).
Let Wm (W : list nat -> K) (idx : list nat) : K := W (revidx wsh [oc; Q] idx).
Definition outF (X W : list nat -> K) : list nat -> K := on2 zero (product (fun i p => colF X [i; p]) (fun p j => Wm W [j; p]) Q).

Lemma wsh_numel : numel [oc; Q] = numel wsh.
Proof. unfold wsh, Q. rewrite !numel_cons, numel_nil. ring. Qed.
Lemma conv_matmul X W : matmul (tensor_of [R; Q] (colF X)) (viewZ (tensor_of wsh W) [Z.of_nat oc; -1]%Z) false true = Ok (tensor_of [R; oc] (outF X W)).
Proof.
  rewrite (viewZ_left _ oc Q); [|apply of_wf|auto|rewrite of_numel, <- wsh_numel, !numel_cons, numel_nil; lia].
  rewrite (reshape_of wsh [oc; Q]) by apply wsh_numel. apply (matmul_flat false true R Q oc).
Qed.
(** The value at a matrix position is the correlation. *)
Lemma outF_value X W b y x o : b < n -> y < oh -> x < ow -> o < oc ->
  outF X W [(b * oh + y) * ow + x; o] = correlation c h w kh kw stride padding X W b o y x.
Proof.
  intros Hb Hy Hx Ho. unfold outF. cbn [on2]. unfold product, correlation.
  assert (EQ : numel [c; kh; kw] = Q) by (unfold Q; rewrite !numel_cons, numel_nil; ring).
  rewrite <- EQ, <- seq_indices, sum_map. apply sum_ext. intros q Hq. apply indices_in in Hq. pose proof Hq as V. apply valid3 in V.
  destruct V as (ch & i & j & -> & Hc & Hi & Hj).
  assert (ER : ravel [c; kh; kw] [ch; i; j] = col kernel ch i j) by (unfold col; rewrite !ravel_cons, ravel_nil, !numel_cons, numel_nil; cbn [dh dw kernel]; ring).
  rewrite ER. f_equal.
  - unfold colF. rewrite <- source_pixel. do 2 f_equal.
    change [(b * oh + y) * ow + x; col kernel ch i j] with (target h w kernel stride padding [b; ch; y; x; i; j]).
    apply untarget_target. repeat constructor; auto.
  - unfold Wm, revidx. rewrite <- (o2i_ravel wsh [o; ch; i; j]) by (repeat constructor; auto). do 2 f_equal.
    unfold col. unfold wsh, Q. rewrite !ravel_cons, ravel_nil, !numel_cons, numel_nil. cbn [dh dw kernel]. ring.
Qed.

Definition biasF (B : option (list nat -> K)) (o : nat) : K := match B with None => zero | Some B => B [o] end.
Let outB (X W : list nat -> K) B (idx : list nat) : K := add (outF X W idx) (biasF B (nth 1 idx 0)).

Lemma conv_flat X W (B : option (list nat -> K)) : (B = None \/ R <> 0) ->
  conv2d (tensor_of img X) (tensor_of wsh W) (option_map (tensor_of [oc]) B) stride padding
  = Ok (mkT [n; oc; oh; ow] (tdata (tensor_of [R; oc] (outB X W B)))).
Proof.
  intro HR. unfold conv2d. change (tshape (tensor_of img X)) with [n; c; h; w]. change (tshape (tensor_of wsh W)) with [oc; c; kh; kw]. cbv iota beta.
  rewrite Nat.eqb_refl. cbn [negb]. fold kernel. rewrite geometry_4 by auto. cbn [rbind dh dw kernel]. fold oh ow.
  unfold img. rewrite im2col_exact by auto. fold oh ow.
  change (tensor_of _ _) with (tensor_of [R; Q] (colF X)) at 1. cbn [rbind]. rewrite conv_matmul. cbn [rbind].
  assert (EN : numel [n; oc; oh; ow] = numel [R; oc]) by (unfold R; rewrite !numel_cons, numel_nil; ring).
  destruct B as [B|]; cbn [option_map].
  - destruct HR as [HR|HR]; [discriminate|]. change (tshape (tensor_of [oc] B)) with [oc]. unfold list_eqb. destruct (list_eq_dec Nat.eq_dec [oc] [oc]); [|congruence].
    pose proof (inplace_correct (fun l : list K => match l with [x; y] => add x y | _ => zero end) [R; oc] (outF X W) [Some ([oc], B)]) as IP.
    cbn [map option_map fst snd shp] in IP. rewrite IP; clear IP.
    + cbn [rbind]. rewrite viewAs_data; [|apply of_wf|rewrite EN; reflexivity]. unfold tensor_of. cbn [tdata]. do 2 f_equal. apply map_ext_in. intros idx Hi.
      apply indices_in, valid2 in Hi. destruct Hi as (r & o & -> & Hr & Ho). unfold outB. cbn [nth biasF]. do 2 f_equal. unfold bidx. cbn [length Nat.sub skipn combine map fst snd].
      destruct (Nat.eqb_spec oc 1); auto. f_equal. lia.
    + repeat constructor; cbn [shp fst]; auto; lia.
    + apply broadcastShape_iff; [repeat constructor; cbn [shp fst]; auto; lia|]. split; [reflexivity|].
      intros [|[|p]] Hp; cbn [length] in Hp; try lia; unfold from_right; cbn [rev app nth shp fst]; (split; [intros s [<-|[<-|[]]]; cbn; auto|right; exists [R; oc]; cbn; auto]).
  - cbn [rbind]. rewrite viewAs_data; [|apply of_wf|rewrite EN; reflexivity]. unfold tensor_of. cbn [tdata]. do 2 f_equal. apply map_ext_in. intros idx Hi.
    unfold outB. cbn [biasF]. ring.
Qed.

(** The same over [n; oh; ow; oc]. *)
Lemma conv_nhwc X W (B : option (list nat -> K)) : (B = None \/ R <> 0) ->
  conv2d (tensor_of img X) (tensor_of wsh W) (option_map (tensor_of [oc]) B) stride padding
  = Ok (mkT [n; oc; oh; ow] (tdata (tensor_of [n; oh; ow; oc] (on4 zero (fun b y x o => add (correlation c h w kh kw stride padding X W b o y x) (biasF B o)))))).
Proof.
  intro HR. rewrite conv_flat by auto. do 2 f_equal.
  assert (E : numel [n; oh; ow; oc] = numel [R; oc]) by (unfold R; rewrite !numel_cons, numel_nil; ring).
  change (tdata (mkT [n; oh; ow; oc] (tdata (tensor_of [R; oc] (outB X W B)))) = tdata (tensor_of [n; oh; ow; oc] (on4 zero (fun b y x o => add (correlation c h w kh kw stride padding X W b o y x) (biasF B o))))).
  f_equal. rewrite reshape_of by auto. apply tensor_of_ext. intros idx V. apply valid4 in V. destruct V as (b & y & x & o & -> & Hb & Hy & Hx & Ho). cbn [on4].
  replace (revidx [R; oc] [n; oh; ow; oc] [b; y; x; o]) with [(b * oh + y) * ow + x; o].
  - unfold outB. rewrite outF_value by auto. reflexivity.
  - symmetry. unfold revidx. rewrite <- (o2i_ravel [R; oc] [(b * oh + y) * ow + x; o]).
    + f_equal. rewrite !ravel_cons, ravel_nil, !numel_cons, numel_nil. ring.
    + repeat constructor; auto. unfold R. assert (b * oh + y < n * oh) by nia. nia.
Qed.

(** * Gradients *)
Let gW (G : list nat -> K) (idx : list nat) : K := G (revidx [n; oc; oh; ow] [R; oc] idx).
Lemma osh_numel : numel [R; oc] = numel [n; oc; oh; ow].
Proof. unfold R. rewrite !numel_cons, numel_nil. ring. Qed.
Lemma gradW_view G : viewZ (tensor_of [n; oc; oh; ow] G) [-1; Z.of_nat oc]%Z = tensor_of [R; oc] (gW G).
Proof.
  rewrite (viewZ_right _ oc R); [|apply of_wf|auto|rewrite of_numel, <- osh_numel, !numel_cons, numel_nil; ring].
  apply reshape_of. apply osh_numel.
Qed.
Definition dInput (W G : list nat -> K) : list nat -> K :=
  gathered n c h w kernel stride padding (on2 zero (product (fun i p => gW G [i; p]) (fun p j => Wm W [p; j]) oc)).
Definition dWm (X G : list nat -> K) (o q : nat) : K := product (fun i p => colF X [p; i]) (fun p j => gW G [p; j]) R q o.
Definition dWeight (X G : list nat -> K) (idx : list nat) : K := on2 zero (dWm X G) (revidx [oc; Q] wsh idx).
Definition dBias (G : list nat -> K) (idx : list nat) : K := sum (fun r => gW G [r; nth 0 idx 0]) (seq 0 R).

Lemma backward_exact X W G :
  conv2dBackward (tensor_of img X) (tensor_of wsh W) (tensor_of [n; oc; oh; ow] G) stride padding
  = Ok (tensor_of img (dInput W G), tensor_of wsh (dWeight X G), tensor_of [oc] (dBias G)).
Proof.
  unfold conv2dBackward. change (tshape (tensor_of wsh W)) with [oc; c; kh; kw]. cbv iota beta zeta. fold kernel.
  rewrite gradW_view. rewrite (viewZ_left _ oc Q); [|apply of_wf|auto|rewrite of_numel, <- wsh_numel, !numel_cons, numel_nil; lia].
  rewrite (reshape_of wsh [oc; Q]) by apply wsh_numel. rewrite (matmul_flat false false R oc Q). cbn [rbind].
  change (tshape (tensor_of img X)) with img. unfold img. 
  pose proof (col2im_exact (K := K) n c h w kernel stride padding HW) as C2. cbn [dh dw kernel] in C2. fold oh ow in C2. fold R Q in C2. rewrite C2. clear C2. cbn [rbind].
  rewrite im2col_exact by auto. cbn [dh dw kernel]. fold oh ow R Q. cbn [rbind].
  rewrite (matmul_flat true false Q R oc). cbn [rbind]. rewrite permuteAll_correct. cbn [rbind rev app].
  rewrite (sumOnDims_correct [R; oc] [0%Z] [true; false]); [|discriminate|discriminate|].
  2: { split; auto. unfold dim_is. split.
       - intros d [<-|[]]. exists 0. cbn. lia.
       - intros [|[|[|k]]]; cbn; split; try discriminate; intros; auto; [exists 0%Z; split; auto; lia| | |]; destruct H as (d & [<-|[]] & ? & ?); lia. }
  cbn [rbind]. do 2 f_equal; [f_equal|].
  - rewrite viewAs_data; [|apply of_wf|rewrite of_numel; symmetry; apply wsh_numel]. rewrite reshape_of by (symmetry; apply wsh_numel).
    apply tensor_of_ext. intros idx V. unfold dWeight. fold wsh. pose proof (revidx_valid [oc; Q] wsh idx (eq_sym wsh_numel) V) as V2.
    apply valid2 in V2. destruct V2 as (o & q & -> & Ho & Hq). reflexivity.
  - change (reduced_shape [true; false] false [R; oc]) with [oc]. apply tensor_of_ext. intros idx V. unfold dBias. inversion V as [|o ? idx' ? Ho V']. inversion V'. subst. cbn [nth].
    unfold group. rewrite sum_filter, sum_cons_dim. apply sum_ext. intros r Hr. rewrite sum_cons_dim.
    transitivity (sum (fun j => if j =? o then gW G [r; j] else zero) (seq 0 oc)); [|apply (sum_seq_single (fun j => gW G [r; j])); auto].
    apply sum_ext. intros j Hj. rewrite sum_nil_dim. change (reduced_idx [true; false] false [r; j]) with [j].
    destruct (same_idx [j] [o]) eqn:E, (Nat.eqb_spec j o); auto.
    + apply same_idx_true in E. congruence.
    + subst. rewrite (proj2 (same_idx_true _ _) eq_refl) in E. discriminate.
Qed.

Lemma inner_2 (f g : nat -> nat -> K) a b : inner [a; b] (on2 zero f) (on2 zero g) = sum (fun i => sum (fun j => mul (f i j) (g i j)) (seq 0 b)) (seq 0 a).
Proof.
  unfold inner. rewrite <- sum_2. apply sum_ext. intros idx Hi. apply indices_in, valid2 in Hi. destruct Hi as (i & j & -> & _). reflexivity.
Qed.
Lemma on2_eta a b (F : list nat -> K) G : inner [a; b] F G = inner [a; b] (on2 zero (fun i j => F [i; j])) (on2 zero (fun i j => G [i; j])).
Proof. unfold inner. apply sum_ext. intros idx Hi. apply indices_in, valid2 in Hi. destruct Hi as (i & j & -> & _). reflexivity. Qed.

Lemma grad_input X W G : inner [R; oc] (outF X W) (gW G) = inner img X (dInput W G).
Proof.
  unfold dInput, img. pose proof (adjoint n c h w kernel stride padding X) as A. cbn [dh dw kernel] in A. fold oh ow R Q in A. rewrite <- A by auto. clear A.
  rewrite (on2_eta R oc), (on2_eta R Q), !inner_2. cbn [on2]. apply sum_ext. intros r _. unfold outF. cbn [on2]. unfold product.
  transitivity (sum (fun o => sum (fun q => mul (mul (colF X [r; q]) (Wm W [o; q])) (gW G [r; o])) (seq 0 Q)) (seq 0 oc)).
  { apply sum_ext. intros o _. rewrite sum_mul_r. auto. }
  rewrite sum_swap. apply sum_ext. intros q _. rewrite <- sum_mul_l. apply sum_ext. intros o _. fold (colF X [r; q]). unfold Wm. ring.
Qed.
Lemma grad_weight X W G : inner [R; oc] (outF X W) (gW G) = inner wsh W (dWeight X G).
Proof.
  unfold dWeight. change (fun idx => on2 zero (dWm X G) (revidx [oc; Q] wsh idx)) with (fun idx => (on2 zero (dWm X G)) (revidx [oc; Q] wsh idx)).
  rewrite <- (inner_reshape_l wsh [oc; Q]) by apply wsh_numel. fold (Wm W).
  rewrite (on2_eta R oc), (on2_eta oc Q), !inner_2. cbn [on2]. rewrite sum_swap. apply sum_ext. intros o _. unfold outF. cbn [on2]. unfold dWm, product.
  transitivity (sum (fun r => sum (fun q => mul (mul (colF X [r; q]) (Wm W [o; q])) (gW G [r; o])) (seq 0 Q)) (seq 0 R)).
  { apply sum_ext. intros r _. rewrite sum_mul_r. auto. }
  rewrite sum_swap. apply sum_ext. intros q _. fold (Wm W [o; q]). rewrite <- sum_mul_l. apply sum_ext. intros r _. ring.
Qed.
Lemma grad_bias X W B G : inner [R; oc] (outB X W (Some B)) (gW G) = add (inner [R; oc] (outF X W) (gW G)) (inner [oc] B (dBias G)).
Proof.
  unfold inner at 3. rewrite indices_1, sum_map. unfold dBias. cbn [nth].
  transitivity (add (inner [R; oc] (outF X W) (gW G)) (sum (fun r => sum (fun o => mul (B [o]) (gW G [r; o])) (seq 0 oc)) (seq 0 R))).
  - rewrite (on2_eta R oc (outB _ _ _)), (on2_eta R oc (outF _ _)), !inner_2. rewrite <- sum_add. apply sum_ext. intros r _. rewrite <- sum_add. apply sum_ext. intros o _. unfold outB. cbn [nth biasF]. ring.
  - f_equal. rewrite sum_swap. apply sum_ext. intros o _. rewrite sum_mul_l. auto.
Qed.
(** A flat tensor read in the output shape. *)
Lemma out_inner (F G : list nat -> K) : inner [n; oc; oh; ow] (fun idx => F (revidx [R; oc] [n; oc; oh; ow] idx)) G = inner [R; oc] F (gW G).
Proof. apply inner_reshape_l. symmetry. apply osh_numel. Qed.
Lemma conv_of X W (B : option (list nat -> K)) : (B = None \/ R <> 0) ->
  conv2d (tensor_of img X) (tensor_of wsh W) (option_map (tensor_of [oc]) B) stride padding
  = Ok (tensor_of [n; oc; oh; ow] (fun idx => outB X W B (revidx [R; oc] [n; oc; oh; ow] idx))).
Proof. intro HR. rewrite conv_flat by auto. f_equal. apply reshape_of. symmetry. apply osh_numel. Qed.
Lemma outB_none X W idx : outB X W None idx = outF X W idx.
Proof. unfold outB. cbn [biasF]. ring. Qed.
Lemma conv_backward X W G : exists dX dW dB : list nat -> K,
  conv2dBackward (tensor_of img X) (tensor_of wsh W) (tensor_of [n; oc; oh; ow] G) stride padding = Ok (tensor_of img dX, tensor_of wsh dW, tensor_of [oc] dB)
  /\ (forall X', exists Y : list nat -> K, conv2d (tensor_of img X') (tensor_of wsh W) None stride padding = Ok (tensor_of [n; oc; oh; ow] Y) /\ inner [n; oc; oh; ow] Y G = inner img X' dX)
  /\ (forall W', exists Y : list nat -> K, conv2d (tensor_of img X) (tensor_of wsh W') None stride padding = Ok (tensor_of [n; oc; oh; ow] Y) /\ inner [n; oc; oh; ow] Y G = inner wsh W' dW)
  /\ (R <> 0 -> forall B, exists Y Y0 : list nat -> K, conv2d (tensor_of img X) (tensor_of wsh W) (Some (tensor_of [oc] B)) stride padding = Ok (tensor_of [n; oc; oh; ow] Y)
       /\ conv2d (tensor_of img X) (tensor_of wsh W) None stride padding = Ok (tensor_of [n; oc; oh; ow] Y0)
       /\ inner [n; oc; oh; ow] Y G = add (inner [n; oc; oh; ow] Y0 G) (inner [oc] B dB)).
Proof.
  exists (dInput W G), (dWeight X G), (dBias G). split; [apply backward_exact|].
  assert (C0 : forall X' W', conv2d (tensor_of img X') (tensor_of wsh W') None stride padding = Ok (tensor_of [n; oc; oh; ow] (fun idx => outF X' W' (revidx [R; oc] [n; oc; oh; ow] idx)))).
  { intros X' W'. pose proof (conv_of X' W' None (or_introl eq_refl)) as E. cbn [option_map] in E. rewrite E. f_equal. apply tensor_of_ext. intros idx _. apply outB_none. }
  split; [|split].
  - intro X'. eexists. split; [apply C0|]. rewrite out_inner. apply grad_input.
  - intro W'. eexists. split; [apply C0|]. rewrite out_inner. apply grad_weight.
  - intros HR B. eexists. eexists. split; [apply (conv_of X W (Some B)); auto|]. split; [apply C0|]. rewrite !out_inner. apply grad_bias.
Qed.
End Conv.
