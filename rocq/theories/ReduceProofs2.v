From Coq Require Import ZArith List Bool Arith Lia Reals Lra.
From Verif Require Import ShapeModel ShapeSpec ShapeProofs TensorModel TensorSpec TensorLemmas BcastModel BcastSpec BcastProofs BcastProofs2 BufModel BufProofs CutSpec CutProofs ReduceModel ReduceSpec ReduceProofs.
Import ListNotations.

Lemma scale_of r sh (F : list nat -> R) : scaleBy r (tensor_of sh F) = tensor_of sh (fun i => (F i * r)%R).
Proof. unfold scaleBy, tensor_of. cbn. rewrite map_map. auto. Qed.
Lemma not_scalar {A} sh (F : list nat -> A) : sh <> [] -> isScalar (tensor_of sh F) = false.
Proof. destruct sh; [congruence|reflexivity]. Qed.
Lemma meanAll_correct sh (F : list nat -> R) : numel sh <> 0 -> meanAll (tensor_of sh F) = Ok (tensor_of [] (fun _ => average F (indices sh))).
Proof.
  intro Hn. destruct sh as [|d sh'].
  - unfold meanAll, tensor_of, average. cbn. do 3 f_equal. rewrite sum_cons, sum_nil. change (@add Rring) with Rplus. change (@zero Rring) with 0%R. field.
  - unfold meanAll. cbn [isScalar tshape tensor_of]. set (sh := d :: sh') in *. fold (tensor_of sh F). rewrite (sumAll_correct (K := Rring)). cbn [rlift].
    rewrite scale_of. f_equal. apply tensor_of_ext. intros i _. unfold average. rewrite indices_length. unfold tnumel. cbn [tshape tensor_of]. unfold Rdiv. rewrite Rmult_1_l. auto.
Qed.
Lemma meanOnDims_correct sh dims ax keep (F : list nat -> R) : sh <> [] -> dims <> [] -> axes_named (length sh) dims ax -> numel sh <> 0 ->
  meanOnDims (tensor_of sh F) dims keep = Ok (tensor_of (reduced_shape ax keep sh) (fun ridx => average F (group ax keep sh ridx))).
Proof.
  intros Hs Hd Ha Hn. assert (La : length ax = length sh) by apply Ha. unfold meanOnDims. rewrite not_scalar by auto.
  destruct sh as [|x sh']; [congruence|]. destruct dims as [|z dims']; [congruence|]. set (sh := x :: sh') in *. set (dims := z :: dims') in *.
  rewrite (sumOnDims_correct (K := Rring) sh dims ax) by auto. cbn [rlift]. rewrite scale_of. f_equal. apply tensor_of_ext. intros r Hr. unfold average.
  rewrite group_length by auto. unfold tnumel. cbn [tshape tensor_of]. rewrite <- (dropped_numel keep sh ax La) in *. rewrite mult_INR.
  assert (INR (numel (reduced_shape ax keep sh)) <> 0%R /\ INR (numel (dropped ax sh)) <> 0%R) as [? ?] by (split; apply not_0_INR; nia).
  field. auto.
Qed.
Lemma meanOnDims_rejects sh dims keep (F : list nat -> R) : sh <> [] -> dims = [] \/ (exists d, In d dims /\ forall k, ~ dim_is (length sh) d k) ->
  meanOnDims (tensor_of sh F) dims keep = Fail.
Proof.
  intros Hs H. unfold meanOnDims. rewrite not_scalar by auto. destruct sh as [|x sh']; [congruence|].
  destruct dims as [|z dims']; auto. rewrite (sumOnDims_rejects (K := Rring)); auto.
Qed.

Lemma squares_correct sh ax keep (F M : list nat -> R) : length ax = length sh ->
  squaresDims (tensor_of sh F) (tdata (tensor_of (reduced_shape ax keep sh) M)) ax keep
  = Some (tensor_of (reduced_shape ax keep sh)
      (fun ridx => sum (K := Rring) (fun idx => (F idx - M ridx) * (F idx - M ridx))%R (group ax keep sh ridx))).
Proof.
  intro Hl. unfold squaresDims, tnumel. cbn [tshape tensor_of]. fold (tensor_of sh F).
  change (getReduceShape sh ax keep) with (reduced_shape ax keep sh). set (rsh := reduced_shape ax keep sh). fold (tensor_of rsh M).
  pose (g := fun k => getReduceDstIndex sh ax k). pose (q := fun k => reduced_idx ax keep (offsetToIndices sh k)).
  assert (Hg : forall k, k < numel sh -> g k = ravel rsh (q k)).
  { intros k Hk. unfold g, getReduceDstIndex. rewrite (dst_spec keep) by (auto; lia). reflexivity. }
  assert (Hv : forall k, k < numel sh -> valid rsh (q k)).
  { intros k Hk. apply reduced_valid; auto. apply o2i_valid; auto. }
  destruct (scatter_add (K := Rring) g (fun k => (F (offsetToIndices sh k) - M (q k)) * (F (offsetToIndices sh k) - M (q k)))%R (fun ret srcIdx =>
           let r := getReduceDstIndex sh ax srcIdx in
           obind (rd (tdata (tensor_of sh F)) srcIdx) (fun x => obind (rd (tdata (tensor_of rsh M)) r) (fun m =>
             let diff := (x - m)%R in
             obind (rd ret r) (fun a => wr ret r (a + diff * diff)%R))))
      (seq 0 (numel sh)) (repeat 0%R (numel rsh))) as (ret & E & L & N).
  - intros r k x Hk Hx. apply in_seq in Hk. cbv zeta. fold (g k). rewrite rd_of by lia. cbn [obind]. rewrite Hg in * by lia.
    rewrite rd_of_idx by (apply Hv; lia). cbn [obind]. unfold rd. rewrite Hx. reflexivity.
  - intros k Hk. apply in_seq in Hk. rewrite Hg by lia. rewrite repeat_length. apply ravel_lt. apply Hv. lia.
  - cbv zeta in E |- *. match goal with |- obind ?a _ = _ => match type of E with ?b = _ => change a with b end end. rewrite E. cbn [obind]. unfold tensor_of.
    match goal with |- Some (mkT _ ?a) = Some (mkT _ ?b) => cut (@eq (list R) a b); [intro Q; rewrite Q; reflexivity|] end.
    rewrite repeat_length in L. assert (L' : @length R ret = numel rsh) by exact L. apply nth_error_ext'. intro k.
    destruct (Nat.lt_ge_cases k (numel rsh)) as [Hk|Hk].
    2: { rewrite (proj2 (nth_error_None _ _)) by lia. symmetry. apply nth_error_None. rewrite map_length, indices_length. auto. }
    assert (Nk := N k 0%R ltac:(rewrite repeat_nth; destruct (Nat.ltb_spec k (numel rsh)); [auto|lia])).
    etransitivity; [exact Nk|]. clear Nk.
    rewrite nth_error_map, indices_nth by auto. simpl option_map. f_equal. unfold group. change 0%R with (@zero Rring). rewrite add_0_l.
    rewrite !sum_filter. rewrite <- indices_seq, sum_map. apply sum_ext. intros i Hi. apply in_seq in Hi.
    rewrite Hg by lia. rewrite <- (ravel_o2i rsh k Hk) at 1. rewrite ravel_eqb; auto.
    + fold (q i). change same_idx with idx_eqb. destruct (idx_eqb (q i) (offsetToIndices rsh k)) eqn:Q; auto. apply idx_eqb_true in Q. rewrite Q. auto.
    + apply Hv; lia.
    + apply o2i_valid; auto.
Qed.
Lemma varFactor_eq n unbiased : (n <> 0)%R -> (unbiased = true -> n - 1 <> 0)%R -> varFactor n unbiased = (/ (if unbiased then n - 1 else n))%R.
Proof. intros H1 H2. unfold varFactor. destruct unbiased; [field; auto|field; auto]. Qed.

Lemma varMean_correct sh unbiased (F : list nat -> R) : numel sh <> 0 -> (unbiased = true -> numel sh <> 1) ->
  varMean (tensor_of sh F) unbiased = Ok (tensor_of [] (fun _ => variance unbiased F (indices sh)), tensor_of [] (fun _ => average F (indices sh))).
Proof.
  intros Hn Hu. unfold varMean. destruct sh as [|d sh'].
  - cbn [isScalar tshape tensor_of]. fold (tensor_of [] F). f_equal. f_equal.
    + unfold tensor_of, variance, average. cbn. do 2 f_equal. rewrite !sum_cons, !sum_nil. change (@add Rring) with Rplus. change (@zero Rring) with 0%R.
      destruct unbiased; [exfalso; apply Hu; auto|field].
    + unfold tensor_of, average. cbn. do 2 f_equal. rewrite sum_cons, sum_nil. change (@add Rring) with Rplus. change (@zero Rring) with 0%R. field.
  - cbn [isScalar tshape tensor_of]. set (sh := d :: sh') in *. fold (tensor_of sh F). rewrite meanAll_correct by auto. cbn [tdata tensor_of indices map rd nth_error obind].
    set (m := average F (indices sh)).
    assert (E : forall l a, (forall i, In i l -> i < numel sh) -> loop l a (fun acc i => obind (rd (tdata (tensor_of sh F)) i) (fun x => let diff := (x - m)%R in Some (acc + diff * diff)%R))
      = Some (a + sum (K := Rring) (fun k => (F (offsetToIndices sh k) - m) * (F (offsetToIndices sh k) - m)) l)%R).
    { induction l as [|i l IH]; intros a H; cbn [loop]; [rewrite sum_nil; change (@zero Rring) with 0%R; f_equal; ring|]. rewrite rd_of by (apply H; left; auto). cbn [obind].
      rewrite IH by (intros; apply H; right; auto). rewrite sum_cons. change (@add Rring) with Rplus. f_equal. cbv zeta. ring. }
    unfold tnumel. cbn [tshape tensor_of]. change (map F (indices sh)) with (tdata (tensor_of sh F)). rewrite E by (intros i Hi; apply in_seq in Hi; lia).
    assert (INR (numel sh) <> 0%R) by (apply not_0_INR; auto).
    assert (unbiased = true -> (INR (numel sh) - 1 <> 0)%R) by (intro U; specialize (Hu U); change 1%R with (INR 1); rewrite <- minus_INR by lia; apply not_0_INR; lia).
    assert (E2 : ((0 + sum (K := Rring) (fun k => (F (offsetToIndices sh k) - m) * (F (offsetToIndices sh k) - m)) (seq 0 (numel sh))) * varFactor (INR (numel sh)) unbiased)%R = variance unbiased F (indices sh)).
    { unfold variance. fold m. rewrite varFactor_eq by auto. rewrite indices_length. rewrite Rplus_0_l. rewrite <- (indices_seq sh), sum_map. reflexivity. }
    rewrite E2. reflexivity.
Qed.
Lemma varMeanOnDims_correct sh dims ax unbiased keep (F : list nat -> R) : sh <> [] -> dims <> [] -> axes_named (length sh) dims ax -> numel sh <> 0 ->
  (unbiased = true -> forall ridx, valid (reduced_shape ax keep sh) ridx -> length (group ax keep sh ridx) <> 1) ->
  varMeanOnDims (tensor_of sh F) dims unbiased keep
  = Ok (tensor_of (reduced_shape ax keep sh) (fun ridx => variance unbiased F (group ax keep sh ridx)),
        tensor_of (reduced_shape ax true sh) (fun ridx => average F (group ax true sh ridx))).
Proof.
  intros Hs Hd Ha Hn Hu. assert (La : length ax = length sh) by apply Ha. unfold varMeanOnDims. rewrite not_scalar by auto.
  destruct sh as [|x sh']; [congruence|]. destruct dims as [|z dims']; [congruence|]. set (sh := x :: sh') in *. set (dims := z :: dims') in *.
  rewrite (meanOnDims_correct sh dims ax) by auto. change (tshape (tensor_of sh F)) with sh. rewrite (marks_named _ _ _ Ha).
  assert (ED : tdata (tensor_of (reduced_shape ax true sh) (fun ridx => average F (group ax true sh ridx))) = tdata (tensor_of (reduced_shape ax keep sh) (fun ridx => average F (group ax keep sh ridx)))).
  { cbn [tdata tensor_of]. symmetry. apply (groups_keep ax keep sh (average F)). auto. }
  rewrite ED, squares_correct by auto. rewrite scale_of. f_equal. f_equal. apply tensor_of_ext. intros r Hr. cbn beta. unfold variance.
  unfold tnumel. cbn [tshape tensor_of]. pose proof (dropped_numel keep sh ax La) as DN. specialize (fun U => Hu U r Hr). rewrite group_length in * by auto.
  rewrite <- DN, mult_INR. assert (INR (numel (reduced_shape ax keep sh)) <> 0%R /\ INR (numel (dropped ax sh)) <> 0%R) as [? ?] by (split; apply not_0_INR; nia).
  replace (INR (numel (reduced_shape ax keep sh)) * INR (numel (dropped ax sh)) / INR (numel (reduced_shape ax keep sh)))%R with (INR (numel (dropped ax sh))) by (field; auto).
  rewrite varFactor_eq; auto.
  intro U. specialize (Hu U). change 1%R with (INR 1). rewrite <- minus_INR by nia. apply not_0_INR. nia.
Qed.

(** * Extremes *)
Section Order.
Context {A : Type} (lt : A -> A -> bool) (O : total_order lt).
Lemma scan_inv (pre : list A) (lo : A) x v i : (forall y, In y (pre ++ [x]) -> lt y lo = false) ->
  (pre = [] /\ v = lo /\ i = 0) \/ first_max lt pre v i ->
  let st := if lt v x then (x, length pre) else (v, i) in first_max lt (pre ++ [x]) (fst st) (snd st).
Proof.
  destruct O as (Irr & Tr & Tot). intros Hlo H. cbv zeta. destruct H as [(-> & -> & ->)|[H1 H2]].
  - assert (Hx : lt x lo = false) by (apply Hlo; left; auto). destruct (lt lo x) eqn:E; cbn [fst snd length app].
    + split; auto. intros [|j] y Hy; simpl in Hy; [injection Hy as <-; split; [auto|lia]|destruct j; discriminate].
    + assert (x = lo) as -> by auto. split; auto. intros [|j] y Hy; simpl in Hy; [injection Hy as <-; split; [auto|lia]|destruct j; discriminate].
  - assert (Hi : i < length pre) by (apply nth_error_Some; congruence). destruct (lt v x) eqn:E; cbn [fst snd].
    + split; [rewrite nth_error_app2, Nat.sub_diag by lia; auto|]. intros j y Hy. destruct (Nat.lt_ge_cases j (length pre)) as [Hj|Hj].
      * rewrite nth_error_app1 in Hy by auto. destruct (H2 j y Hy) as [H3 H4].
        assert (lt y x = true). { destruct (lt y v) eqn:Q; [apply (Tr _ v); auto|]. assert (y = v) as -> by auto. auto. }
        split; auto. destruct (lt x y) eqn:Q; auto. rewrite <- (Irr x). symmetry. apply (Tr _ y); auto.
      * rewrite nth_error_app2 in Hy by auto. destruct (j - length pre) as [|n] eqn:Ej; [|destruct n; discriminate]. injection Hy as <-. split; auto. lia.
    + split; [rewrite nth_error_app1; auto|]. intros j y Hy. destruct (Nat.lt_ge_cases j (length pre)) as [Hj|Hj].
      * rewrite nth_error_app1 in Hy by auto. apply H2; auto.
      * rewrite nth_error_app2 in Hy by auto. destruct (j - length pre) as [|n] eqn:Ej; [|destruct n; discriminate]. injection Hy as <-. split; auto. lia.
Qed.
Lemma scan_loop (lo : A) (read : nat -> option A) (upd : A * nat -> nat -> A -> A * nat) : forall l,
  (forall st j x, upd st j x = if lt (fst st) x then (x, j) else st) ->
  (forall y, In y l -> lt y lo = false) -> l <> [] -> (forall j, j < length l -> read j = nth_error l j) ->
  exists v i, loop (seq 0 (length l)) (lo, 0) (fun st j => obind (read j) (fun x => Some (upd st j x))) = Some (v, i) /\ first_max lt l v i.
Proof.
  intros l Hu Hlo Hl Hr.
  assert (G : forall pre l', l = pre ++ l' -> exists st, loop (seq 0 (length pre)) (lo, 0) (fun st j => obind (read j) (fun x => Some (upd st j x))) = Some st
     /\ ((pre = [] /\ fst st = lo /\ snd st = 0) \/ first_max lt pre (fst st) (snd st))).
  { induction pre as [|x pre IH] using rev_ind; intros l' El; [exists (lo, 0); auto|].
    destruct (IH (x :: l')) as (st & E & H). { rewrite El, <- app_assoc. auto. }
    rewrite app_length. cbn [length]. rewrite seq_app, loop_app, E. cbn [obind seq loop Nat.add].
    rewrite Hr by (rewrite El, !app_length; simpl; lia). rewrite El, <- app_assoc, nth_error_app2, Nat.sub_diag by lia. cbn [app nth_error obind].
    eexists. split; [reflexivity|]. right. rewrite Hu. destruct st as [v i]. cbn [fst snd] in *. apply (scan_inv pre lo); auto.
    intros y Hy. apply Hlo. rewrite El. apply in_app_iff. auto. }
  destruct (G l []) as (st & E & [[H _]|H]); [rewrite app_nil_r; auto|congruence|]. exists (fst st), (snd st). split; auto. destruct st; auto.
Qed.
End Order.
Lemma flip_total {A} (lt : A -> A -> bool) : total_order lt -> total_order (flip lt).
Proof. unfold flip. intros (H1 & H2 & H3). split; auto. split; eauto. Qed.

(** What the two functors have in common. *)
Definition picks {A} (f : functor A) (better : A -> A -> bool) : Prop :=
  (forall a b, fapply f a b = if better a b then b else a) /\ (forall a b, fcompare f a b = better b a).
Lemma picks_max {A} (lt : A -> A -> bool) lo : picks (opMax lt lo) lt.
Proof. split; reflexivity. Qed.
Lemma picks_min {A} (lt : A -> A -> bool) hi : picks (opMin lt hi) (flip lt).
Proof. split; reflexivity. Qed.

Section Functor.
Context {A : Type} (lt : A -> A -> bool) (better : A -> A -> bool) (f : functor A).
Hypothesis (Hb : better = lt \/ better = flip lt) (O : total_order better) (P : picks f better).
Lemma extremeAll_correct sh (F : list nat -> A) : numel sh <> 0 -> (forall idx, valid sh idx -> better (F idx) (dflt f) = false) ->
  exists v i, extremeAll f (tensor_of sh F) = Ok (mkT [] [v]) /\ argAll lt f (tensor_of sh F) = Ok (mkT [] [i]) /\ first_max better (map F (indices sh)) v i.
Proof.
  intros Hn Hlo. destruct sh as [|d sh'].
  - exists (F []), 0. split; [reflexivity|]. split; [reflexivity|]. split; [reflexivity|]. intros [|j] x Hx; simpl in Hx; [injection Hx as <-; split; [apply O|lia]|destruct j; discriminate].
  - unfold extremeAll, reduceOpAll, argAll, reduceAll, reduceIdxAll. cbn [isScalar tshape tensor_of]. set (sh := d :: sh') in *. fold (tensor_of sh F). unfold tnumel. cbn [tshape tensor_of]. fold (tensor_of sh F).
    set (l := map F (indices sh)). assert (Ll : length l = numel sh) by (unfold l; rewrite map_length, indices_length; auto).
    assert (Hne : l <> []) by (intro E; rewrite E in Ll; simpl in Ll; lia).
    assert (HL : forall y, In y l -> better y (dflt f) = false) by (intros y Hy; apply in_map_iff in Hy as (idx & <- & Hi); apply Hlo; apply indices_in; auto).
    destruct P as [P1 P2]. pose proof O as (Irr & Tr & Tot).
    destruct (scan_loop better O (dflt f) (rd l) (fun st j x => if lt (fapply f (fst st) x) (fst st) || lt (fst st) (fapply f (fst st) x) then (x, j) else st) l) as (v & i & E & FM); auto.
    { intros [v i] j x. cbn [fst]. rewrite P1. destruct (better v x) eqn:B.
      - assert (B' : better x v = false) by (destruct (better x v) eqn:Q; auto; rewrite <- (Irr x); symmetry; apply (Tr _ v); auto).
        destruct Hb as [->| ->]; unfold flip in B, B'; rewrite ?B, ?B'; auto. 
      - assert (Q : lt v v = false) by (destruct Hb as [->| ->]; apply (Irr v)). rewrite Q. auto. }
    exists v, i. cbn [tdata tensor_of]. fold l. rewrite <- Ll. rewrite E. cbn [option_map snd].
    assert (E1 : forall (js : list nat) (st : A * nat), loop js (fst st) (fun val j => obind (rd l j) (fun x => Some (fapply f x val)))
        = option_map fst (loop js st (fun st0 j => obind (rd l j) (fun x => Some (if lt (fapply f (fst st0) x) (fst st0) || lt (fst st0) (fapply f (fst st0) x) then (x, j) else st0))))).
    { induction js as [|j js IH]; intros [u k]; auto. cbn [loop fst]. destruct (rd l j) as [x|]; auto. cbn [obind]. rewrite <- IH. f_equal.
      rewrite !P1. destruct (better u x) eqn:B.
      - assert (B' : better x u = false) by (destruct (better x u) eqn:Q; auto; rewrite <- (Irr x); symmetry; apply (Tr _ u); auto).
        rewrite B'. destruct Hb as [->| ->]; unfold flip in B, B'; rewrite ?B, ?B'; auto.
      - assert (Q : lt u u = false) by (destruct Hb as [->| ->]; apply (Irr u)). rewrite Q. cbn. destruct (better x u) eqn:B'; auto. }
    specialize (E1 (seq 0 (length l)) (dflt f, 0)). cbn [fst] in E1. rewrite E1, E. cbn [option_map fst]. auto.
Qed.

Lemma shape1_mid pre d post keep : reduceShape1 (pre ++ d :: post) (length pre) keep = pre ++ (if keep then [1] else []) ++ post.
Proof.
  unfold reduceShape1. rewrite app_length. cbn [length]. rewrite seq_app. cbn [seq Nat.add].
  assert (C : forall (a b c d : list nat), length a = length c -> combine (a ++ b) (c ++ d) = combine a c ++ combine b d).
  { clear. induction a as [|x a IH]; intros b [|y c] d H; try discriminate; auto. simpl. rewrite IH; auto. }
  rewrite C by (rewrite seq_length; auto). rewrite flat_map_app. cbn [combine flat_map fst snd]. rewrite Nat.eqb_refl.
  assert (G : forall l a, (forall k, a <= k < a + length l -> k <> length pre) -> flat_map (fun p : nat * nat => if snd p =? length pre then if keep then [1] else [] else [fst p]) (combine l (seq a (length l))) = l).
  { clear. induction l as [|x l IH]; intros a H; auto. cbn [length seq combine flat_map fst snd]. destruct (Nat.eqb_spec a (length pre)); [exfalso; apply (H a); simpl; lia|].
    cbn [app]. f_equal. apply IH. intros k Hk. apply H. simpl. lia. }
  rewrite !G; auto; lia.
Qed.
(** The running quotient and the accumulated offset. *)
Lemma srcIndex_gen (stride : nat -> nat) : forall rsh a idx,
  let st := fold_right (fun p acc => (fst acc / fst p, snd acc + (fst acc mod fst p) * stride (snd p))) (idx, 0) (combine rsh (seq a (length rsh))) in
  numel rsh <> 0 -> fst st = idx / numel rsh /\
  snd st = fold_right Nat.add 0 (map (fun p => fst p * stride (snd p)) (combine (offsetToIndices rsh idx) (seq a (length rsh)))).
Proof.
  induction rsh as [|d rsh IH]; intros a idx st Hn; cbv zeta in *.
  - unfold st. cbn [fold_right combine length seq fst snd]. rewrite numel_nil, Nat.div_1_r. auto.
  - rewrite numel_cons in Hn. assert (numel rsh <> 0 /\ d <> 0) as [? ?] by nia. unfold st. cbn [length seq combine fold_right fst snd]. destruct (IH (S a) idx) as [E1 E2]; auto.
    rewrite E1, E2. split.
    + rewrite numel_cons, Nat.div_div by auto. f_equal. lia.
    + rewrite o2i_cons by auto. cbn [combine map fold_right fst snd]. lia.
Qed.
Lemma strides_app a b : strides (a ++ b) = map (fun s => s * numel b) (strides a) ++ strides b.
Proof. induction a as [|d a IH]; auto. cbn [app]. rewrite !strides_cons, IH, numel_app. auto. Qed.
Lemma ravel_sum : forall sh idx a (stride : nat -> nat), length idx = length sh -> (forall k, k < length sh -> stride (a + k) = nth k (strides sh) 0) ->
  fold_right Nat.add 0 (map (fun p => fst p * stride (snd p)) (combine idx (seq a (length sh)))) = ravel sh idx.
Proof.
  induction sh as [|d sh IH]; intros [|i idx] a stride Hl Hs; try discriminate; auto. cbn [length seq combine map fold_right fst snd].
  rewrite ravel_cons. rewrite (IH idx (S a) stride) by (simpl in Hl; auto; intros k Hk; specialize (Hs (S k) ltac:(simpl; lia)); rewrite strides_cons in Hs; cbn [nth] in Hs; rewrite <- Hs; f_equal; lia).
  specialize (Hs 0). rewrite strides_cons in Hs. cbn in Hs. rewrite <- Hs by lia. rewrite Nat.add_0_r. auto.
Qed.
Lemma ravel_mul a : forall idx c (stride : nat -> nat) s, length idx = length a -> (forall k, k < length a -> stride (s + k) = nth k (strides a) 0 * c) ->
  fold_right Nat.add 0 (map (fun p => fst p * stride (snd p)) (combine idx (seq s (length a)))) = ravel a idx * c.
Proof.
  induction a as [|d a IH]; intros [|i idx] c stride s Hl Hs; try discriminate; auto. cbn [length seq combine map fold_right fst snd].
  rewrite ravel_cons. rewrite (IH idx c stride (S s)) by (simpl in Hl; auto; intros k Hk; specialize (Hs (S k) ltac:(simpl; lia)); rewrite strides_cons in Hs; cbn [nth] in Hs; rewrite <- Hs; f_equal; lia).
  specialize (Hs 0). rewrite strides_cons in Hs. cbn in Hs. rewrite Nat.add_0_r in Hs. rewrite Hs by lia. lia.
Qed.
Lemma fold_add_app l m : fold_right Nat.add 0 (l ++ m) = fold_right Nat.add 0 l + fold_right Nat.add 0 m.
Proof. induction l; simpl; lia. Qed.
Lemma combine_app {X Y} : forall (a b : list X) (c d : list Y), length a = length c -> combine (a ++ b) (c ++ d) = combine a c ++ combine b d.
Proof. induction a as [|x a IH]; intros b [|y c] d H; try discriminate; auto. simpl. rewrite IH; auto. Qed.
Lemma srcIndex_correct pre d post (keep : bool) i : let rsh := pre ++ (if keep then [1] else []) ++ post in i < numel rsh ->
  exists a b, valid pre a /\ valid post b /\ offsetToIndices rsh i = a ++ (if keep then [0] else []) ++ b
  /\ getReduceSrcIndex rsh (pre ++ d :: post) i (length pre) keep = ravel (pre ++ d :: post) (a ++ 0 :: b).
Proof.
  intros rsh Hi. pose proof (o2i_valid _ _ Hi) as V.
  assert (exists a b, valid pre a /\ valid post b /\ offsetToIndices rsh i = a ++ (if keep then [0] else []) ++ b) as (a & b & Va & Vb & E).
  { pose proof (valid_length _ _ V) as VL. set (o := offsetToIndices rsh i) in *. unfold rsh in V, VL. rewrite !app_length in VL. rewrite <- (firstn_skipn (length pre) o) in V. apply valid_app in V as [Va Vb]; [|rewrite firstn_length; destruct keep; simpl in VL; lia].
    destruct keep.
    - cbn [app] in Vb. inversion Vb as [|x y l l' Hx Hl E1]; subst. exists (firstn (length pre) o), l. split; auto. split; auto. rewrite <- (firstn_skipn (length pre) o) at 1. rewrite <- E1. cbn [app]. do 2 f_equal. lia.
    - exists (firstn (length pre) o), (skipn (length pre) o). split; auto. split; auto. symmetry. apply firstn_skipn. }
  exists a, b. split; auto. split; auto. split; auto.
  pose (stride := fun k => nth (if keep || (k <? length pre) then k else k + 1) (strides (pre ++ d :: post)) 0).
  assert (S : getReduceSrcIndex rsh (pre ++ d :: post) i (length pre) keep
    = fold_right Nat.add 0 (map (fun p => fst p * stride (snd p)) (combine (offsetToIndices rsh i) (seq 0 (length rsh)))))
    by exact (proj2 (srcIndex_gen stride rsh 0 i ltac:(lia))).
  rewrite S. clear S.
  rewrite E. unfold rsh. rewrite !app_length, seq_app. pose proof (valid_length _ _ Va) as La. pose proof (valid_length _ _ Vb) as Lb.
  rewrite combine_app by (rewrite seq_length; auto). rewrite map_app, fold_add_app, ravel_app by auto. rewrite ravel_cons.
  rewrite (ravel_mul pre a (numel (d :: post)) stride 0); auto.
  2: { intros k Hk. unfold stride. cbn [Nat.add]. rewrite strides_app, strides_cons. destruct (Nat.ltb_spec k (length pre)); [|lia].
       rewrite orb_true_r, app_nth1 by (rewrite map_length, strides_length; auto).
       rewrite (nth_indep _ 0 (0 * numel (d :: post))) by (rewrite map_length, strides_length; auto). rewrite (map_nth (fun s => s * numel (d :: post))). auto. }
  f_equal. destruct keep; cbn [app length Nat.add].
  - cbn [seq combine map fold_right fst snd]. rewrite (ravel_sum post b _ stride) by (auto; intros k Hk; unfold stride; rewrite strides_app, strides_cons; cbn [orb]; rewrite app_nth2 by (rewrite map_length, strides_length; lia);
      rewrite map_length, strides_length; replace (S (length pre) + k - length pre) with (S k) by lia; auto). auto.
  - rewrite (ravel_sum post b _ stride); auto. intros k Hk. unfold stride. rewrite strides_app, strides_cons. cbn [orb]. destruct (Nat.ltb_spec (length pre + k) (length pre)); [lia|]. rewrite app_nth2 by (rewrite map_length, strides_length; lia).
      rewrite map_length, strides_length. replace (length pre + k + 1 - length pre) with (S k) by lia. auto.
Qed.
Lemma nth_mid {X} (pre : list X) d post x : nth (length pre) (pre ++ d :: post) x = d.
Proof. rewrite app_nth2, Nat.sub_diag; auto. Qed.

Lemma extremeDim_correct sh (F : list nat -> A) dim k keep : dim_is (length sh) dim k -> nth k sh 0 <> 0 ->
  (forall idx, valid sh idx -> better (F idx) (dflt f) = false) ->
  exists V I, extremeDim f (tensor_of sh F) dim keep = Ok (tensor_of (without_dim keep k sh) V, tensor_of (without_dim keep k sh) I)
  /\ forall ridx, valid (without_dim keep k sh) ridx -> first_max better (line F keep k (nth k sh 0) ridx) (V ridx) (I ridx).
Proof.
  intros Hd Hn Hlo. pose proof Hd as [Hk _]. destruct (list_split_at sh k Hk) as (pre & d & post & -> & <-). rewrite nth_mid in Hn |- *.
  assert (EW : without_dim keep (length pre) (pre ++ d :: post) = pre ++ (if keep then [1] else []) ++ post).
  { unfold without_dim. destruct keep; [apply set_nth_app|]. rewrite firstn_app, Nat.sub_diag, firstn_all, app_nil_r. cbn [app]. f_equal. rewrite skipn_app.
    rewrite skipn_all2 by lia. replace (S (length pre) - length pre) with 1 by lia. auto. }
  set (sh := pre ++ d :: post) in *. rewrite EW. set (rsh := pre ++ (if keep then [1] else []) ++ post) in *.
  unfold extremeDim. assert (Es : isScalar (tensor_of sh F) = false) by (unfold isScalar, sh; cbn; destruct pre; auto). rewrite Es. cbn [tshape tensor_of].
  assert (Ea : axis (length sh) dim = Some (length pre)) by (apply axis_some; auto). rewrite Ea. assert (E1 : reduceShape1 sh (length pre) keep = rsh) by apply shape1_mid. rewrite E1. fold (tensor_of sh F).
  set (lastDim := length pre =? length sh - 1).
  assert (EL : lastDim = true -> post = []).
  { unfold lastDim, sh. rewrite app_length. cbn [length]. intro E. apply Nat.eqb_eq in E. destruct post; auto. cbn [length] in E. lia. }
  assert (Ent : nth (length pre) sh 0 = d) by apply nth_mid. rewrite Ent.
  assert (Est : nth (length pre) (strides sh) 0 = numel post).
  { unfold sh. rewrite strides_app, app_nth2; rewrite map_length, strides_length; [|lia]. rewrite Nat.sub_diag, strides_cons. auto. }
  rewrite Est.
  assert (RS : forall i, i < numel rsh -> exists v t, scanDim f (tdata (tensor_of sh F)) (if lastDim then i * d else getReduceSrcIndex rsh sh i (length pre) keep) (if lastDim then 1 else numel post) d = Some (v, t)
     /\ first_max better (line F keep (length pre) d (offsetToIndices rsh i)) v t).
  { intros i Hi. destruct (srcIndex_correct pre d post keep i Hi) as (a & b & Va & Vb & Eo & Ei). cbv zeta in Eo, Ei. fold rsh sh in Eo, Ei.
    assert (Hsrc : (if lastDim then i * d else getReduceSrcIndex rsh sh i (length pre) keep) = ravel sh (a ++ 0 :: b)).
    { destruct lastDim; auto. pose proof (EL eq_refl) as Ep. assert (b = []) as -> by (rewrite Ep in Vb; inversion Vb; auto). pose proof (ravel_o2i rsh i Hi) as RO. rewrite Eo in RO. unfold sh. rewrite ravel_app by (apply valid_length; auto).
      rewrite <- RO. unfold rsh. rewrite ravel_app by (apply valid_length; auto). rewrite ravel_cons. rewrite Ep. destruct keep; cbn [app]; rewrite ?ravel_cons, ?ravel_nil, ?numel_cons, ?numel_nil; lia. }
    assert (Hstr : (if lastDim then 1 else numel post) = numel post) by (destruct lastDim; auto; rewrite EL; auto).
    rewrite Hsrc, Hstr. unfold scanDim. rewrite Eo.
    assert (ELn : line F keep (length pre) d (a ++ (if keep then [0] else []) ++ b) = map (fun j => F (a ++ j :: b)) (seq 0 d)).
    { unfold line. apply map_ext. intro j. f_equal. unfold with_coord. pose proof (valid_length _ _ Va) as La. rewrite <- La. destruct keep; cbn [app].
      - apply set_nth_app.
      - rewrite firstn_app, Nat.sub_diag, firstn_all, app_nil_r, skipn_app, Nat.sub_diag, skipn_all. auto. }
    rewrite ELn. destruct P as [P1 P2].
    destruct (scan_loop better O (dflt f) (fun j => rd (tdata (tensor_of sh F)) (ravel sh (a ++ 0 :: b) + j * numel post)) (fun st j val => if fcompare f val (fst st) then (val, j) else st) (map (fun j => F (a ++ j :: b)) (seq 0 d))) as (v & t & E & FM).
    - intros st j x. rewrite P2. auto.
    - intros y Hy. apply in_map_iff in Hy as (j & <- & Hj). apply in_seq in Hj. apply Hlo. unfold sh. apply valid_app; [apply valid_length; auto|]. split; auto. constructor; auto. lia.
    - destruct d; [congruence|discriminate].
    - intros j Hj. rewrite map_length, seq_length in Hj. rewrite nth_error_map, nth_error_seq. destruct (Nat.ltb_spec j d); [|lia]. cbn [option_map Nat.add].
      rewrite <- (rd_of_idx sh F (a ++ j :: b)); [f_equal|]; unfold sh.
      + rewrite !ravel_app, !ravel_cons by (apply valid_length; auto). lia.
      + apply valid_app; [apply valid_length; auto|]. split; auto. constructor; auto.
    - rewrite map_length, seq_length in E. exists v, t. auto. }
  pose (S := fun i => scanDim f (tdata (tensor_of sh F)) (if lastDim then i * d else getReduceSrcIndex rsh sh i (length pre) keep) (if lastDim then 1 else numel post) d).
  pose (g := fun i => match S i with Some p => p | None => (dflt f, 0) end).
  assert (Hg : forall i, i < numel rsh -> S i = Some (g i) /\ first_max better (line F keep (length pre) d (offsetToIndices rsh i)) (fst (g i)) (snd (g i))).
  { intros i Hi. destruct (RS i Hi) as (v & t & E & FM). unfold g. fold (S i) in E. rewrite E. auto. }
  exists (fun r => fst (g (ravel rsh r))), (fun r => snd (g (ravel rsh r))). split.
  - change (tdata (mkT sh (map F (indices sh)))) with (tdata (tensor_of sh F)). match goal with |- match tab ?n ?b with _ => _ end = _ => change (tab n b) with (tab n S) end. rewrite (tab_some _ S g) by (intros i Hi; apply Hg; auto).
    unfold tensor_of. do 2 f_equal; f_equal; rewrite map_map, <- seq_indices, map_map; auto.
  - intros r Hr. destruct (Hg (ravel rsh r) (ravel_lt _ _ Hr)) as [_ FM]. rewrite o2i_ravel in FM by auto. exact FM.
Qed.
Lemma extremeDim_rejects sh (F : list nat -> A) dim keep : sh <> [] -> (forall k, ~ dim_is (length sh) dim k) -> extremeDim f (tensor_of sh F) dim keep = Fail.
Proof.
  intros Hs H. unfold extremeDim. rewrite not_scalar by auto. cbn [tshape tensor_of]. destruct (axis _ dim) as [k|] eqn:E; auto.
  apply axis_some in E. destruct (H k E).
Qed.
End Functor.
