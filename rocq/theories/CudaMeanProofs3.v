(* Variances of CUDA tensors over a dimension. *)
From Coq Require Import List Arith ZArith Bool Lia Permutation Reals Lra.
From Verif Require Import ShapeModel ShapeSpec ShapeProofs TensorModel TensorSpec TensorLemmas BcastModel BcastSpec BcastProofs BcastProofs2 BufModel BufProofs CutSpec
  ReduceModel ReduceSpec ReduceProofs ReduceProofs2 AttnProofs2
  GpuModel GpuSpec GpuProofs GpuLemmas GpuOrder
  CudaModel CudaSpec CudaProofs CudaProps CudaFillModel CudaItems CudaFillProofs CudaFillProps CudaMoveModel CudaReduceModel CudaReduceSpec CudaReduceProofs3 CudaReduceProps CudaMeanModel CudaMeanProofs CudaMeanProofs2.
Import ListNotations.
Local Open Scope nat_scope.

(* ---- a group over one dimension is a line ---- *)

Lemma app_len_inj : forall (a a' b b' : list nat), length a = length a' -> a ++ b = a' ++ b' -> a = a' /\ b = b'.
Proof. induction a as [|x a IH]; intros [|y a'] b b' HL E; try discriminate; auto. cbn in E. injection E as -> E. destruct (IH a' b b') as [-> ->]; auto. Qed.

Lemma reduced_one : forall (a b : list nat) j (keep : bool) na nb, length a = na -> length b = nb ->
  reduced_idx (repeat false na ++ true :: repeat false nb) keep (a ++ j :: b) = a ++ (if keep then [0] else []) ++ b.
Proof.
  assert (H : forall b keep, reduced_idx (repeat false (length b)) keep b = b) by (intros b keep; induction b as [|x b IH]; [reflexivity|]; cbn [length repeat]; rewrite reduced_cons, IH; reflexivity).
  intros a b j keep na nb <- <-. induction a as [|x a IH]; cbn [length repeat app]; rewrite reduced_cons, ?H, ?IH; reflexivity.
Qed.

Lemma rshape_one : forall (a b : list nat) n (keep : bool), reduced_shape (repeat false (length a) ++ true :: repeat false (length b)) keep (a ++ n :: b) = a ++ (if keep then [1] else []) ++ b.
Proof.
  assert (H : forall b keep, reduced_shape (repeat false (length b)) keep b = b) by (intros b keep; induction b as [|x b IH]; [reflexivity|]; cbn [length repeat]; rewrite rshape_cons, IH; reflexivity).
  intros a b n keep. induction a as [|x a IH]; cbn [length repeat app]; rewrite rshape_cons, ?H, ?IH; reflexivity.
Qed.

Lemma with_coord_mid : forall (a b : list nat) (keep : bool) j, with_coord keep (length a) (a ++ (if keep then [0] else []) ++ b) j = a ++ j :: b.
Proof.
  intros a b keep j. unfold with_coord. destruct keep.
  - cbn [app]. induction a as [|x a IH]; [reflexivity|]. cbn. f_equal. exact IH.
  - cbn [app]. rewrite firstn_app, Nat.sub_diag, firstn_all, skipn_app, Nat.sub_diag, skipn_all. cbn [firstn skipn app]. rewrite app_nil_r. reflexivity.
Qed.

Lemma valid_mid : forall pre post (keep : bool) ridx, valid (pre ++ (if keep then [1] else []) ++ post) ridx ->
  exists a b, ridx = a ++ (if keep then [0] else []) ++ b /\ valid pre a /\ valid post b.
Proof.
  intros pre post keep ridx H. apply Forall2_app_inv_r in H as (a & r & Ha & Hr & ->). apply Forall2_app_inv_r in Hr as (c & b & Hc & Hb & ->).
  exists a, b. split; [|split; assumption]. f_equal. f_equal. destruct keep; inversion Hc as [|x y l l' H1 H2]; subst; [|reflexivity]. inversion H2; subst. f_equal. lia.
Qed.

Lemma nodup_indices : forall sh, NoDup (indices sh).
Proof. intros sh. apply (NoDup_map_inv (ravel sh)). rewrite seq_indices. apply seq_NoDup. Qed.

Lemma group_line : forall pre n post (keep : bool) ridx, valid (pre ++ (if keep then [1] else []) ++ post) ridx ->
  Permutation (group (repeat false (length pre) ++ true :: repeat false (length post)) keep (pre ++ n :: post) ridx)
    (map (with_coord keep (length pre) ridx) (seq 0 n)).
Proof.
  intros pre n post keep ridx H. destruct (valid_mid _ _ _ _ H) as (a & b & -> & Va & Vb).
  pose proof (valid_length _ _ Va) as La. pose proof (valid_length _ _ Vb) as Lb.
  apply NoDup_Permutation.
  - apply NoDup_filter, nodup_indices.
  - apply FinFun.Injective_map_NoDup; [|apply seq_NoDup]. intros x y E. rewrite <- La, !with_coord_mid in E. apply app_inv_head in E. congruence.
  - intros idx. unfold group. rewrite filter_In, in_map_iff. rewrite indices_in. split.
    + intros [Vi E]. apply Forall2_app_inv_r in Vi as (a' & r & Ha' & Hr & ->). inversion Hr as [|j x b' l' Hj Hb']; subst.
      pose proof (valid_length _ _ Ha') as La'. pose proof (valid_length _ _ Hb') as Lb'.
      rewrite (reduced_one a' b' j keep (length pre) (length post)) in E by congruence.
      unfold same_idx in E. destruct (list_eq_dec Nat.eq_dec (a' ++ (if keep then [0] else []) ++ b') (a ++ (if keep then [0] else []) ++ b)) as [E'|]; [|discriminate].
      apply app_len_inj in E' as [-> E']; [|congruence]. apply app_inv_head in E'. subst b'.
      exists j. split; [rewrite <- La; apply with_coord_mid|apply in_seq; lia].
    + intros (j & <- & Hj). apply in_seq in Hj. replace (with_coord keep (length pre) (a ++ (if keep then [0] else []) ++ b) j) with (a ++ j :: b) by (rewrite <- La; symmetry; apply with_coord_mid). split.
      * apply valid_app; [congruence|]. split; [exact Va|]. constructor; [lia|exact Vb].
      * rewrite (reduced_one a b j keep (length pre) (length post)) by congruence. unfold same_idx.
        destruct (list_eq_dec Nat.eq_dec _ _) as [|N]; [reflexivity|congruence].
Qed.

Lemma axes_one : forall rank dim (pre post : list nat), rank = length pre + S (length post) -> dim_is rank dim (length pre) ->
  axes_named rank [dim] (repeat false (length pre) ++ true :: repeat false (length post)).
Proof.
  intros rank dim pre post Er HD. split; [rewrite app_length; cbn; rewrite !repeat_length; lia|]. split.
  - intros d [<-|[]]. exists (length pre). exact HD.
  - intros k. destruct (Nat.lt_trichotomy k (length pre)) as [L|[->|L]].
    + rewrite app_nth1 by (rewrite repeat_length; lia). rewrite nth_repeat. split; [discriminate|]. intros (d & [<-|[]] & H1 & H2). destruct HD. lia.
    + rewrite app_nth2 by (rewrite repeat_length; lia). rewrite repeat_length, Nat.sub_diag. cbn. split; [|reflexivity]. intros _. exists dim. split; [left; reflexivity|exact HD].
    + rewrite app_nth2 by (rewrite repeat_length; lia). rewrite repeat_length. destruct (k - length pre) as [|q] eqn:E; [lia|]. cbn [nth]. rewrite nth_repeat. split; [discriminate|].
      intros (d & [<-|[]] & H1 & H2). destruct HD. lia.
Qed.

(* ---- the kernel ---- *)

Lemma dst_cuda : forall sh ax i, Forall (fun d => 0 < d) sh -> length ax = length sh -> dstIndexCuda sh ax (Z.of_nat i) = Z.of_nat (getReduceDstIndex sh ax i).
Proof.
  intros sh ax i HP HL. unfold dstIndexCuda, getReduceDstIndex.
  set (f := fun (p : nat * nat * bool) (acc : Z * Z) => _). set (g := fun (p : nat * nat * bool) (acc : nat * nat) => _).
  assert (G : forall l, fold_right f (0%Z, 1%Z) l = (Z.of_nat (fst (fold_right g (0, 1) l)), Z.of_nat (snd (fold_right g (0, 1) l)))).
  { induction l as [|[[d st] a] l IH]; [reflexivity|]. cbn [fold_right]. rewrite IH. destruct (fold_right g (0, 1) l) as [x y]. unfold f, g. cbn [fst snd]. destruct a; [reflexivity|].
    cbn [fst snd]. rewrite Nat2Z.inj_add, !Nat2Z.inj_mul, Nat2Z.inj_mod, Nat2Z.inj_div. reflexivity. }
  rewrite G. reflexivity.
Qed.

Lemma square_plan : forall n p dst o mu i acc k m (x : nat -> R) R1 W,
  (forall j, i <= j < i + n -> m (p, Z.of_nat j) = Some (Some (x j))) ->
  plan (k (acc + sum (K := Rring) (fun j => if (dst (Z.of_nat j) =? o)%Z then ((x j - mu) * (x j - mu))%R else 0%R) (seq i n))%R) m = Some (R1, W) ->
  exists R0, plan (squareLoads n p dst o mu (Z.of_nat i) acc k) m = Some (R0, W) /\ forall a, In a R0 -> fst a = p \/ In a R1.
Proof.
  induction n as [|n IH]; intros p dst o mu i acc k m x R1 W HX HK.
  - exists R1. cbn [seq] in HK. cbn [squareLoads]. change (sum _ []) with 0%R in HK. rewrite Rplus_0_r in HK. auto.
  - cbn [seq] in HK. rewrite sum_cons in HK. cbn [squareLoads].
    replace (Z.of_nat i + 1)%Z with (Z.of_nat (S i)) by lia.
    destruct (dst (Z.of_nat i) =? o)%Z eqn:E.
    + destruct (IH p dst o mu (S i) (acc + (x i - mu) * (x i - mu))%R k m x R1 W) as (R0 & E0 & H0).
      * intros j Hj. apply HX. lia.
      * change (@add Rring) with Rplus in HK. rewrite <- Rplus_assoc in HK. exact HK.
      * exists ((p, Z.of_nat i) :: R0). split; [apply (plan_ld _ _ _ (x i)); [apply HX; lia|exact E0]|]. intros a [<-|Hin]; auto.
    + apply (IH p dst o mu (S i) acc k m x R1 W); [intros j Hj; apply HX; lia|]. change (@add Rring) with Rplus in HK. rewrite Rplus_0_l in HK. exact HK.
Qed.

Lemma var_kernel : forall m ret p mean sh ax keep rsh' (F M : list nat -> R), let rsh := reduced_shape ax keep sh in
  Forall (fun d => 0 < d) sh -> length ax = length sh -> (0 < Z.of_nat (numel rsh) <= 2 ^ 32)%Z -> numel rsh' = numel rsh -> ret <> p -> ret <> mean ->
  has m p sh F -> has m mean rsh' M -> room m ret (numel rsh) ->
  computes (kReduceMultiDimVar ret (mkD p sh) mean ax (Z.of_nat (numel rsh))) m ret rsh
    (fun ridx => let mu := M (offsetToIndices rsh' (ravel rsh ridx)) in sum (K := Rring) (fun idx => (F idx - mu) * (F idx - mu))%R (group ax keep sh ridx)).
Proof.
  intros m ret p mean sh ax keep rsh' F M rsh HP HL HZ En N1 N2 HF HM HR.
  eapply gathers_at; [apply kernel1d_is|exact HZ|exact HR|].
  intros ridx Hv. cbn [dshape dbuf]. pose proof (ravel_lt _ _ Hv) as Lr. set (o := ravel rsh ridx) in *. set (mu := M (offsetToIndices rsh' o)).
  destruct (square_plan (numel sh) p (dstIndexCuda sh ax) (Z.of_nat o) mu 0 0%R (fun sum => St (ret, Z.of_nat o) sum Done) m (fun j => F (offsetToIndices sh j)) []
      [((ret, Z.of_nat o), sum (K := Rring) (fun idx => (F idx - mu) * (F idx - mu))%R (group ax keep sh ridx))]) as (R0 & E0 & H0).
  - intros j Hj. rewrite (has_ix R m p sh F _ HF) by lia. rewrite Nat2Z.id. reflexivity.
  - replace (0 + sum (K := Rring) _ _)%R with (sum (K := Rring) (fun idx => (F idx - mu) * (F idx - mu))%R (group ax keep sh ridx)).
    + apply plan_st; [|reflexivity]. apply (room_at R m ret _ _ HR). lia.
    + rewrite Rplus_0_l. replace (group ax keep sh ridx) with (group ax keep sh (offsetToIndices rsh o)) by (unfold o; rewrite o2i_ravel by exact Hv; reflexivity).
      unfold rsh. rewrite group_dst by (auto; exact Lr). rewrite sum_filter. rewrite <- (indices_seq sh), sum_map. apply sum_ext. intros j Hj. apply in_seq in Hj.
      rewrite dst_cuda by auto. rewrite ravel_o2i by lia. destruct (Nat.eqb_spec (getReduceDstIndex sh ax j) o) as [->|N]; [rewrite Z.eqb_refl; reflexivity|].
      destruct (Z.eqb_spec (Z.of_nat (getReduceDstIndex sh ax j)) (Z.of_nat o)); [lia|reflexivity].
  - exists ((mean, Z.of_nat o) :: R0). split.
    + eapply plan_ld; [|exact E0]. unfold mu. rewrite (has_ix R m mean rsh' M _ HM) by lia. rewrite Nat2Z.id. reflexivity.
    + intros a [<-|Hin]; [cbn; congruence|]. destruct (H0 a Hin) as [->|[]]. congruence.
Qed.

Lemma scale_runs : forall t sh r s, (0 < Z.of_nat (numel sh) <= 2 ^ 32)%Z -> s <> t -> exists l, scaleCuda (mkD t sh) r s = Ok l.
Proof.
  intros t sh r s HZ N. destruct (scale_ok (cells [(t, map (fun _ => 0%R) (indices sh)); (s, [0%R])]) t sh (fun _ => 0%R) r s) as (l & E & _); [exact HZ|exact N| | |exists l; exact E].
  - apply (cells_has _ (map (fun _ => 0%R) (indices sh)) t). cbn [find fst]. rewrite Nat.eqb_refl. reflexivity.
  - apply (cells_room _ [0%R] s). cbn [find fst]. destruct (Nat.eqb_spec t s) as [X|_]; [congruence|]. rewrite Nat.eqb_refl. reflexivity.
Qed.

Lemma var_dims_unfold : forall p sh dim dims unbiased keep mo mt mtr ms vo vs, sh <> [] ->
  varMeanDimsCuda (mkD p sh) (dim :: dims) unbiased keep mo mt mtr ms vo vs =
  match marks (length sh) (dim :: dims) with
  | None => Fail
  | Some ax =>
    match meanDimsCuda (mkD p sh) (dim :: dims) true mo mt mtr ms with
    | UB => UB | Fail => Fail
    | Ok (meanVal, ls) =>
      match scaleCuda (mkD vo (getReduceShape sh ax keep)) (varFactor (INR (numel sh) / INR (numel (getReduceShape sh ax keep))) unbiased) vs with
      | UB => UB | Fail => Fail
      | Ok l3 => Ok (mkD vo (getReduceShape sh ax keep), meanVal, ls ++ fillCuda vo 0%R (Z.of_nat (numel (getReduceShape sh ax keep))) :: kReduceMultiDimVar vo (mkD p sh) (dbuf meanVal) ax (Z.of_nat (numel (getReduceShape sh ax keep))) :: l3)
      end
    end
  end.
Proof. intros p [|d sh] dim dims u keep mo mt mtr ms vo vs H; [congruence|reflexivity]. Qed.

Theorem var_dim : forall sh (F : list nat -> R) dim k unbiased keep m p mo mt mtr ms vo vs,
  let n := nth k sh 0 in
  let rest := size (without_dim false k sh) in
  dim_is (length sh) dim k -> (0 < Z.of_nat (size sh) <= 2 ^ 32)%Z ->
  (k = 0 \/ k = length sh - 1 -> n < 512 \/ (n = 512 /\ (Z.of_nat rest * 512 < 2 ^ 32)%Z) \/ (rest = 1 /\ n <= 512 * 512)) ->
  has m p sh F -> room m mo rest -> room m mt (rest * ((n + 511) / 512)) -> room m mtr (size sh) -> room m ms 1 -> room m vo rest -> room m vs 1 ->
  NoDup [p; mo; mt; mtr; ms; vo; vs] ->
  exists ls, varMeanDimsCuda (mkD p sh) [dim] unbiased keep mo mt mtr ms vo vs = Ok (mkD vo (without_dim keep k sh), mkD mo (without_dim true k sh), ls) /\
    always_all ls m (fun m' =>
      has m' vo (without_dim keep k sh) (fun ridx => variance unbiased (fun j => F (with_coord keep k ridx j)) (seq 0 n)) /\
      has m' mo (without_dim true k sh) (fun ridx => average (fun j => F (with_coord true k ridx j)) (seq 0 n)) /\
      forall q, ~ In q [mo; mt; mtr; ms; vo; vs] -> forall i, m' (q, i) = m (q, i)).
Proof.
  intros sh F dim k u keep m p mo mt mtr ms vo vs n rest HD HZ HN HF R1 R2 R3 R4 R5 R6 ND.
  pose proof HD as [Hk _]. pose proof (size_mid k sh Hk) as ES. fold n rest in ES. assert (Hn : 0 < n /\ 0 < rest) by nia.
  assert (ND' : forall i j, i < 7 -> j < 7 -> i <> j -> nth i [p; mo; mt; mtr; ms; vo; vs] 0 <> nth j [p; mo; mt; mtr; ms; vo; vs] 0).
  { intros i j Hi Hj Nij E. apply Nij. apply (proj1 (NoDup_nth _ 0) ND); auto. }
  destruct (mean_dim sh F dim k true m p mo mt mtr ms HD HZ HN HF R1 R2 R3 R4) as (l1 & E1 & C1).
  { apply (NoDup_remove_1 [p; mo; mt; mtr; ms] [] vs). apply (NoDup_remove_1 [p; mo; mt; mtr; ms] [vs] vo). exact ND. }
  set (M := fun ridx => average (fun j => F (with_coord true k ridx j)) (seq 0 n)) in *.
  assert (WN : forall kp, numel (without_dim kp k sh) = rest) by (intros kp; rewrite <- size_numel; apply size_without, Hk).
  destruct (nth_split sh 0 Hk) as (pre & post & Es & Lp). fold n in Es.
  set (ax := repeat false (length pre) ++ true :: repeat false (length post)).
  assert (HA : axes_named (length sh) [dim] ax) by (apply axes_one; [rewrite Es, app_length; reflexivity|rewrite Lp; exact HD]).
  assert (Lax : length ax = length sh) by apply HA.
  assert (RS : forall kp, getReduceShape sh ax kp = without_dim kp k sh).
  { intros kp. change (reduced_shape ax kp sh = without_dim kp k sh). unfold ax. rewrite Es, rshape_one, <- Lp. unfold without_dim. destruct kp.
    - clear. induction pre as [|x pre IH]; [reflexivity|]. cbn. f_equal. exact IH.
    - rewrite firstn_app, Nat.sub_diag, firstn_all. cbn [firstn]. rewrite app_nil_r. f_equal. replace (S (length pre)) with (length pre + 1) by lia. rewrite skipn_app, skipn_all2 by lia. replace (length pre + 1 - length pre) with 1 by lia. reflexivity. }
  assert (XS : exists l3, scaleCuda (mkD vo (without_dim keep k sh)) (varFactor (INR (numel sh) / INR rest) u) vs = Ok l3) by (apply scale_runs; [rewrite WN; nia|apply (ND' 6 5); lia]).
  destruct XS as (l3 & E3).
  eexists. split.
  - rewrite var_dims_unfold by (intros ->; cbn in Hk; lia). rewrite (marks_named _ _ _ HA), E1, RS, WN, E3. reflexivity.
  - apply always_all_app. eapply always_all_mono; [|exact C1]. intros m1 [A1 S1]. cbn [always_all dbuf].
    assert (U1 : forall i, i < 7 -> i = 0 \/ 5 <= i -> forall j, m1 (nth i [p; mo; mt; mtr; ms; vo; vs] 0, j) = m (nth i [p; mo; mt; mtr; ms; vo; vs] 0, j)).
    { intros i Hi Ni j. apply S1; [apply (ND' i 1); lia|]. intros [X|[X|[X|[]]]]; [apply (ND' 4 i)|apply (ND' 2 i)|apply (ND' 3 i)]; solve [lia|exact X]. }
    eapply always_mono.
    { rewrite <- (WN keep) at 1. rewrite <- size_numel. apply cuda_fill_partial; rewrite size_numel, WN; [nia|]. apply (room_same m); [exact R5|]. apply (U1 5); lia. }
    intros m2 [A2 S2]. 
    assert (VK : computes (kReduceMultiDimVar vo (mkD p sh) mo ax (Z.of_nat rest)) m2 vo (without_dim keep k sh)
       (fun ridx => let mu := M (offsetToIndices (without_dim true k sh) (ravel (without_dim keep k sh) ridx)) in sum (K := Rring) (fun idx => (F idx - mu) * (F idx - mu))%R (group ax keep sh ridx))).
    { rewrite <- (RS keep). rewrite <- (WN keep), <- (RS keep). apply var_kernel.
      - apply positive_of. rewrite <- size_numel. lia.
      - exact Lax.
      - change (reduced_shape ax keep sh) with (getReduceShape sh ax keep). rewrite RS, WN. nia.
      - change (reduced_shape ax keep sh) with (getReduceShape sh ax keep). rewrite RS, !WN. reflexivity.
      - apply (ND' 5 0); lia.
      - apply (ND' 5 1); lia.
      - apply (has_same m); [exact HF|]. intros j. rewrite S2 by (apply (ND' 0 5); lia). apply (U1 0); lia.
      - apply (has_same m1); [exact A1|]. intros j. apply S2. apply (ND' 1 5); lia.
      - change (reduced_shape ax keep sh) with (getReduceShape sh ax keep). rewrite RS. apply (has_room R _ _ _ _ A2). }
    eapply always_mono; [exact VK|]. intros m3 [A3 S3].
    destruct (scale_ok m3 vo (without_dim keep k sh) _ (varFactor (INR (numel sh) / INR rest) u) vs ltac:(rewrite WN; nia) ltac:(apply (ND' 6 5); lia) A3) as (l3' & E3' & C3).
    { apply (room_same m); [exact R6|]. intros j. rewrite S3 by (apply (ND' 6 5); lia). rewrite S2 by (apply (ND' 6 5); lia). apply (U1 6); lia. }
    rewrite E3 in E3'. injection E3' as <-. eapply always_all_mono; [|exact C3]. intros m4 [A4 S4]. split; [|split].
    + apply (has_eq _ _ _ _ _ A4). intros ridx Hv. cbv zeta. rewrite <- size_numel, ES, mult_INR.
      replace (INR n * INR rest / INR rest)%R with (INR n) by (destruct Hn as [H1 H2]; apply lt_INR in H2; cbn [INR] in H2; field; lra).
      rewrite var_factor by lia. unfold variance. rewrite seq_length. f_equal.
      pose proof Hv as Hv'. rewrite <- RS in Hv. change (getReduceShape sh ax keep) with (reduced_shape ax keep sh) in Hv. unfold ax in Hv. rewrite Es, rshape_one in Hv.
      destruct (valid_mid _ _ _ _ Hv) as (a & b & Er & Va & Vb). pose proof (valid_length _ _ Va) as La. pose proof (valid_length _ _ Vb) as Lb.
      assert (EM : M (offsetToIndices (without_dim true k sh) (ravel (without_dim keep k sh) ridx)) = average (fun j => F (with_coord keep k ridx j)) (seq 0 n)).
      { unfold M. replace (offsetToIndices (without_dim true k sh) (ravel (without_dim keep k sh) ridx)) with (a ++ [0] ++ b).
        - subst ridx. rewrite <- Lp, <- La. unfold average. f_equal. apply sum_ext. intros j _. exact (f_equal F (eq_trans (with_coord_mid a b true j) (eq_sym (with_coord_mid a b keep j)))).
        - rewrite <- !RS. change (getReduceShape sh ax) with (fun kp => reduced_shape ax kp sh). cbv beta. unfold ax. rewrite Es, !rshape_one, Er.
          assert (V1 : valid (pre ++ [1] ++ post) (a ++ [0] ++ b)) by (apply valid_app; [congruence|]; split; [exact Va|]; constructor; [lia|exact Vb]).
          rewrite <- (o2i_ravel _ _ V1). f_equal. destruct keep; [reflexivity|]. cbn [app]. rewrite !ravel_app by congruence. cbn [app]. rewrite ravel_cons, !numel_cons. lia. }
      rewrite EM. set (mu := average (fun j => F (with_coord keep k ridx j)) (seq 0 n)).
      unfold ax. rewrite Es. rewrite (sum_perm _ _ _ (group_line pre n post keep ridx Hv)). rewrite sum_map, Lp. reflexivity.
    + apply (has_same m1); [exact A1|]. intros j. rewrite S4; [|apply (ND' 1 5); lia|intros [X|[]]; apply (ND' 6 1); [lia|lia|lia|exact X]].
      rewrite S3 by (apply (ND' 1 5); lia). apply S2. apply (ND' 1 5); lia.
    + intros q Hq j. cbn [In] in Hq. rewrite S4 by (cbn [In]; intuition congruence). rewrite S3 by intuition congruence. rewrite S2 by intuition congruence. apply S1; cbn [In]; intuition congruence.
Qed.
