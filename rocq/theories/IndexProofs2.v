From Coq Require Import ZArith List Bool Arith Lia.
From Coq Require Import ZifyBool ZifyNat.
From Verif Require Import ShapeModel ShapeSpec ShapeProofs TensorModel TensorSpec TensorLemmas BcastModel BcastSpec BcastProofs BcastProofs2 BufModel BufProofs PermProofs PermProofs2 CutModel CutSpec CutProofs CutProofs2 IndexModel IndexSpec IndexProofs.
Import ListNotations.

Lemma stride_at done d rest : at_ (stridesZ (map Z.of_nat (done ++ d :: rest))) (Z.of_nat (length done)) = Some (Z.of_nat (numel rest)).
Proof.
  unfold at_. replace (Z.of_nat (length done) <? 0)%Z with false by lia. rewrite Nat2Z.id.
  induction done as [|x done IH]; cbn [app map length]; rewrite stridesZ_cons; cbn [nth_error]; auto. rewrite numelZ_of_nat. auto.
Qed.
Lemma size_at done d rest : at_ (map Z.of_nat (done ++ d :: rest)) (Z.of_nat (length done)) = Some (Z.of_nat d).
Proof.
  unfold at_. replace (Z.of_nat (length done) <? 0)%Z with false by lia. rewrite Nat2Z.id. rewrite nth_error_map, nth_error_app2, Nat.sub_diag by lia. auto.
Qed.
Lemma names_cons d sh z idx p pre : names_coords (d :: sh) (z :: idx) (p :: pre) <-> dim_is d z p /\ names_coords sh idx pre.
Proof.
  unfold names_coords. simpl. split.
  - intros (L1 & L2 & H). split; [apply (H 0); lia|]. repeat split; try lia; apply (H (S i)); lia.
  - intros (H0 & L1 & L2 & H). repeat split; try lia; destruct i; try apply H0; apply H; lia.
Qed.
Lemma names_valid : forall sh idx pre, names_coords sh idx pre -> valid (firstn (length pre) sh) pre.
Proof.
  induction sh as [|d sh IH]; intros idx pre (L1 & L2 & H); destruct pre as [|p pre]; destruct idx as [|z idx]; simpl in *; try lia; try constructor.
  - apply (H 0). lia.
  - apply (IH idx). apply (proj1 (names_cons d sh z idx p pre)). repeat split; simpl; auto; apply H; simpl; auto.
Qed.
Lemma dataIndex_fold {A} (s : sten A) : forall pre idx done rest acc, sshape s = map Z.of_nat (done ++ rest) -> names_coords rest idx pre ->
  fold_left (fun acc p => obind acc (fun acc =>
      obind (at_ (sshape s) (Z.of_nat (fst p))) (fun d =>
      obind (at_ (stridesZ (sshape s)) (Z.of_nat (fst p))) (fun st =>
      Some (acc + (if 0 <=? snd p then snd p else snd p + d) * st)%Z))))
    (combine (seq (length done) (length idx)) idx) (Some acc)
  = Some (acc + Z.of_nat (ravel (firstn (length pre) rest) pre * numel (skipn (length pre) rest)))%Z.
Proof.
  induction pre as [|p pre IH]; intros idx done rest acc ES N.
  - destruct N as (L1 & _). destruct idx; [|discriminate]. simpl. f_equal. lia.
  - destruct idx as [|z idx]; [destruct N; discriminate|]. destruct rest as [|d rest]; [destruct N as (_ & L & _); simpl in L; lia|].
    apply names_cons in N. destruct N as [Hd N]. cbn [length seq combine fold_left fst snd]. rewrite ES, size_at, stride_at. cbn [obind].
    rewrite <- ES. specialize (IH idx (done ++ [d]) rest). rewrite app_length in IH. cbn [length] in IH. rewrite Nat.add_1_r in IH.
    rewrite IH by (auto; rewrite <- app_assoc; auto). f_equal. cbn [firstn skipn]. rewrite ravel_cons.
    apply dim_is_norm in Hd. destruct Hd as [Hp Hz].
    replace (if 0 <=? z then z else z + Z.of_nat d)%Z with (Z.of_nat p) by (rewrite <- Hz; destruct (Z.ltb_spec z 0), (Z.leb_spec 0 z); lia).
    assert (EN : numel rest = numel (firstn (length pre) rest) * numel (skipn (length pre) rest)).
    { rewrite <- numel_app, firstn_skipn. auto. }
    rewrite EN. nia.
Qed.
Lemma dimStride_at sh m : 0 < m -> m <= length sh -> dimAt (stridesZ (map Z.of_nat sh)) (Z.of_nat m - 1) = Some (Z.of_nat (numel (skipn m sh))).
Proof.
  intros H1 H2. unfold dimAt. replace (Z.of_nat m - 1 <? 0)%Z with false by lia.
  destruct (list_split_at sh (m - 1)) as (a & x & b & -> & L); [lia|]. replace (Z.of_nat m - 1)%Z with (Z.of_nat (length a)) by lia. rewrite stride_at.
  replace m with (length a + 1) by lia. rewrite skipn_app, skipn_all2 by lia. replace (length a + 1 - length a) with 1 by lia. auto.
Qed.
Lemma index_correct {A} esz (s : sten A) sh F idx pre : (1 <= esz)%Z -> soff s = 0%Z -> holds s sh F -> idx <> [] -> names_coords sh idx pre ->
  exists p, index esz s idx = Ok p /\ holds p (skipn (length idx) sh) (fun rest => F (pre ++ rest)).
Proof.
  intros He H0 H Hne N. pose proof (holds_inv _ _ _ H) as (ES & [I1 I2] & HR). rewrite H0 in *. pose proof (names_valid _ _ _ N) as V.
  pose proof N as (L1 & L2 & _). set (m := length pre) in *.
  unfold index, dataIndex. pose proof (dataIndex_fold s pre idx [] sh 0%Z ES N) as EF. cbn [length] in EF. rewrite EF. clear EF. rewrite L1, ES.
  rewrite dimStride_at by (destruct idx; simpl in *; [congruence|lia]). rewrite Z.add_0_l. fold m.
  set (post := skipn m sh) in *. set (ps := firstn m sh) in *. assert (Esh : sh = ps ++ post) by (symmetry; apply firstn_skipn).
  pose proof (ravel_lt _ _ V) as HL. set (o := ravel ps pre * numel post) in *.
  assert (HO : o + numel post <= numel sh) by (rewrite Esh, numel_app; unfold o; nia).
  rewrite ES, numelZ_of_nat in I2.
  assert (Emap : skipn m (map Z.of_nat sh) = map Z.of_nat post) by (unfold post; apply skipn_map).
  unfold mkview, view_check. rewrite Emap, numelZ_of_nat.
  replace (_ <=? _)%Z with true by (symmetry; apply Z.leb_le; nia). cbn [rbind sshape].
  rewrite numelZ_of_nat, Z.eqb_refl. eexists. split; [reflexivity|]. apply holds_intro; auto.
  - split; cbn [soff sshape sstore]; [lia|]. rewrite numelZ_of_nat. lia.
  - intros k Hk. unfold srd. cbn [soff sstore]. replace (Z.of_nat o + Z.of_nat k)%Z with (0 + Z.of_nat (o + k))%Z by lia.
    specialize (HR (o + k)). unfold srd in HR. rewrite H0 in HR. rewrite HR by lia. f_equal. f_equal.
    rewrite <- (o2i_ravel sh (pre ++ offsetToIndices post k)).
    + f_equal. rewrite Esh, ravel_app by (apply (valid_length _ _ V)). rewrite ravel_o2i by auto. auto.
    + rewrite Esh. apply valid_app; [apply (valid_length _ _ V)|]. split; auto. apply o2i_valid; auto.
Qed.
Lemma find_none_iff {X} (f : X -> bool) l : find f l = None <-> forall x, In x l -> f x = false.
Proof.
  split; [apply find_none|]. induction l as [|x l IH]; intro H; simpl; auto. rewrite (H x) by (left; auto). apply IH. intros; apply H; right; auto.
Qed.
Lemma indexPut_correct {A} sh (F : list nat -> A) idx pre vsh V : idx <> [] -> names_coords sh idx pre ->
  vsh = [] \/ vsh <> [] /\ numel vsh = numel (skipn (length idx) sh) ->
  indexPut (tensor_of sh F) idx (tensor_of vsh V)
  = Ok (tensor_of sh (fun i => if same_idx (firstn (length idx) i) pre
                               then (match vsh with [] => V [] | _ => V (offsetToIndices vsh (ravel (skipn (length idx) sh) (skipn (length idx) i))) end)
                               else F i)).
Proof.
  intros Hne N HV. pose proof (names_valid _ _ _ N) as Vp. pose proof N as (L1 & L2 & _). set (m := length pre) in *.
  unfold indexPut, dataIndex. pose proof (dataIndex_fold (asS (tensor_of sh F)) pre idx [] sh 0%Z eq_refl N) as EF. cbn [length] in EF. rewrite EF. clear EF.
  rewrite L1 in *. change (tshape (tensor_of sh F)) with sh.
  rewrite dimStride_at by (destruct idx; simpl in *; [congruence|lia]). rewrite Z.add_0_l. fold m.
  set (post := skipn m sh) in *. set (ps := firstn m sh) in *. assert (Esh : sh = ps ++ post) by (symmetry; apply firstn_skipn).
  pose proof (ravel_lt _ _ Vp) as HL. set (o := ravel ps pre * numel post) in *. rewrite Nat2Z.id.
  assert (Lp : length pre = length ps) by (apply (valid_length _ _ Vp)).
  assert (HW : forall (f : nat -> option A) (g : list nat -> A), (forall k, k < numel post -> f k = Some (g (offsetToIndices post k))) ->
    match loop (seq 0 (numel post)) (tdata (tensor_of sh F)) (fun l k => obind (f k) (fun v => wrZ l (Z.of_nat o + Z.of_nat k) v)) with
    | None => UB | Some d => Ok (mkT sh d) end = Ok (tensor_of sh (fun i => if same_idx (firstn m i) pre then g (skipn m i) else F i))).
  { intros f g Hf. rewrite (writes_tensor (seq 0 (numel post)) (fun k => pre ++ offsetToIndices post k) (fun k => g (offsetToIndices post k))).
    - f_equal. change (mkT sh (tdata (tensor_of sh ?G))) with (tensor_of sh G). apply tensor_of_ext.
      intros i Vi. unfold after_writes.
      destruct (find _ _) as [k|] eqn:E.
      + apply find_some in E. destruct E as [Hk E]. apply in_rev, in_seq in Hk. apply same_idx_true in E. subst i.
        unfold m. rewrite firstn_app, firstn_all, Nat.sub_diag. simpl firstn. rewrite app_nil_r. rewrite (proj2 (same_idx_true _ _) eq_refl).
        rewrite skipn_app, skipn_all, Nat.sub_diag. auto.
      + destruct (same_idx (firstn m i) pre) eqn:E2; auto. apply same_idx_true in E2. exfalso. rewrite find_none_iff in E.
        rewrite Esh in Vi. rewrite <- (firstn_skipn m i), E2 in Vi. apply valid_app in Vi; [|auto]. destruct Vi as [_ Vi].
        specialize (E (ravel post (skipn m i))). rewrite <- in_rev, in_seq in E. pose proof (ravel_lt _ _ Vi). specialize (E ltac:(lia)).
        rewrite o2i_ravel in E by auto. rewrite <- E2, firstn_skipn in E. rewrite (proj2 (same_idx_true _ _) eq_refl) in E. discriminate.
    - intros d k Hk _. apply in_seq in Hk. rewrite Hf by lia. cbn [obind]. unfold wrZ. replace (Z.of_nat o + Z.of_nat k <? 0)%Z with false by lia.
      f_equal. rewrite Esh, ravel_app by auto. rewrite ravel_o2i by lia. fold o. lia.
    - intros k Hk. apply in_seq in Hk. rewrite Esh. apply valid_app; auto. split; auto. apply o2i_valid. lia. }
  destruct vsh as [|v0 vsh].
  - cbn [isScalar tshape tensor_of]. apply (HW _ (fun _ => V [])). intros; auto.
  - destruct HV as [HV|[_ HV]]; [discriminate|]. unfold isScalar. cbn [tshape tensor_of]. unfold tnumel. cbn [tshape tensor_of]. rewrite HV, Z.eqb_refl.
    apply (HW _ (fun rest => V (offsetToIndices (v0 :: vsh) (ravel post rest)))). intros k Hk. rewrite ravel_o2i by auto. apply (rd_of (v0 :: vsh) V). lia.
Qed.
