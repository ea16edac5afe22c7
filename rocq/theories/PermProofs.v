From Coq Require Import ZArith List Bool Arith Lia Permutation.
From Verif Require Import ShapeModel ShapeSpec ShapeProofs TensorModel TensorSpec TensorLemmas BcastModel BcastProofs BufModel BufProofs PermModel PermSpec.
Import ListNotations.

Lemma map_nth_seq (l : list nat) : map (fun d => nth d l 0) (seq 0 (length l)) = l.
Proof.
  apply nth_error_ext'. intro k. rewrite nth_error_map, nth_error_seq. destruct (Nat.ltb_spec k (length l)); simpl.
  - symmetry. apply nth_error_nth'. auto.
  - symmetry. apply nth_error_None. auto.
Qed.
Lemma ito_map (f g : nat -> nat) l : indicesToOffset (map f l) (map g l) = list_sum (map (fun d => g d * f d) l).
Proof. induction l as [|d l IH]; [reflexivity|]. simpl map. rewrite ito_cons, IH. reflexivity. Qed.
Lemma list_sum_perm l m : Permutation l m -> list_sum l = list_sum m.
Proof. induction 1; simpl; lia. Qed.
Lemma perm_dot n ds st idx : is_perm n ds -> length st = n -> length idx = n ->
  indicesToOffset (map (fun d => nth d st 0) ds) (permuted ds idx) = indicesToOffset st idx.
Proof.
  intros P L1 L2. unfold permuted. rewrite ito_map.
  rewrite (list_sum_perm _ _ (Permutation_map _ P)). rewrite <- ito_map.
  rewrite <- L1 at 1. rewrite <- L2. rewrite !map_nth_seq. auto.
Qed.
Lemma origin_acc rsh : forall ridx w a, valid rsh ridx -> length w = length rsh ->
  fst (fold_left (fun acc p => (fst acc + snd acc / fst p * snd p, snd acc mod fst p)) (combine (strides rsh) w) (a, ravel rsh ridx))
  = a + indicesToOffset w ridx.
Proof.
  induction rsh as [|d rsh IH]; intros ridx w a H L; inversion H; subst; destruct w as [|w0 w]; try discriminate L.
  - cbn. lia.
  - rename x into i, l into idx. rewrite strides_cons, ravel_cons. cbn [combine fold_left fst snd].
    pose proof (ravel_lt rsh idx H4) as Hlt.
    rewrite Nat.div_add_l, (Nat.div_small (ravel rsh idx)) by lia.
    rewrite Nat.add_comm with (n := i * numel rsh), Nat.mod_add, Nat.mod_small by lia.
    rewrite IH by (auto; simpl in L; lia). rewrite ito_cons. lia.
Qed.
Lemma origin_spec rsh ridx w : valid rsh ridx -> length w = length rsh -> originIndex (strides rsh) w (ravel rsh ridx) = indicesToOffset w ridx.
Proof. intros. unfold originIndex. rewrite origin_acc by auto. auto. Qed.

Lemma numel_perm l m : Permutation l m -> numel l = numel m.
Proof. induction 1; rewrite ?numel_cons; try lia. Qed.
Lemma permuted_perm n ds sh : is_perm n ds -> length sh = n -> Permutation (permuted ds sh) sh.
Proof. intros P <-. unfold permuted. eapply Permutation_trans; [apply Permutation_map; exact P|]. rewrite map_nth_seq. auto. Qed.
Lemma is_perm_lt n ds d : is_perm n ds -> In d ds -> d < n.
Proof. intros P H. apply (Permutation_in _ P), in_seq in H. lia. Qed.
Lemma is_perm_length n ds : is_perm n ds -> length ds = n.
Proof. intros P. rewrite (Permutation_length P). apply seq_length. Qed.
Lemma nth_map_d (f : nat -> nat) l i : i < length l -> nth i (map f l) 0 = f (nth i l 0).
Proof. intro H. rewrite (nth_indep _ 0 (f 0)) by (rewrite map_length; auto). apply map_nth. Qed.

Lemma valid_nth sh idx : valid sh idx <-> length idx = length sh /\ forall d, d < length sh -> nth d idx 0 < nth d sh 0.
Proof.
  split.
  - intro H. split; [apply (valid_length _ _ H)|]. induction H; intros d Hd; simpl in *; [lia|]. destruct d; auto. apply IHForall2. lia.
  - revert idx. induction sh as [|s sh IH]; intros [|i idx] [L H]; simpl in L; try lia; constructor.
    + apply (H 0). simpl; lia.
    + apply IH. split; [lia|]. intros d Hd. apply (H (S d)). simpl. lia.
Qed.
Lemma permuted_valid n ds sh idx : is_perm n ds -> length sh = n -> valid sh idx -> valid (permuted ds sh) (permuted ds idx).
Proof.
  intros P L H. pose proof (is_perm_length _ _ P). apply valid_nth in H. destruct H as [L2 H]. apply valid_nth.
  unfold permuted. rewrite !map_length. split; auto. intros d Hd. rewrite !nth_map_d by auto.
  apply H. rewrite L. apply (is_perm_lt _ _ _ P). apply nth_In. auto.
Qed.

Lemma inverse_exists n ds : is_perm n ds -> exists es, is_perm n es /\ inverse_of n ds es /\ inverse_of n es ds.
Proof.
  intro P. pose proof (is_perm_length _ _ P) as L.
  assert (ND : NoDup ds) by (apply (Permutation_NoDup (Permutation_sym P)), seq_NoDup).
  assert (HI : forall k, k < n -> exists j, j < n /\ nth j ds 0 = k).
  { intros k Hk. assert (In k ds) as Hin by (apply (Permutation_in _ (Permutation_sym P)), in_seq; lia).
    apply (In_nth _ _ 0) in Hin. destruct Hin as (j & Hj & E). exists j. split; auto. lia. }
  pose (pos := fun k => match find (fun j => nth j ds 0 =? k) (seq 0 n) with Some j => j | None => 0 end).
  assert (Hpos : forall k, k < n -> pos k < n /\ nth (pos k) ds 0 = k).
  { intros k Hk. unfold pos. destruct (find _ _) as [j|] eqn:E.
    - apply find_some in E. destruct E as [E1 E2]. apply in_seq in E1. apply Nat.eqb_eq in E2. split; auto. lia.
    - destruct (HI k Hk) as (j & Hj & Ej). exfalso.
      pose proof (find_none _ _ E j ltac:(apply in_seq; lia)) as Q. simpl in Q. rewrite Ej, Nat.eqb_refl in Q. discriminate. }
  pose (es := map pos (seq 0 n)).
  assert (Hes : forall i, i < n -> nth i es 0 = pos i).
  { intros i Hi. unfold es. rewrite nth_map_d by (rewrite seq_length; auto). rewrite seq_nth by auto. reflexivity. }
  assert (LE : length es = n) by (unfold es; rewrite map_length, seq_length; auto).
  assert (I1 : inverse_of n ds es).
  { split; auto. intros i Hi. rewrite Hes by auto. apply Hpos; auto. }
  assert (I2 : inverse_of n es ds).
  { split; auto. intros i Hi.
    assert (Hd : nth i ds 0 < n) by (apply (is_perm_lt _ _ _ P), nth_In; lia).
    rewrite Hes by auto. destruct (Hpos _ Hd) as [H1 H2].
    apply (proj1 (NoDup_nth ds 0) ND); lia. }
  exists es. split; [|split]; auto.
  apply NoDup_Permutation; [|apply seq_NoDup|].
  - apply (NoDup_nth es 0). rewrite LE. intros i j Hi Hj E.
    destruct I1 as [_ I1]. rewrite <- (I1 i Hi), <- (I1 j Hj), E. auto.
  - intro x. rewrite in_seq. unfold es. rewrite in_map_iff. split.
    + intros (k & <- & Hk). apply in_seq in Hk. destruct (Hpos k); lia.
    + intros Hx. exists (nth x ds 0). assert (Hd : nth x ds 0 < n) by (apply (is_perm_lt _ _ _ P), nth_In; lia).
      split; [|apply in_seq; lia]. destruct I2 as [_ I2]. rewrite <- Hes by auto. apply I2. lia.
Qed.
Lemma permuted_inverse n ds es idx : inverse_of n ds es -> is_perm n es -> length ds = n -> length idx = n -> permuted es (permuted ds idx) = idx.
Proof.
  intros [LE I] P LD L. transitivity (map (fun d => nth d idx 0) (seq 0 (length idx))); [|apply map_nth_seq].
  unfold permuted. rewrite L. rewrite <- (map_nth_seq es), map_map, LE.
  apply map_ext_in. intros i Hi. apply in_seq in Hi.
  rewrite nth_map_d; [rewrite I by lia; auto|]. rewrite LD. apply (is_perm_lt _ _ _ P), nth_In. lia.
Qed.

Lemma names_axis rank dims ds : names rank dims ds -> seqopt (map (axis rank) dims) = Some ds.
Proof.
  induction 1 as [|d k dims ds H _ IH]; auto. simpl. rewrite (proj2 (axis_some rank d k)) by auto. simpl. rewrite IH. auto.
Qed.

Lemma permute_correct {A} sh (F G : list nat -> A) dims ds : names (length sh) dims ds -> is_perm (length sh) ds ->
  (forall idx, valid sh idx -> G (permuted ds idx) = F idx) ->
  permute (tensor_of sh F) dims = Ok (tensor_of (permuted ds sh) G).
Proof.
  intros HN P HG. pose proof (is_perm_length _ _ P) as L.
  unfold permute. cbn [tshape tensor_of]. fold (tensor_of sh F).
  rewrite (Forall2_length _ _ _ HN), L, Nat.eqb_refl. cbn [negb]. cbv zeta.
  unfold reorderIndices. rewrite (names_axis _ _ _ HN). fold (permuted ds sh).
  set (rsh := permuted ds sh).
  assert (NE : numel rsh = numel sh) by (apply numel_perm, (permuted_perm (length sh)); auto).
  rewrite <- NE.
  destruct (inverse_exists _ _ P) as (es & PE & I1 & I2).
  apply (fill_tensor (seq 0 (numel rsh)) (offsetToIndices rsh)).
  - intros b i Hi _. apply in_seq in Hi.
    pose proof (o2i_valid rsh i ltac:(lia)) as V. set (ridx := offsetToIndices rsh i) in *.
    assert (Ei : ravel rsh ridx = i) by (apply ravel_o2i; lia). rewrite <- Ei at 1.
    rewrite origin_spec by (auto; unfold rsh, permuted; rewrite !map_length; auto).
    set (idx := permuted es ridx).
    assert (LR : length ridx = length sh) by (rewrite (valid_length _ _ V); unfold rsh, permuted; rewrite map_length; auto).
    assert (Eidx : permuted ds idx = ridx) by (apply (permuted_inverse (length sh)); auto; apply is_perm_length; auto).
    assert (Vidx : valid sh idx).
    { pose proof (permuted_valid (length sh) es rsh ridx PE) as Q.
      unfold rsh in Q. rewrite (permuted_inverse (length sh)) in Q by auto. apply Q; auto.
      unfold permuted. rewrite map_length; auto. }
    rewrite <- Eidx at 1. rewrite (perm_dot (length sh)); auto; [|apply strides_length|apply (valid_length _ _ Vidx)].
    fold (ravel sh idx). rewrite rd_of_idx by auto. cbn [obind]. rewrite Ei. rewrite <- HG by auto. rewrite Eidx. reflexivity.
  - intros i Hi. apply in_seq in Hi. apply o2i_valid. lia.
  - intros idx V. exists (ravel rsh idx). split; [apply in_seq; pose proof (ravel_lt _ _ V); lia|]. apply o2i_ravel; auto.
Qed.

Lemma permute_exists {A} sh (F : list nat -> A) dims ds : names (length sh) dims ds -> is_perm (length sh) ds ->
  exists G, permute (tensor_of sh F) dims = Ok (tensor_of (permuted ds sh) G) /\ forall idx, valid sh idx -> G (permuted ds idx) = F idx.
Proof.
  intros HN P. destruct (inverse_exists _ _ P) as (es & PE & I1 & I2). exists (fun ridx => F (permuted es ridx)).
  assert (Q : forall idx, valid sh idx -> F (permuted es (permuted ds idx)) = F idx).
  { intros idx V. rewrite (permuted_inverse (length sh)); auto. apply is_perm_length; auto. apply (valid_length _ _ V). }
  split; auto. apply permute_correct; auto.
Qed.
Lemma permute_back {A} sh (F : list nat -> A) dims dims' ds es : names (length sh) dims ds -> is_perm (length sh) ds ->
  names (length sh) dims' es -> is_perm (length sh) es -> inverse_of (length sh) ds es ->
  exists r, permute (tensor_of sh F) dims = Ok r /\ permute r dims' = Ok (tensor_of sh F).
Proof.
  intros HN P HN' PE HI. destruct (permute_exists sh F dims ds HN P) as (G & E & HG). eexists. split; [exact E|].
  pose proof (is_perm_length _ _ P) as L.
  assert (LR : length (permuted ds sh) = length sh) by (unfold permuted; rewrite map_length; auto).
  rewrite (permute_correct (permuted ds sh) G F dims' es); rewrite ?LR; auto.
  - rewrite (permuted_inverse (length sh)); auto.
  - intros ridx V.
    assert (V' : valid sh (permuted es ridx)).
    { pose proof (permuted_valid (length sh) es _ _ PE LR V) as Q. rewrite (permuted_inverse (length sh)) in Q; auto. }
    rewrite <- HG by auto. f_equal.
    (* ds undoes es as well *)
    destruct (inverse_exists _ _ P) as (es' & PE' & I1 & I2).
    assert (es = es') as ->; [|apply (permuted_inverse (length sh)); auto; [apply is_perm_length; auto|]; rewrite (valid_length _ _ V); auto].
    destruct HI as [LE HI], I1 as [LE' I1]. apply (nth_ext _ _ 0 0); [congruence|]. intros i Hi.
    assert (ND : NoDup ds) by (apply (Permutation_NoDup (Permutation_sym P)), seq_NoDup).
    apply (proj1 (NoDup_nth ds 0) ND).
    + rewrite L. apply (is_perm_lt _ _ _ PE), nth_In. auto.
    + rewrite L. apply (is_perm_lt _ _ _ PE'), nth_In. lia.
    + rewrite HI, I1 by lia. auto.
Qed.
