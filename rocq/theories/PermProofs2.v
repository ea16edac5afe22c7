From Coq Require Import ZArith List Bool Arith Lia Permutation.
From Verif Require Import ShapeModel ShapeSpec ShapeProofs TensorModel TensorSpec TensorLemmas BcastModel BcastProofs BcastProofs2 BufModel BufProofs PermModel PermSpec PermProofs.
Import ListNotations.

(** * Exchanging two dimensions *)
Definition tr (a b i : nat) : nat := if i =? a then b else if i =? b then a else i.
Lemma nth_set_nth (l : list nat) i v k : nth k (set_nth l i v) 0 = if (k =? i) && (i <? length l) then v else nth k l 0.
Proof.
  revert i k. induction l as [|x l IH]; intros i k; simpl.
  - destruct k; rewrite andb_false_r; reflexivity.
  - destruct i as [|i], k as [|k]; simpl; auto. rewrite IH. reflexivity.
Qed.
Lemma swapped_length a b l : length (swapped a b l) = length l.
Proof. unfold swapped. rewrite !set_nth_length. auto. Qed.
Lemma swapped_nth a b l i : a < length l -> b < length l -> nth i (swapped a b l) 0 = nth (tr a b i) l 0.
Proof.
  intros Ha Hb. unfold swapped, tr. rewrite !nth_set_nth, set_nth_length.
  rewrite (proj2 (Nat.ltb_lt a _) Ha), (proj2 (Nat.ltb_lt b _) Hb), !andb_true_r.
  destruct (Nat.eqb_spec i b), (Nat.eqb_spec i a); subst; auto.
Qed.
Lemma tr_invol a b i : tr a b (tr a b i) = i.
Proof.
  unfold tr. destruct (Nat.eqb_spec i a) as [->|Na].
  - rewrite Nat.eqb_refl. destruct (Nat.eqb_spec b a); auto.
  - destruct (Nat.eqb_spec i b) as [->|Nb]; [rewrite Nat.eqb_refl; auto|].
    rewrite (proj2 (Nat.eqb_neq i a) Na), (proj2 (Nat.eqb_neq i b) Nb). auto.
Qed.
Lemma tr_lt a b n i : a < n -> b < n -> i < n -> tr a b i < n.
Proof. unfold tr. destruct (i =? a), (i =? b); auto. Qed.
Lemma swapped_seq a b n : a < n -> b < n -> swapped a b (seq 0 n) = map (tr a b) (seq 0 n).
Proof.
  intros Ha Hb. apply (nth_ext _ _ 0 0); rewrite swapped_length; [rewrite map_length; auto|]. intros i Hi. rewrite seq_length in Hi.
  rewrite swapped_nth by (rewrite seq_length; auto). rewrite nth_map_d by (rewrite seq_length; auto).
  rewrite !seq_nth; auto. apply tr_lt; auto.
Qed.
Lemma swapped_permuted a b l : a < length l -> b < length l -> swapped a b l = permuted (swapped a b (seq 0 (length l))) l.
Proof.
  intros Ha Hb. rewrite swapped_seq by auto. unfold permuted. rewrite map_map.
  apply (nth_ext _ _ 0 0); rewrite swapped_length; [rewrite map_length, seq_length; auto|]. intros i Hi.
  rewrite nth_map_d by (rewrite seq_length; auto). rewrite seq_nth by auto. apply swapped_nth; auto.
Qed.
Lemma swapped_perm a b n : a < n -> b < n -> is_perm n (swapped a b (seq 0 n)).
Proof.
  intros Ha Hb. rewrite swapped_seq by auto. apply NoDup_Permutation; [|apply seq_NoDup|].
  - apply FinFun.Injective_map_NoDup; [|apply seq_NoDup]. intros x y E. rewrite <- (tr_invol a b x), E. apply tr_invol.
  - intro x. rewrite in_map_iff. split.
    + intros (y & <- & Hy). apply in_seq in Hy. apply in_seq. pose proof (tr_lt a b n y); lia.
    + intros Hx. apply in_seq in Hx. exists (tr a b x). split; [apply tr_invol|]. apply in_seq. pose proof (tr_lt a b n x); lia.
Qed.

(** * Dimensions of size 1 *)
Definition non1 (p : nat * nat) : bool := negb (fst p =? 1).
Lemma ravel_squeeze (ps : list (nat * nat)) : Forall (fun p => snd p < fst p) ps ->
  ravel (map fst ps) (map snd ps) = ravel (map fst (filter non1 ps)) (map snd (filter non1 ps))
  /\ numel (map fst ps) = numel (map fst (filter non1 ps)).
Proof.
  induction 1 as [|[d i] ps H _ [IH1 IH2]]; auto. simpl in H. cbn [map fst snd filter]. change (non1 (d, i)) with (negb (d =? 1)).
  rewrite ravel_cons, numel_cons, IH1, IH2. destruct (Nat.eqb_spec d 1); cbn [negb].
  - subst. replace i with 0 by lia. lia.
  - cbn [map fst snd]. rewrite ravel_cons, numel_cons. auto.
Qed.
Lemma filter_map {A B} (f : A -> B) p l : filter p (map f l) = map f (filter (fun x => p (f x)) l).
Proof. induction l as [|x l IH]; simpl; auto. rewrite IH. destruct (p (f x)); auto. Qed.
Lemma ravel_only_ones sh ds idx : is_perm (length sh) ds -> moves_only_ones sh ds -> valid sh idx ->
  ravel (permuted ds sh) (permuted ds idx) = ravel sh idx.
Proof.
  intros P M V. pose proof (valid_length _ _ V) as L. apply valid_nth in V. destruct V as [_ V].
  assert (Q : forall l, Forall (fun d => d < length sh) l ->
    ravel (permuted l sh) (permuted l idx) = ravel (permuted (filter (fun d => negb (nth d sh 0 =? 1)) l) sh) (permuted (filter (fun d => negb (nth d sh 0 =? 1)) l) idx)).
  { intros l Hl. pose (f := fun d => (nth d sh 0, nth d idx 0)).
    pose proof (proj1 (ravel_squeeze (map f l) ltac:(apply Forall_map; eapply Forall_impl; [|exact Hl]; intros d Hd; apply V; exact Hd))) as E.
    rewrite filter_map, !map_map in E. exact E. }
  rewrite Q; [|apply Forall_forall; intros d Hd; apply (is_perm_lt _ _ _ P Hd)].
  rewrite M. rewrite <- Q; [|apply Forall_forall; intros d Hd; apply in_seq in Hd; lia].
  unfold permuted. rewrite <- L at 2. rewrite !map_nth_seq. auto.
Qed.

Lemma viewAs_data {A} (t : tensor A) sh : twf t -> numel sh = tnumel t -> viewAs t sh = mkT sh (tdata t).
Proof.
  intros W E. unfold viewAs. cbv zeta. rewrite reshape_exact; cbn [newView vshape vdata vnumel].
  - f_equal. rewrite map_map. rewrite <- (map_id sh) at 2. apply map_ext. intro. apply Nat2Z.id.
  - rewrite numelZ_prod. apply prod_nonneg. apply Forall_map, Forall_forall. intros; lia.
  - apply Forall_map, Forall_forall. intros; lia.
  - rewrite numelZ_prod, !prod_of_nat. f_equal. exact E.
Qed.
Lemma viewAs_of {A} sh rsh (F : list nat -> A) (G : list nat -> A) (f : list nat -> list nat) :
  numel rsh = numel sh -> (forall idx, valid sh idx -> ravel rsh (f idx) = ravel sh idx /\ valid rsh (f idx) /\ G (f idx) = F idx) ->
  viewAs (tensor_of sh F) rsh = tensor_of rsh G.
Proof.
  intros E H. rewrite viewAs_data; [|apply of_wf|auto]. unfold tensor_of. cbn [tdata]. f_equal.
  rewrite <- !map_seq_indices. rewrite E. apply map_ext_in. intros k Hk. apply in_seq in Hk.
  pose proof (o2i_valid sh k ltac:(lia)) as V. destruct (H _ V) as (H1 & H2 & H3).
  rewrite ravel_o2i in H1 by lia. rewrite <- H3. f_equal. rewrite <- (o2i_ravel rsh _ H2), H1. auto.
Qed.

Lemma names_of_nat n ds : Forall (fun d => d < n) ds -> names n (map Z.of_nat ds) ds.
Proof. induction 1; constructor; auto. Qed.

Lemma permute_nat {A} sh (F : list nat -> A) ds : is_perm (length sh) ds ->
  exists G, permute (tensor_of sh F) (map Z.of_nat ds) = Ok (tensor_of (permuted ds sh) G) /\ forall idx, valid sh idx -> G (permuted ds idx) = F idx.
Proof.
  intro P. apply permute_exists; auto. apply names_of_nat. apply Forall_forall. intros d Hd. apply (is_perm_lt _ _ _ P Hd).
Qed.

Lemma permuteAll_correct {A} sh (F : list nat -> A) : permuteAll (tensor_of sh F) = Ok (tensor_of (rev sh) (fun idx => F (rev idx))).
Proof.
  unfold permuteAll. cbn [tshape tensor_of]. fold (tensor_of sh F).
  assert (P : is_perm (length sh) (rev (seq 0 (length sh)))) by (apply Permutation_sym, Permutation_rev).
  assert (PR : forall l : list nat, length l = length sh -> permuted (rev (seq 0 (length sh))) l = rev l).
  { intros l El. unfold permuted. rewrite map_rev, <- El, map_nth_seq. auto. }
  rewrite (permute_correct sh F (fun idx => F (rev idx)) _ (rev (seq 0 (length sh)))); auto.
  - rewrite PR; auto.
  - apply names_of_nat. apply Forall_forall. intros d Hd. apply (is_perm_lt _ _ _ P Hd).
  - intros idx V. rewrite PR by (apply (valid_length _ _ V)). rewrite rev_involutive. auto.
Qed.

Lemma only_ones_adjacent sh a : S a < length sh -> nth a sh 0 = 1 \/ nth (S a) sh 0 = 1 ->
  moves_only_ones sh (map (tr a (S a)) (seq 0 (length sh))).
Proof.
  intros H1 H2. unfold moves_only_ones.
  replace (length sh) with (a + (2 + (length sh - a - 2))) by lia.
  rewrite !seq_app, !map_app, !filter_app. cbn [seq map].
  assert (E : forall s n, (forall i, s <= i -> i < s + n -> i <> a /\ i <> S a) -> map (tr a (S a)) (seq s n) = seq s n).
  { intros s n Hs. rewrite <- (map_id (seq s n)) at 2. apply map_ext_in. intros i Hi. apply in_seq in Hi.
    destruct (Hs i) as [X Y]; try lia. unfold tr. rewrite (proj2 (Nat.eqb_neq i a) X), (proj2 (Nat.eqb_neq i (S a)) Y). auto. }
  rewrite !E by (intros; lia). f_equal. f_equal. cbn [Nat.add].
  unfold tr. rewrite !Nat.eqb_refl. rewrite (proj2 (Nat.eqb_neq (S a) a)) by lia.
  cbn [filter]. destruct H2 as [H2|H2]; rewrite H2; cbn [negb Nat.eqb]; destruct (negb _); auto.
Qed.
Lemma tr_sym a b i : tr a b i = tr b a i.
Proof. unfold tr. destruct (Nat.eqb_spec i a), (Nat.eqb_spec i b); subst; auto. Qed.

Lemma transpose_correct {A} sh (F : list nat -> A) d0 d1 a b : axis (length sh) d0 = Some a -> axis (length sh) d1 = Some b ->
  exists G, transpose (tensor_of sh F) d0 d1 = Ok (tensor_of (swapped a b sh) G) /\ forall idx, valid sh idx -> G (swapped a b idx) = F idx.
Proof.
  intros E0 E1. pose proof (proj1 (axis_some _ _ _) E0) as [Ha _]. pose proof (proj1 (axis_some _ _ _) E1) as [Hb _].
  assert (P := swapped_perm a b _ Ha Hb).
  assert (HS : forall l, length l = length sh -> swapped a b l = permuted (swapped a b (seq 0 (length sh))) l).
  { intros l El. rewrite <- El. apply swapped_permuted; lia. }
  unfold transpose. cbn [tshape tensor_of]. fold (tensor_of sh F). cbv zeta. rewrite E0, E1.
  destruct (Nat.eqb_spec a b) as [->|Hab].
  { exists F. assert (SI : forall l, swapped b b l = l).
    { intro l. apply (nth_ext _ _ 0 0); [apply swapped_length|]. intros i Hi. unfold swapped. rewrite !nth_set_nth.
      destruct (Nat.eqb_spec i b); subst; cbn [andb]; auto. repeat match goal with |- context [if ?c then _ else _] => destruct c end; auto. }
    rewrite SI. split; auto. intros idx _. rewrite SI. auto. }
  destruct (((nth a sh 0 =? 1) || (nth b sh 0 =? 1)) && ((a =? S b) || (b =? S a))) eqn:EF.
  - apply andb_prop in EF. destruct EF as [EF1 EF2].
    assert (M : moves_only_ones sh (swapped a b (seq 0 (length sh)))).
    { rewrite swapped_seq by auto. apply orb_prop in EF1. apply orb_prop in EF2. destruct EF2 as [EF2|EF2]; apply Nat.eqb_eq in EF2.
      - subst a. rewrite (map_ext _ _ (tr_sym (S b) b)). apply only_ones_adjacent; auto. destruct EF1 as [X|X]; apply Nat.eqb_eq in X; auto.
      - subst b. apply only_ones_adjacent; auto. destruct EF1 as [X|X]; apply Nat.eqb_eq in X; auto. }
    destruct (inverse_exists _ _ P) as (es & PE & I1 & I2).
    exists (fun ridx => F (permuted es ridx)).
    assert (Q : forall idx, valid sh idx -> F (permuted es (swapped a b idx)) = F idx).
    { intros idx V. rewrite HS by (apply (valid_length _ _ V)). rewrite (permuted_inverse (length sh)); auto; [apply is_perm_length; auto|apply (valid_length _ _ V)]. }
    split; auto. f_equal. fold (swapped a b sh).
    apply (viewAs_of _ _ _ _ (swapped a b)).
    + rewrite HS by auto. apply numel_perm, (permuted_perm (length sh)); auto.
    + intros idx V. split; [|split; auto].
      * rewrite (HS sh), (HS idx) by (auto; apply (valid_length _ _ V)). apply ravel_only_ones; auto.
      * rewrite (HS sh), (HS idx) by (auto; apply (valid_length _ _ V)). apply (permuted_valid (length sh)); auto.
  - assert (E : exists G, permute (tensor_of sh F) (map Z.of_nat (swapped a b (seq 0 (length sh)))) = Ok (tensor_of (swapped a b sh) G) /\ forall idx, valid sh idx -> G (swapped a b idx) = F idx).
    { destruct (permute_nat sh F _ P) as (G & EG & HG). exists G. rewrite (HS sh) by auto. split; auto. intros idx V. rewrite HS by (apply (valid_length _ _ V)). auto. }
    destruct (Nat.eqb_spec (length sh) 2) as [E2|E2].
    + replace [1%Z; 0%Z] with (map Z.of_nat (swapped a b (seq 0 (length sh)))); auto. rewrite E2 in *.
      assert ((a = 0 /\ b = 1) \/ (a = 1 /\ b = 0)) as [[-> ->]|[-> ->]] by lia; reflexivity.
    + replace (set_nth (set_nth (seq 0 (length sh)) a b) b a) with (swapped a b (seq 0 (length sh))); auto.
      unfold swapped. rewrite !seq_nth by auto. auto.
Qed.
Lemma transpose_fails {A} (t : tensor A) d0 d1 : axis (length (tshape t)) d0 = None \/ axis (length (tshape t)) d1 = None -> transpose t d0 d1 = Fail.
Proof. intros [H|H]; unfold transpose; cbv zeta; rewrite H; auto. destruct (axis _ d0); auto. Qed.

(** Gradient of permute. *)
Lemma permute_backward {A} sh (G : list nat -> A) ds : is_perm (length sh) ds -> moves_only_ones sh ds ->
  permuteBackward sh (tensor_of (permuted ds sh) G) = tensor_of sh (permuted_back ds G).
Proof.
  intros P M. unfold permuteBackward, permuted_back. destruct (inverse_exists _ _ P) as (es & PE & I1 & I2).
  pose proof (is_perm_length _ _ P) as L.
  assert (LR : length (permuted ds sh) = length sh) by (unfold permuted; rewrite map_length; auto).
  apply (viewAs_of _ _ _ _ (permuted es)).
  - symmetry. apply numel_perm, (permuted_perm (length sh)); auto.
  - intros ridx V. assert (V' : valid sh (permuted es ridx)).
    { pose proof (permuted_valid (length sh) es _ _ PE LR V) as Q. rewrite (permuted_inverse (length sh)) in Q; auto. }
    assert (E : permuted ds (permuted es ridx) = ridx).
    { apply (permuted_inverse (length sh)); auto; [apply is_perm_length; auto|]. rewrite (valid_length _ _ V); auto. }
    split; [|split; auto]; [|rewrite E; auto].
    rewrite <- (ravel_only_ones sh ds _ P M V'), E. auto.
Qed.
(** The adjoint. *)
Lemma permuted_adjoint {K : cring} sh ds (X G : list nat -> K) Y : is_perm (length sh) ds ->
  (forall idx, valid sh idx -> Y (permuted ds idx) = X idx) ->
  sum (fun ridx => mul (Y ridx) (G ridx)) (indices (permuted ds sh)) = sum (fun idx => mul (X idx) (permuted_back ds G idx)) (indices sh).
Proof.
  intros P HY. destruct (inverse_exists _ _ P) as (es & PE & I1 & I2). pose proof (is_perm_length _ _ P) as L.
  assert (LR : length (permuted ds sh) = length sh) by (unfold permuted; rewrite map_length; auto).
  rewrite (sum_perm _ (indices (permuted ds sh)) (map (permuted ds) (indices sh))).
  - rewrite sum_map. apply sum_ext. intros idx Hi. apply indices_in in Hi. rewrite HY by auto. reflexivity.
  - apply NoDup_Permutation; [apply indices_nodup| |].
    + apply NoDup_nth_error. intros i j Hi E. rewrite map_length, indices_length in Hi.
      rewrite !nth_error_map, indices_nth in E by auto. simpl in E.
      destruct (Nat.lt_ge_cases j (numel sh)) as [Hj|Hj].
      * rewrite indices_nth in E by auto. simpl in E. injection E as E.
        assert (permuted es (permuted ds (offsetToIndices sh i)) = permuted es (permuted ds (offsetToIndices sh j))) by congruence.
        rewrite !(permuted_inverse (length sh)) in H by (auto; apply o2i_length).
        rewrite <- (ravel_o2i sh i), <- (ravel_o2i sh j), H by auto. auto.
      * rewrite (proj2 (nth_error_None _ _)) in E by (rewrite indices_length; auto). discriminate.
    + intro ridx. rewrite indices_in, in_map_iff. split.
      * intro V. exists (permuted es ridx). split.
        -- apply (permuted_inverse (length sh)); auto; [apply is_perm_length; auto|]. rewrite (valid_length _ _ V); auto.
        -- apply indices_in. pose proof (permuted_valid (length sh) es _ _ PE LR V) as Q. rewrite (permuted_inverse (length sh)) in Q; auto.
      * intros (idx & <- & V). apply indices_in in V. apply (permuted_valid (length sh)); auto.
Qed.

(** * tril / triu *)
Lemma numel_two r c : numel [r; c] = r * c.
Proof. rewrite !numel_cons, numel_nil. lia. Qed.
Lemma ravel_two r c i j : ravel [r; c] [i; j] = i * c + j.
Proof. rewrite !ravel_cons, ravel_nil, numel_cons, numel_nil. lia. Qed.
Lemma flat_map_pair_in {I J} (m : I -> list J) l p : In p (flat_map (fun i => map (pair i) (m i)) l) <-> In (fst p) l /\ In (snd p) (m (fst p)).
Proof.
  rewrite in_flat_map. split.
  - intros (i & Hi & Hp). apply in_map_iff in Hp. destruct Hp as (j & <- & Hj). auto.
  - intros [H1 H2]. exists (fst p). split; auto. apply in_map_iff. exists (snd p). split; auto. destruct p; auto.
Qed.
Lemma triangle_correct {A} (z : A) lower bsh r c (F : list nat -> A) diag :
  triangle z lower (tensor_of (bsh ++ [r; c]) F) diag
  = Ok (tensor_of (bsh ++ [r; c]) (fun idx =>
      let i := Z.of_nat (nth (length bsh) idx 0) in let j := Z.of_nat (nth (S (length bsh)) idx 0) in
      if (if lower then j <=? i + diag else i + diag <=? j)%Z then F idx else z)).
Proof.
  unfold triangle. cbn [tshape tensor_of]. fold (tensor_of (bsh ++ [r; c]) F). cbv zeta.
  rewrite app_length. simpl length. replace (length bsh + 2 <? 2) with false by (symmetry; apply Nat.ltb_ge; lia).
  replace (length bsh + 2 - 2) with (length bsh) by lia. replace (length bsh + 2 - 1) with (S (length bsh)) by lia.
  rewrite firstn_app, firstn_all, Nat.sub_diag. simpl firstn. rewrite app_nil_r. fold (numel bsh).
  rewrite !app_nth2 by lia. rewrite Nat.sub_diag. replace (S (length bsh) - length bsh) with 1 by lia. cbn [nth].
  set (sh := bsh ++ [r; c]).
  rewrite (loop_ext _ _ (fun buf b => loop (flat_map (fun i => map (pair i) (seq 0 c)) (seq 0 r)) buf (fun buf p =>
    let off := b * (r * c) + (fst p * c + snd p) in
    if (if lower then Z.of_nat (snd p) <=? Z.of_nat (fst p) + diag else Z.of_nat (fst p) + diag <=? Z.of_nat (snd p))%Z
    then obind (rd (tdata (tensor_of sh F)) off) (put buf off) else put buf off z))).
  2:{ intros s b _. rewrite <- (loop_nest (fun _ => seq 0 c) (seq 0 r) (fun buf i j =>
        if (if lower then Z.of_nat j <=? Z.of_nat i + diag else Z.of_nat i + diag <=? Z.of_nat j)%Z
        then obind (rd (tdata (tensor_of sh F)) (b * (r * c) + (i * c + j))) (put buf (b * (r * c) + (i * c + j)))
        else put buf (b * (r * c) + (i * c + j)) z)). reflexivity. }
  cbv zeta. rewrite (loop_nest (fun _ => flat_map (fun i => map (pair i) (seq 0 c)) (seq 0 r)) (seq 0 (numel bsh)) (fun buf b p =>
    if (if lower then Z.of_nat (snd p) <=? Z.of_nat (fst p) + diag else Z.of_nat (fst p) + diag <=? Z.of_nat (snd p))%Z
    then obind (rd (tdata (tensor_of sh F)) (b * (r * c) + (fst p * c + snd p))) (put buf (b * (r * c) + (fst p * c + snd p)))
    else put buf (b * (r * c) + (fst p * c + snd p)) z)).
  assert (HV : forall b i j, b < numel bsh -> i < r -> j < c -> valid sh (offsetToIndices bsh b ++ [i; j])
    /\ ravel sh (offsetToIndices bsh b ++ [i; j]) = b * (r * c) + (i * c + j)).
  { intros b i j H1 H2 H3. unfold sh. split.
    - apply valid_app; [apply o2i_length|]. split; [apply o2i_valid; auto|]. repeat constructor; auto.
    - rewrite ravel_app by apply o2i_length. rewrite ravel_o2i, numel_two, ravel_two by auto. auto. }
  apply (fill_tensor _ (fun q => offsetToIndices bsh (fst q) ++ [fst (snd q); snd (snd q)])).
  - intros buf [b [i j]] Hin _. apply flat_map_pair_in in Hin. cbn [fst snd] in *. destruct Hin as [H1 H2].
    apply flat_map_pair_in in H2. cbn [fst snd] in *. destruct H2 as [H2 H3]. apply in_seq in H1, H2, H3.
    destruct (HV b i j) as [V E]; try lia. rewrite <- !E. rewrite rd_of_idx by auto. cbn [obind].
    rewrite !app_nth2; rewrite o2i_length; try lia. rewrite Nat.sub_diag. replace (S (length bsh) - length bsh) with 1 by lia. cbn [nth].
    destruct (if lower then _ else _); auto.
  - intros [b [i j]] Hin. apply flat_map_pair_in in Hin. cbn [fst snd] in *. destruct Hin as [H1 H2].
    apply flat_map_pair_in in H2. cbn [fst snd] in *. destruct H2 as [H2 H3]. apply in_seq in H1, H2, H3. apply HV; lia.
  - intros idx V. unfold sh in V. apply Forall2_app_inv_r in V. destruct V as (a & q & V1 & V2 & ->).
    inversion V2 as [|i ? ? ? Hi V3]; subst. inversion V3 as [|j ? ? ? Hj V4]; subst. inversion V4; subst.
    exists (ravel bsh a, (i, j)). cbn [fst snd]. split; [|rewrite o2i_ravel; auto].
    apply flat_map_pair_in. cbn [fst snd]. split; [apply in_seq; pose proof (ravel_lt _ _ V1); lia|].
    apply flat_map_pair_in. cbn [fst snd]. split; apply in_seq; lia.
Qed.
