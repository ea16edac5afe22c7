(** Reductions over marked dimensions, and the gradient of a broadcast operand. *)
From Coq Require Import ZArith List Bool Arith Lia Permutation Ring.
From Verif Require Import ShapeModel ShapeSpec ShapeProofs TensorModel TensorSpec TensorLemmas BcastModel BcastSpec BcastProofs.
Import ListNotations.

Lemma same_idx_eqb a b : same_idx a b = idx_eqb a b.
Proof. reflexivity. Qed.
Lemma reduced_cons a ax keep i idx :
  reduced_idx (a :: ax) keep (i :: idx) = (if a then (if keep then [0] else []) else [i]) ++ reduced_idx ax keep idx.
Proof. reflexivity. Qed.
Lemma rshape_cons a ax keep d sh :
  reduced_shape (a :: ax) keep (d :: sh) = (if a then (if keep then [1] else []) else [d]) ++ reduced_shape ax keep sh.
Proof. reflexivity. Qed.

Lemma dst_spec keep : forall sh ax k, length ax = length sh -> numel sh <> 0 ->
  fold_right (fun (p : nat * nat * bool) acc =>
         if snd p : bool then acc
         else (fst acc + (k / snd (fst p)) mod fst (fst p) * snd acc, snd acc * fst (fst p)))
       (0, 1) (combine (combine sh (strides sh)) ax)
  = (ravel (reduced_shape ax keep sh) (reduced_idx ax keep (offsetToIndices sh k)), numel (reduced_shape ax keep sh)).
Proof.
  induction sh as [|d sh IH]; intros [|a ax] k Hl Hn; simpl in Hl; try discriminate; [reflexivity|].
  rewrite numel_cons in Hn. assert (numel sh <> 0 /\ d <> 0) as [H1 H2] by nia.
  rewrite strides_cons. cbn [combine fold_right fst snd]. rewrite (IH ax k) by (auto; lia). cbn [fst snd].
  rewrite o2i_cons by auto. rewrite reduced_cons, rshape_cons.
  destruct a; [destruct keep|]; cbn [app].
  - rewrite ravel_cons, numel_cons. f_equal; lia.
  - reflexivity.
  - rewrite ravel_cons, numel_cons. f_equal; lia.
Qed.
Lemma reduced_valid keep : forall sh ax idx, length ax = length sh -> valid sh idx ->
  valid (reduced_shape ax keep sh) (reduced_idx ax keep idx).
Proof.
  induction sh as [|d sh IH]; intros [|a ax] idx Hl H; simpl in Hl; try discriminate; inversion H; subst; [constructor|].
  rewrite reduced_cons, rshape_cons.
  destruct a; [destruct keep|]; cbn [app]; try constructor; auto; apply IH; auto.
Qed.

Section Ring.
Context {K : cring}.
Add Ring Kring2 : (cring_ring K).

Lemma repeat_nth {A} (a : A) n : forall k, nth_error (repeat a n) k = if k <? n then Some a else None.
Proof. induction n as [|n IH]; intros [|k]; simpl; auto. rewrite IH. auto. Qed.

Lemma sumDims_correct sh ax keep (F : list nat -> K) : length ax = length sh ->
  sumDims (tensor_of sh F) ax keep
  = Some (tensor_of (reduced_shape ax keep sh)
      (fun ridx => sum F (filter (fun idx => same_idx (reduced_idx ax keep idx) ridx) (indices sh)))).
Proof.
  intro Hl. unfold sumDims, tnumel. cbn [tshape tensor_of].
  change (getReduceShape sh ax keep) with (reduced_shape ax keep sh). set (rsh := reduced_shape ax keep sh).
  pose (g := fun k => getReduceDstIndex sh ax k).
  assert (Hg : forall k, k < numel sh -> g k = ravel rsh (reduced_idx ax keep (offsetToIndices sh k))).
  { intros k Hk. unfold g, getReduceDstIndex. rewrite (dst_spec keep) by (auto; lia). reflexivity. }
  assert (Hv : forall k, k < numel sh -> valid rsh (reduced_idx ax keep (offsetToIndices sh k))).
  { intros k Hk. apply reduced_valid; auto. apply o2i_valid; auto. }
  destruct (scatter_add g (fun k => F (offsetToIndices sh k)) (fun ret srcIdx =>
      let r := getReduceDstIndex sh ax srcIdx in
      obind (rd ret r) (fun a => obind (rd (tdata (tensor_of sh F)) srcIdx) (fun x => wr ret r (add a x))))
      (seq 0 (numel sh)) (repeat zero (numel rsh))) as (ret & E & L & N).
  - intros r k x Hk Hx. apply in_seq in Hk. cbv zeta. fold (g k). unfold rd at 1. rewrite Hx. cbn [obind].
    rewrite rd_of by lia. reflexivity.
  - intros k Hk. apply in_seq in Hk. rewrite Hg by lia. rewrite repeat_length. apply ravel_lt. apply Hv. lia.
  - cbn [tdata tensor_of] in E |- *. cbv zeta in E |- *. rewrite E. cbn [obind]. unfold tensor_of. do 2 f_equal.
    rewrite repeat_length in L. apply nth_error_ext'. intro k.
    destruct (Nat.lt_ge_cases k (numel rsh)) as [Hk|Hk].
    2: { rewrite (proj2 (nth_error_None _ _)) by lia. symmetry. apply nth_error_None. rewrite map_length, indices_length. auto. }
    rewrite (N k zero) by (rewrite repeat_nth; destruct (Nat.ltb_spec k (numel rsh)); [auto|lia]).
    rewrite nth_error_map, indices_nth by auto. simpl. f_equal. rewrite add_0_l.
    rewrite !sum_filter. rewrite <- indices_seq, sum_map. apply sum_ext. intros i Hi. apply in_seq in Hi.
    rewrite Hg by lia. rewrite <- (ravel_o2i rsh k Hk) at 1. rewrite ravel_eqb; auto.
    + apply Hv; lia.
    + apply o2i_valid; auto.
Qed.
End Ring.

(** The marks used by [reduceGrad]. *)
Definition gmarks (P G : list nat) : list bool := map (fun p => (fst p =? 1) && negb (snd p =? 1)) (combine P G).
Lemma dim_at_pad n s i : i < n -> length s <= n -> dim_at n s i = nth i (repeat 1 (n - length s) ++ s) 0.
Proof.
  intros Hi H. unfold dim_at. destruct (Nat.ltb_spec i (n - length s)).
  - rewrite app_nth1 by (rewrite repeat_length; auto). revert i H0 Hi. generalize (n - length s) as m.
    induction m as [|m IH]; intros [|i] H0 Hi; simpl; auto; try lia. apply IH; lia.
  - rewrite app_nth2 by (rewrite repeat_length; auto). rewrite repeat_length. auto.
Qed.
Lemma dim_at_self s i : dim_at (length s) s i = nth i s 0.
Proof. unfold dim_at. rewrite Nat.sub_diag. destruct (Nat.ltb_spec i 0); [lia|]. rewrite Nat.sub_0_r. auto. Qed.
Lemma map_seq_nth2 {B} (f : nat -> nat -> B) : forall P G, length P = length G ->
  map (fun i => f (nth i P 0) (nth i G 0)) (seq 0 (length P)) = map (fun p => f (fst p) (snd p)) (combine P G).
Proof.
  induction P as [|x P IH]; intros [|y G] H; simpl in *; try discriminate; auto. f_equal.
  rewrite <- seq_shift, map_map. apply IH. lia.
Qed.
Lemma gmarks_eq self gsh : length self <= length gsh ->
  map (fun i => (dim_at (length gsh) self i =? 1) && negb (dim_at (length gsh) gsh i =? 1)) (seq 0 (length gsh))
  = gmarks (repeat 1 (length gsh - length self) ++ self) gsh.
Proof.
  intro H. unfold gmarks. set (P := repeat 1 (length gsh - length self) ++ self).
  assert (HP : length P = length gsh) by (unfold P; rewrite app_length, repeat_length; lia).
  rewrite <- (map_seq_nth2 (fun a b => (a =? 1) && negb (b =? 1))) by auto. rewrite HP. apply map_ext_in.
  intros i Hi. apply in_seq in Hi. rewrite dim_at_pad by lia. rewrite dim_at_self. reflexivity.
Qed.
Lemma gmarks_shape P G : Forall2 (fun d e => d = 1 \/ d = e) P G -> reduced_shape (gmarks P G) true G = P.
Proof.
  induction 1 as [|d e P G H _ IH]; auto. cbn [gmarks combine map fst snd]. rewrite rshape_cons.
  change (map _ (combine P G)) with (gmarks P G). rewrite IH.
  destruct (Nat.eqb_spec d 1), (Nat.eqb_spec e 1); simpl; subst; auto; f_equal; lia.
Qed.
Lemma gmarks_idx P G : Forall2 (fun d e => d = 1 \/ d = e) P G -> forall idx, valid G idx ->
  reduced_idx (gmarks P G) true idx = map (fun p => if fst p =? 1 then 0 else snd p) (combine P idx).
Proof.
  induction 1 as [|d e P G H _ IH]; intros idx Hv; inversion Hv; subst; auto.
  cbn [gmarks combine map fst snd]. rewrite reduced_cons.
  change (map _ (combine P G)) with (gmarks P G). rewrite IH by auto.
  destruct (Nat.eqb_spec d 1), (Nat.eqb_spec e 1); simpl; subst; auto. f_equal. lia.
Qed.
Lemma pad_idx self k : forall idx, length idx = k + length self ->
  map (fun p => if fst p =? 1 then 0 else snd p) (combine (repeat 1 k ++ self) idx) = repeat 0 k ++ bidx self idx.
Proof.
  induction k as [|k IH]; intros idx H.
  - simpl. unfold bidx. simpl in H. rewrite H, Nat.sub_diag. reflexivity.
  - destruct idx as [|i idx]; [discriminate|]. simpl in H. injection H as H. cbn [repeat app combine map fst snd].
    simpl (1 =? 1). f_equal. rewrite IH by auto. f_equal. unfold bidx. f_equal. f_equal. simpl length.
    rewrite H. replace (S (k + length self) - length self) with (S (k + length self - length self)) by lia. reflexivity.
Qed.
Lemma bto_pad self gsh : bto self gsh ->
  Forall2 (fun d e => d = 1 \/ d = e) (repeat 1 (length gsh - length self) ++ self) gsh.
Proof.
  intros [H1 H2]. set (k := length gsh - length self) in *. rewrite <- (firstn_skipn k gsh).
  apply Forall2_app; auto. assert (Hk : length (firstn k gsh) = k) by (rewrite firstn_length; lia).
  clear -Hk. revert Hk. generalize (firstn k gsh). induction k as [|k IH]; intros [|x l] H; simpl in *; try discriminate; constructor; auto.
Qed.
Lemma indices_pad k self : indices (repeat 1 k ++ self) = map (app (repeat 0 k)) (indices self).
Proof.
  induction k as [|k IH]; simpl.
  - symmetry. exact (map_id _).
  - rewrite IH, app_nil_r, map_map. reflexivity.
Qed.
Lemma numel_pad k self : numel (repeat 1 k ++ self) = numel self.
Proof. rewrite numel_app. replace (numel (repeat 1 k)) with 1; [lia|]. induction k; [reflexivity|]. cbn [repeat]. rewrite numel_cons. lia. Qed.
Lemma prod_of_nat l : prod (map Z.of_nat l) = Z.of_nat (numel l).
Proof.
  induction l as [|d l IH]; [reflexivity|]. rewrite numel_cons, Nat2Z.inj_mul, <- IH. reflexivity.
Qed.
Lemma gmarks_none P G : Forall2 (fun d e => d = 1 \/ d = e) P G -> forallb negb (gmarks P G) = true -> P = G.
Proof.
  induction 1 as [|d e P G H _ IH]; auto. cbn [gmarks combine map fst snd forallb].
  change (map _ (combine P G)) with (gmarks P G). intro E. apply andb_prop in E. destruct E as [E1 E2].
  rewrite IH by auto. f_equal. destruct (Nat.eqb_spec d 1), (Nat.eqb_spec e 1); simpl in *; subst; auto; try discriminate; lia.
Qed.

Section Ring2.
Context {K : cring}.
Add Ring Kring3 : (cring_ring K).
Lemma reduceGrad_cases self gsh (F : list nat -> K) : bto self gsh ->
  exists r, reduceGrad self (tensor_of gsh F) = Some r
  /\ tdata r = tdata (tensor_of self (reduced_grad self gsh F))
  /\ (tshape r = self \/ (tshape r = gsh /\ exists k, gsh = repeat 1 (S k) ++ self)).
Proof.
  intro Hb. pose proof Hb as [Hlen _]. unfold reduceGrad. cbn [tshape tensor_of].
  rewrite Nat.max_r by auto. rewrite gmarks_eq by auto. set (k := length gsh - length self).
  set (P := repeat 1 k ++ self). pose proof (bto_pad self gsh Hb) as HP. fold k P in HP.
  assert (Hidx : forall idx, valid gsh idx -> reduced_idx (gmarks P gsh) true idx = repeat 0 k ++ bidx self idx).
  { intros idx Hv. rewrite gmarks_idx by auto. unfold P. apply pad_idx. rewrite (valid_length _ _ Hv). unfold k. lia. }
  destruct (forallb negb (gmarks P gsh)) eqn:Em.
  - exists (tensor_of gsh F). split; auto. apply gmarks_none in Em; auto. split.
    + simpl. rewrite <- Em. unfold P. rewrite indices_pad, map_map. apply map_ext_in. intros sidx Hs.
      apply indices_in in Hs. unfold reduced_grad. rewrite sum_filter. rewrite indices_pad, sum_map.
      rewrite (sum_ext _ (fun j => if idx_eqb j sidx then F (repeat 0 k ++ j) else zero)).
      * rewrite (sum_single idx_eqb idx_eqb_true (fun j => F (repeat 0 k ++ j))); auto; [apply indices_nodup|apply indices_in; auto].
      * intros j Hj. apply indices_in in Hj. rewrite same_idx_eqb.
        replace (bidx self (repeat 0 k ++ j)) with j; auto.
        unfold bidx. rewrite app_length, repeat_length, (valid_length _ _ Hj), Nat.add_sub.
        rewrite skipn_app, repeat_length, Nat.sub_diag, skipn_all2 by (rewrite repeat_length; lia). simpl.
        rewrite <- (bidx_same self j) at 1 by auto. unfold bidx. rewrite (valid_length _ _ Hj), Nat.sub_diag. reflexivity.
    + destruct k as [|k'] eqn:Ek; [left; simpl; auto|]. right. split; auto. exists k'. symmetry. exact Em.
  - rewrite sumDims_correct.
    2: { unfold gmarks. rewrite map_length, combine_length. rewrite (Forall2_length _ _ _ HP). lia. }
    rewrite gmarks_shape by auto. cbn [obind tshape tdata tensor_of].
    set (D := map _ (indices P)).
    assert (ED : D = map (reduced_grad self gsh F) (indices self)).
    { unfold D, P. rewrite indices_pad, map_map. apply map_ext. intro sidx. unfold reduced_grad. rewrite !sum_filter.
      apply sum_ext. intros idx Hi. apply indices_in in Hi. rewrite Hidx by auto. change same_idx with idx_eqb.
      destruct (idx_eqb (bidx self idx) sidx) eqn:E1.
      - apply idx_eqb_true in E1. rewrite (proj2 (idx_eqb_true _ _) (f_equal (app (repeat 0 k)) E1)). reflexivity.
      - destruct (idx_eqb (repeat 0 k ++ bidx self idx) (repeat 0 k ++ sidx)) eqn:E2; auto.
        apply idx_eqb_true in E2. apply app_inv_head in E2. rewrite E2 in E1. rewrite (proj2 (idx_eqb_true _ _) eq_refl) in E1. discriminate. }
    eexists. split; [reflexivity|].
    rewrite reshape_exact.
    + cbn [vshape vdata tshape tdata newView]. split; [exact ED|]. left. rewrite map_map.
      rewrite (map_ext _ (fun x => x)) by (intro; apply Nat2Z.id). apply map_id.
    + cbn [vnumel newView]. rewrite numelZ_prod, prod_of_nat. lia.
    + apply Forall_forall. intros z Hz. apply in_map_iff in Hz. destruct Hz as (x & <- & _). lia.
    + cbn [vnumel newView]. rewrite numelZ_prod, !prod_of_nat. unfold P. rewrite numel_pad. auto.
Qed.

(** Adjointness: reading through the broadcast and summing back. *)
Lemma reduce_adjoint self gsh (F X : list nat -> K) : bto self gsh ->
  sum (fun idx => mul (X (bidx self idx)) (F idx)) (indices gsh)
  = sum (fun sidx => mul (X sidx) (reduced_grad self gsh F sidx)) (indices self).
Proof.
  intro Hb. unfold reduced_grad.
  rewrite (sum_ext (fun sidx => mul (X sidx) (sum F (filter (fun idx => same_idx (bidx self idx) sidx) (indices gsh))))
    (fun sidx => sum (fun idx => if idx_eqb (bidx self idx) sidx then mul (X sidx) (F idx) else zero) (indices gsh))).
  2: { intros sidx _. rewrite sum_filter, <- sum_mul_l. apply sum_ext. intros idx _. rewrite same_idx_eqb.
       destruct (idx_eqb (bidx self idx) sidx); auto. apply mul_0_r. }
  rewrite sum_swap. apply sum_ext. intros idx Hi. apply indices_in in Hi.
  rewrite (sum_ext _ (fun sidx => if idx_eqb sidx (bidx self idx) then mul (X sidx) (F idx) else zero)).
  - rewrite (sum_single idx_eqb idx_eqb_true (fun j => mul (X j) (F idx))); auto; [apply indices_nodup|].
    apply indices_in. eapply bidx_valid; eauto.
  - intros sidx _. destruct (idx_eqb (bidx self idx) sidx) eqn:E1.
    + apply idx_eqb_true in E1. rewrite <- E1. rewrite (proj2 (idx_eqb_true _ _) eq_refl). auto.
    + destruct (idx_eqb sidx (bidx self idx)) eqn:E2; auto. apply idx_eqb_true in E2. subst.
      rewrite (proj2 (idx_eqb_true _ _) eq_refl) in E1. discriminate.
Qed.
End Ring2.

(** [marks] normalises dimension lists. *)
Lemma marks_spec rank dims : forall m, length m = rank ->
  match fold_left (fun acc d => match acc with
    | None => None
    | Some m => let d := if (d <? 0)%Z then (d + Z.of_nat rank)%Z else d in
                if ((d <? 0) || (Z.of_nat rank <=? d))%Z then None else Some (set_nth m (Z.to_nat d) true)
    end) dims (Some m) with
  | Some m' => length m' = rank /\ Forall (fun d => 0 <= norm (Z.of_nat rank) d < Z.of_nat rank)%Z dims
     /\ forall i, i < rank -> nth_error m' i = Some (nth i m false || existsb (fun d => (norm (Z.of_nat rank) d =? Z.of_nat i)%Z) dims)
  | None => Exists (fun d => norm (Z.of_nat rank) d < 0 \/ Z.of_nat rank <= norm (Z.of_nat rank) d)%Z dims
  end.
Proof.
  induction dims as [|d dims IH]; intros m Hm; cbn [fold_left].
  - split; auto. split; auto. intros i Hi. cbn [existsb]. rewrite orb_false_r. apply nth_error_nth'. lia.
  - change (if (d <? 0)%Z then (d + Z.of_nat rank)%Z else d) with (norm (Z.of_nat rank) d).
    cbv zeta. set (e := norm (Z.of_nat rank) d) in *.
    destruct (Z.ltb_spec e 0); [|destruct (Z.leb_spec (Z.of_nat rank) e)]; cbn [orb].
    1,2: assert (EN : forall l, fold_left (fun acc d => match acc with
         | None => None
         | Some m => let d := if (d <? 0)%Z then (d + Z.of_nat rank)%Z else d in
                if ((d <? 0) || (Z.of_nat rank <=? d))%Z then None else Some (set_nth m (Z.to_nat d) true)
         end) l (@None (list bool)) = None) by (intro l; induction l; auto);
       rewrite EN; left; fold e; lia.
    specialize (IH (set_nth m (Z.to_nat e) true) ltac:(rewrite set_nth_length; auto)).
    destruct (fold_left _ dims (Some (set_nth m (Z.to_nat e) true))) as [m'|].
    + destruct IH as (I1 & I2 & I3). split; auto. split; [constructor; auto; fold e; lia|].
      intros i Hi. rewrite I3 by auto. cbn [existsb]. fold e. f_equal.
      assert (E2 : nth i (set_nth m (Z.to_nat e) true) false = nth i m false || (e =? Z.of_nat i)%Z).
      { pose proof (set_nth_nth m (Z.to_nat e) true i) as S1.
        rewrite (nth_error_nth' _ false) in S1 by (rewrite set_nth_length; lia).
        rewrite (nth_error_nth' m false) in S1 by lia.
        destruct (Nat.ltb_spec (Z.to_nat e) (length m)); [|lia]. rewrite andb_true_r in S1.
        destruct (Nat.eqb_spec i (Z.to_nat e)); destruct (Z.eqb_spec e (Z.of_nat i)); try lia; injection S1 as ->.
        - rewrite orb_true_r; auto. - rewrite orb_false_r; auto. }
      rewrite E2. rewrite orb_assoc. reflexivity.
    + right. auto.
Qed.
