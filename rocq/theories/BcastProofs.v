(** Broadcast shapes and the element-wise odometer. *)
From Coq Require Import ZArith List Bool Arith Lia Permutation.
From Verif Require Import ShapeModel ShapeSpec ShapeProofs TensorModel TensorSpec TensorLemmas BcastModel BcastSpec.
Import ListNotations.

(** * Shapes *)
Lemma max_dim_list shapes : max_dim shapes = list_max (map (@length nat) shapes).
Proof.
  unfold max_dim. rewrite <- (Nat.max_0_l (list_max (map (@length nat) shapes))). generalize 0 as m.
  induction shapes as [|s l IH]; intro m; simpl; [lia|]. rewrite IH. lia.
Qed.
Lemma dim_at_right s n i : length s <= n -> i < n -> dim_at n s i = from_right s (n - 1 - i).
Proof.
  intros H1 H2. unfold dim_at, from_right. destruct (Nat.ltb_spec i (n - length s)).
  - rewrite nth_overflow; auto. rewrite rev_length. lia.
  - rewrite rev_nth by lia. replace (length s - S (n - 1 - i)) with (i - (n - length s)) by lia. apply nth_indep. lia.
Qed.
Lemma le_list_max l x : In x l -> x <= list_max l.
Proof. intro H. pose proof (proj1 (list_max_le l (list_max l)) (le_n _)) as F. rewrite Forall_forall in F. auto. Qed.

(** One position of the loop. *)
Lemma bdim_none ds : fold_left bdim ds None = None.
Proof. induction ds; auto. Qed.
Lemma bdim_fold ds : Forall (fun d => 0 < d) ds -> forall m, 0 < m ->
  match fold_left bdim ds (Some m) with
  | Some r => (forall d, In d ds -> d = 1 \/ d = r) /\ (m = 1 \/ m = r) /\ (r = m \/ In r ds) /\ 0 < r
  | None => exists d e, (In d (m :: ds)) /\ In e (m :: ds) /\ d <> 1 /\ e <> 1 /\ d <> e
  end.
Proof.
  induction 1 as [|d ds Hd _ IH]; intros m Hm; simpl.
  - repeat split; auto. intros ? [].
  - destruct (negb (d =? 1) && negb (m =? 1) && negb (d =? m)) eqn:E.
    + rewrite bdim_none. exists m, d. apply andb_prop in E. destruct E as [E E3]. apply andb_prop in E. destruct E as [E1 E2].
      apply negb_true_iff in E1, E2, E3. apply Nat.eqb_neq in E1, E2, E3. simpl. repeat split; auto.
    + assert (C : d = 1 \/ m = 1 \/ d = m).
      { destruct (Nat.eqb_spec d 1), (Nat.eqb_spec m 1), (Nat.eqb_spec d m); auto; discriminate. }
      specialize (IH (Nat.max m d) ltac:(lia)).
      assert (Cm : Nat.max m d = m \/ (Nat.max m d = d /\ m = 1)) by lia.
      assert (Cd : d = Nat.max m d \/ d = 1) by lia.
      set (m' := Nat.max m d) in *. clearbody m'.
      destruct (fold_left bdim ds (Some m')) as [r|].
      * destruct IH as (I1 & I2 & I3 & I4). split; [|split; [|split; auto]].
        -- intros x [<-|Hx]; auto. lia.
        -- lia.
        -- destruct I3 as [->|]; [|right; right; auto]. destruct Cm as [->|[-> _]]; [auto|right; left; auto].
      * destruct IH as (x & y & Hx & Hy & N1 & N2 & N3). exists x, y.
        assert (HH : forall z, In z (m' :: ds) -> z <> 1 -> In z (m :: d :: ds)).
        { intros z [<-|Hz] Nz; [|simpl; auto]. destruct Cm as [->|[-> _]]; simpl; auto. }
        split; [apply HH; auto|]. split; [apply HH; auto|]. auto.
Qed.

Lemma positive_right s p : positive s -> 0 < from_right s p.
Proof.
  intro H. unfold from_right. destruct (nth_in_or_default p (rev s) 1) as [Hi|E]; [|lia].
  apply in_rev in Hi. unfold positive in H. rewrite Forall_forall in H. auto.
Qed.
Lemma seqopt_some_iff {A} (l : list (option A)) r : seqopt l = Some r <-> l = map Some r.
Proof.
  revert r. induction l as [|o l IH]; intros r; simpl.
  - split; [intros [= <-]; auto|]. destruct r; [auto|discriminate].
  - destruct o as [x|]; simpl.
    + destruct (seqopt l) as [r'|] eqn:E; simpl.
      * split; [intros [= <-]; simpl; f_equal; apply IH; auto|].
        destruct r as [|y r]; simpl; [discriminate|]. intros [= -> El]. apply IH in El. congruence.
      * split; [discriminate|]. destruct r as [|y r]; simpl; [discriminate|]. intros [= -> El]. apply IH in El. congruence.
    + split; [discriminate|]. destruct r; discriminate.
Qed.
Lemma broadcastShape_iff shapes sh : Forall positive shapes ->
  (broadcastShape shapes = Some sh <-> is_broadcast shapes sh).
Proof.
  intro HP. unfold broadcastShape, is_broadcast. rewrite seqopt_some_iff, max_dim_list.
  set (n := list_max (map (@length nat) shapes)).
  assert (Hle : forall s, In s shapes -> length s <= n).
  { intros s Hs. apply le_list_max. apply in_map; auto. }
  assert (Hpos : forall i, Forall (fun d => 0 < d) (map (fun s => dim_at n s i) shapes) \/ n <= i).
  { intro i. destruct (Nat.lt_ge_cases i n) as [Hi|]; [left|right; auto]. apply Forall_forall. intros d Hd.
    apply in_map_iff in Hd. destruct Hd as (s & <- & Hs). rewrite dim_at_right by auto.
    apply positive_right. rewrite Forall_forall in HP. auto. }
  split.
  - intro E. assert (Hl : length sh = n).
    { apply (f_equal (@length _)) in E. rewrite !map_length, seq_length in E. auto. }
    split; auto. intros p Hp. rewrite Hl in Hp.
    assert (Hi : n - 1 - p < n) by lia.
    assert (E1 := f_equal (fun l => nth_error l (n - 1 - p)) E). simpl in E1.
    rewrite nth_error_map, nth_error_seq in E1. destruct (Nat.ltb_spec (n - 1 - p) n); [|lia].
    simpl in E1. rewrite nth_error_map in E1.
    assert (Er : nth_error sh (n - 1 - p) = Some (from_right sh p)).
    { unfold from_right. rewrite rev_nth by lia. replace (length sh - S p) with (n - 1 - p) by lia. apply nth_error_nth'. lia. }
    rewrite Er in E1. simpl in E1. injection E1 as E1.
    destruct (Hpos (n - 1 - p)) as [Hpp|]; [|lia]. pose proof (bdim_fold _ Hpp 1 ltac:(lia)) as HB.
    rewrite E1 in HB. destruct HB as (B1 & B2 & B3 & B4).
    assert (Hd : forall s, In s shapes -> dim_at n s (n - 1 - p) = from_right s p).
    { intros s Hs. rewrite dim_at_right by auto. f_equal. lia. }
    split.
    + intros s Hs. rewrite <- (Hd s Hs). apply B1. apply in_map_iff. eauto.
    + destruct B3 as [->|B3]; auto. right. apply in_map_iff in B3. destruct B3 as (s & Es & Hs). exists s. split; auto.
      rewrite <- Hd; auto.
  - intros (Hl & H). apply nth_error_ext'. intro i. rewrite !nth_error_map, nth_error_seq.
    destruct (Nat.ltb_spec i n) as [Hi|Hi].
    2: { simpl. symmetry. destruct (nth_error sh i) eqn:E; auto. assert (i < length sh) by (apply nth_error_Some; congruence). lia. }
    simpl. assert (Er : nth_error sh i = Some (from_right sh (n - 1 - i))).
    { unfold from_right. rewrite rev_nth by lia. replace (length sh - S (n - 1 - i)) with i by lia. apply nth_error_nth'. lia. }
    rewrite Er. simpl. f_equal. specialize (H (n - 1 - i) ltac:(lia)). destruct H as [H1 H2].
    destruct (Hpos i) as [Hpp|]; [|lia]. pose proof (bdim_fold _ Hpp 1 ltac:(lia)) as HB.
    assert (Hd : forall d, In d (map (fun s => dim_at n s i) shapes) -> d = 1 \/ d = from_right sh (n - 1 - i)).
    { intros d Hd. apply in_map_iff in Hd. destruct Hd as (s & <- & Hs). rewrite dim_at_right by auto. auto. }
    destruct (fold_left bdim _ (Some 1)) as [r|].
    + f_equal. destruct HB as (B1 & B2 & B3 & B4). destruct H2 as [H2|(s & Hs & Es)].
      * destruct B3 as [->|B3]; auto. apply Hd in B3. lia.
      * destruct B3 as [->|B3].
        -- rewrite <- Es. destruct (B1 (from_right s (n - 1 - i))); auto.
           apply in_map_iff. exists s. split; auto. apply dim_at_right; auto.
        -- apply Hd in B3. destruct B3 as [->|]; auto. rewrite <- Es. destruct (B1 (from_right s (n - 1 - i))); auto.
           apply in_map_iff. exists s. split; auto. apply dim_at_right; auto.
    + exfalso. destruct HB as (d & e & Hd1 & He1 & N1 & N2 & N3).
      destruct Hd1 as [|Hd1]; [congruence|]. destruct He1 as [|He1]; [congruence|]. apply Hd in Hd1, He1. lia.
Qed.

Lemma is_broadcast_perm a b sh : Permutation a b -> is_broadcast a sh -> is_broadcast b sh.
Proof.
  intros HP (H1 & H2). split.
  - rewrite H1. assert (HP' := Permutation_map (@length nat) HP).
    apply Nat.le_antisymm; apply list_max_le; apply Forall_forall; intros x Hx; apply le_list_max.
    + apply (Permutation_in _ HP'); auto.
    + apply (Permutation_in _ (Permutation_sym HP')); auto.
  - intros p Hp. destruct (H2 p Hp) as [H3 H4]. split.
    + intros s Hs. apply H3. apply (Permutation_in _ (Permutation_sym HP)); auto.
    + destruct H4 as [|(s & Hs & E)]; auto. right. exists s. split; auto. apply (Permutation_in _ HP); auto.
Qed.
Lemma broadcastShape_perm a b : Forall positive a -> Permutation a b -> broadcastShape a = broadcastShape b.
Proof.
  intros Ha HP. assert (Hb : Forall positive b) by (eapply Permutation_Forall; eauto).
  destruct (broadcastShape a) as [sh|] eqn:E.
  - symmetry. apply broadcastShape_iff; auto. apply (is_broadcast_perm a); auto. apply broadcastShape_iff; auto.
  - destruct (broadcastShape b) as [sh|] eqn:E2; auto. apply broadcastShape_iff in E2; auto.
    apply (is_broadcast_perm b a) in E2; [|apply Permutation_sym; auto]. apply broadcastShape_iff in E2; auto. congruence.
Qed.

Lemma nth_error_combine' {A B} (l : list A) : forall (m : list B) k,
  nth_error (combine l m) k = match nth_error l k, nth_error m k with Some x, Some y => Some (x, y) | _, _ => None end.
Proof.
  induction l as [|x l IH]; intros [|y m] [|k]; simpl; auto.
  - destruct (nth_error l k); auto.
Qed.

(** * The odometer *)
Fixpoint dot (cs : list nat) (l : list Z) : Z :=
  match cs with [] => 0%Z | c :: cs => (Z.of_nat c * hd 0 l + dot cs (tl l))%Z end.
Lemma dot_zeros n : forall l, dot (repeat 0 n) l = 0%Z.
Proof. induction n as [|n IH]; intro l; cbn [dot repeat]; auto. rewrite IH. lia. Qed.
Lemma vadd_map {J} (f g : J -> Z) js : vadd (map f js) (map g js) = map (fun j => (f j + g j)%Z) js.
Proof. unfold vadd. induction js; simpl; auto. f_equal; auto. Qed.
Lemma vsub_map {J} (f g : J -> Z) js : vsub (map f js) (map g js) = map (fun j => (f j - g j)%Z) js.
Proof. unfold vsub. induction js; simpl; auto. f_equal; auto. Qed.
Lemma vscale_map {J} c (f : J -> Z) js : vscale c (map f js) = map (fun j => (c * f j)%Z) js.
Proof. unfold vscale. apply map_map. Qed.
Lemma valid_zeros sh : numel sh <> 0 -> valid sh (repeat 0 (length sh)).
Proof.
  induction sh as [|d sh IH]; intro H; simpl; constructor; rewrite numel_cons in H; [nia|]. apply IH. nia.
Qed.
Lemma ravel_zeros sh : ravel sh (repeat 0 (length sh)) = 0.
Proof. induction sh as [|d sh IH]; [reflexivity|]. cbn [length repeat]. rewrite ravel_cons, IH. auto. Qed.
Lemma valid_numel sh idx : valid sh idx -> numel sh <> 0.
Proof. intro H. apply ravel_lt in H. lia. Qed.

Lemma bump_spec {J} (js : list J) : forall sizes cs, valid sizes cs -> forall (pi : J -> list Z) (b : J -> Z),
  bump sizes cs (transpose_incs (length sizes) (map pi js)) (map (fun j => (b j + dot cs (pi j))%Z) js) =
  if S (ravel sizes cs) <? numel sizes
  then (false, offsetToIndices sizes (S (ravel sizes cs)),
        map (fun j => (b j + dot (offsetToIndices sizes (S (ravel sizes cs))) (pi j))%Z) js)
  else (true, repeat 0 (length sizes), map b js).
Proof.
  induction sizes as [|s ss IH]; intros cs H pi b; inversion H; subst.
  - rewrite ravel_nil, numel_nil. cbn. f_equal. apply map_ext. intro; lia.
  - rename x into c, l into cs'. cbn [length transpose_incs bump].
    rewrite (map_map pi (@tl Z)).
    replace (map (fun j => (b j + dot (c :: cs') (pi j))%Z) js)
      with (map (fun j => ((b j + Z.of_nat c * hd 0%Z (pi j)) + dot cs' (tl (pi j)))%Z) js)
      by (apply map_ext; intro; cbn [dot]; lia).
    rewrite (IH cs' H4 (fun j => tl (pi j)) (fun j => (b j + Z.of_nat c * hd 0%Z (pi j))%Z)). clear IH.
    pose proof (ravel_lt ss cs' H4) as Hr. rewrite numel_cons, ravel_cons.
    destruct (Nat.ltb_spec (S (ravel ss cs')) (numel ss)) as [Hlt|Hge].
    + assert (HS : S (c * numel ss + ravel ss cs') < s * numel ss) by nia.
      destruct (Nat.ltb_spec (S (c * numel ss + ravel ss cs')) (s * numel ss)); [|lia].
      assert (Eo : offsetToIndices (s :: ss) (S (c * numel ss + ravel ss cs')) = c :: offsetToIndices ss (S (ravel ss cs'))).
      { rewrite <- (o2i_ravel (s :: ss) (c :: offsetToIndices ss (S (ravel ss cs')))).
        - f_equal. rewrite ravel_cons, ravel_o2i by auto. lia.
        - constructor; auto. apply o2i_valid; auto. }
      rewrite Eo. f_equal. apply map_ext. intro j. cbn [dot]. lia.
    + assert (Er : S (ravel ss cs') = numel ss) by lia.
      rewrite (map_map pi (hd 0%Z)). rewrite vadd_map, vscale_map, vsub_map.
      destruct (Nat.ltb_spec (S c) s) as [Hc|Hc].
      * assert (HS : S (c * numel ss + ravel ss cs') < s * numel ss) by nia.
        destruct (Nat.ltb_spec (S (c * numel ss + ravel ss cs')) (s * numel ss)); [|lia].
        assert (Eo : offsetToIndices (s :: ss) (S (c * numel ss + ravel ss cs')) = S c :: repeat 0 (length ss)).
        { rewrite <- (o2i_ravel (s :: ss) (S c :: repeat 0 (length ss))).
          - f_equal. rewrite ravel_cons, ravel_zeros. lia.
          - constructor; auto. apply valid_zeros. lia. }
        rewrite Eo. f_equal. apply map_ext. intro j. cbn [dot]. rewrite dot_zeros. lia.
      * assert (HS : s * numel ss <= S (c * numel ss + ravel ss cs')) by nia.
        destruct (Nat.ltb_spec (S (c * numel ss + ravel ss cs')) (s * numel ss)); [lia|].
        f_equal. apply map_ext. intro j. lia.
Qed.

Lemma trace_spec {J} (js : list J) (sizes : list nat) (pi : J -> list Z) : forall n k, k + n = numel sizes -> 0 < n ->
  trace n sizes (transpose_incs (length sizes) (map pi js)) (offsetToIndices sizes k)
    (map (fun j => dot (offsetToIndices sizes k) (pi j)) js)
  = map (fun k => map (fun j => dot (offsetToIndices sizes k) (pi j)) js) (seq k n).
Proof.
  induction n as [|n IH]; intros k Hk Hn; [lia|]. simpl.  f_equal.
  pose proof (bump_spec js sizes (offsetToIndices sizes k) (o2i_valid sizes k ltac:(lia)) pi (fun _ => 0%Z)) as B.
  simpl in B. rewrite B. clear B. rewrite ravel_o2i by lia.
  destruct (Nat.ltb_spec (S k) (numel sizes)).
  - apply (IH (S k)); lia.
  - replace n with 0 by lia. reflexivity.
Qed.

(** The increments compute the broadcast-selected offset. *)
Lemma increments_fst a : forall st, length st = length a ->
  fst (fold_right (fun (p : nat * nat) acc => (fst acc * fst p, (if snd p =? 0 then 0%Z else Z.of_nat (fst acc)) :: snd acc))
         (1, []) (combine a st)) = numel a.
Proof.
  induction a as [|d a IH]; intros [|s st] H; simpl in *; try discriminate; auto.
  rewrite IH by lia. rewrite numel_cons. lia.
Qed.
Lemma increments_cons d a s st : length st = length a ->
  increments (d :: a) (s :: st) = (if s =? 0 then 0%Z else Z.of_nat (numel a)) :: increments a st.
Proof. intro H. unfold increments. simpl. rewrite increments_fst by auto. reflexivity. Qed.

Lemma dot_own s : positive s -> forall idx, length idx = length s ->
  dot idx (increments s (map (fun p => if fst p =? 1 then 0 else snd p) (combine s (strides s))))
  = Z.of_nat (ravel s (map (fun p => if fst p =? 1 then 0 else snd p) (combine s idx))).
Proof.
  induction s as [|d s IH]; intros HP [|i idx] H; simpl in H; try discriminate; [reflexivity|].
  inversion HP; subst. rewrite strides_cons. cbn [combine map fst snd].
  rewrite increments_cons by (rewrite map_length, combine_length, strides_length; lia).
  cbn [dot hd tl]. rewrite IH by (auto; lia). rewrite ravel_cons.
  assert (0 < numel s).
  { clear -H3. induction H3; [rewrite numel_nil; lia|]. rewrite numel_cons. nia. }
  destruct (Nat.eqb_spec d 1); [simpl; lia|]. destruct (Nat.eqb_spec (numel s) 0); [lia|]. lia.
Qed.
Lemma dot_pad k : forall s st idx, length idx = k + length s -> length st = length s ->
  dot idx (increments (repeat 1 k ++ s) (repeat 0 k ++ st)) = dot (skipn k idx) (increments s st).
Proof.
  induction k as [|k IH]; intros s st idx H Hst; simpl repeat; simpl app; [reflexivity|].
  destruct idx as [|i idx]; [simpl in H; lia|].
  rewrite increments_cons by (rewrite !app_length, !repeat_length; lia). cbn [dot hd tl skipn].
  simpl (0 =? 0). rewrite IH by (simpl in H; lia). lia.
Qed.
Lemma dot_aligned s n idx : positive s -> length s <= n -> length idx = n ->
  dot idx (increments (alignShape n s) (alignStrides n s)) = Z.of_nat (ravel s (bidx s idx)).
Proof.
  intros HP H1 H2. unfold alignShape, alignStrides, bidx.
  rewrite dot_pad by (rewrite ?map_length, ?combine_length, ?strides_length; lia).
  rewrite dot_own by (auto; rewrite skipn_length; lia). rewrite H2. reflexivity.
Qed.

Lemma broadcast_len shapes sh s : Forall positive shapes -> broadcastShape shapes = Some sh -> In s shapes -> length s <= length sh.
Proof.
  intros HP H Hs. apply broadcastShape_iff in H; auto. destruct H as [-> _]. apply le_list_max. apply in_map; auto.
Qed.
Lemma positive_numel s : positive s -> 0 < numel s.
Proof. induction 1; [rewrite numel_nil; lia|]. rewrite numel_cons. nia. Qed.

Lemma Forall2_nth {A B} (R : A -> B -> Prop) a b : forall l m, length l = length m ->
  (forall i, i < length l -> R (nth i l a) (nth i m b)) -> Forall2 R l m.
Proof.
  induction l as [|x l IH]; intros [|y m] H Hn; simpl in H; try discriminate; constructor.
  - apply (Hn 0). simpl; lia.
  - apply IH; auto. intros i Hi. apply (Hn (S i)). simpl; lia.
Qed.
Lemma nth_skipn' {A} (d : A) : forall k l i, nth i (skipn k l) d = nth (k + i) l d.
Proof. induction k as [|k IH]; intros [|x l] i; simpl; auto. destruct i; auto. Qed.
Lemma is_broadcast_bto shapes sh s : is_broadcast shapes sh -> In s shapes -> bto s sh.
Proof.
  intros (H1 & H2) Hs. assert (Hl : length s <= length sh) by (rewrite H1; apply le_list_max; apply in_map; auto).
  split; auto. apply (Forall2_nth _ 1 1); [rewrite skipn_length; lia|]. intros i Hi.
  rewrite nth_skipn'. destruct (H2 (length s - 1 - i) ltac:(lia)) as [H3 _]. specialize (H3 s Hs).
  unfold from_right in H3. rewrite !rev_nth in H3 by lia.
  replace (length s - S (length s - 1 - i)) with i in H3 by lia.
  replace (length sh - S (length s - 1 - i)) with (length sh - length s + i) in H3 by lia. exact H3.
Qed.
Lemma valid_skipn sh idx k : valid sh idx -> valid (skipn k sh) (skipn k idx).
Proof.
  intro H. revert k. induction H; intros [|k]; simpl; try (constructor; auto; fail). apply IHForall2.
Qed.
Lemma bidx_valid s sh idx : bto s sh -> valid sh idx -> valid s (bidx s idx).
Proof.
  intros (H1 & H2) Hv. unfold bidx. rewrite (valid_length _ _ Hv).
  apply (valid_skipn _ _ (length sh - length s)) in Hv. revert Hv H2.
  generalize (skipn (length sh - length s) sh) (skipn (length sh - length s) idx). clear.
  intros l m Hv H. revert m Hv. induction H as [|d e s l Hd _ IH]; intros m Hv; inversion Hv; subst; constructor.
  - simpl. destruct (Nat.eqb_spec d 1); lia.
  - apply IH; auto.
Qed.
Lemma bidx_same s idx : valid s idx -> bidx s idx = idx.
Proof.
  intro H. unfold bidx. rewrite (valid_length _ _ H), Nat.sub_diag. simpl skipn.
  induction H as [|i d idx s Hi _ IH]; simpl; auto. rewrite IH. f_equal. destruct (Nat.eqb_spec d 1); lia.
Qed.
Lemma bidx_nil idx : bidx [] idx = [].
Proof. reflexivity. Qed.

(** Which offsets are read. *)
Definition spec_offsets {A} (ts : list (tensor A)) (sh : list nat) : list (list Z) :=
  map (fun idx => map (fun t => Z.of_nat (ravel (tshape t) (bidx (tshape t) idx))) ts) (indices sh).

Lemma isScalar_nil {A} (t : tensor A) : isScalar t = true <-> tshape t = [].
Proof. unfold isScalar. destruct (tshape t); split; intros; auto; discriminate. Qed.
Lemma generic_spec {A} (ts : list (tensor A)) sh ix :
  (forall idx t, valid sh idx -> In t ts -> ix (ravel sh idx) t = ravel (tshape t) (bidx (tshape t) idx)) ->
  offsetsGeneric ts (numel sh) ix = spec_offsets ts sh.
Proof.
  intro H. unfold offsetsGeneric, spec_offsets. rewrite <- seq_indices, map_map. apply map_ext_in. intros idx Hi.
  apply map_ext_in. intros t Ht. f_equal. apply H; auto. apply indices_in; auto.
Qed.
Lemma sameShape_spec {A} (ts : list (tensor A)) : sameShape ts = true -> forallb isScalar ts = false ->
  exists r, r <> [] /\ (exists t, In t ts /\ tshape t = r) /\ forall t, In t ts -> tshape t = [] \/ tshape t = r.
Proof.
  intros H1 H2. unfold sameShape in H1. destruct (filter (fun t => negb (isScalar t)) ts) as [|t0 rest] eqn:E.
  - exfalso. assert (forallb isScalar ts = true); [|congruence]. apply forallb_forall. intros t Ht.
    destruct (isScalar t) eqn:Es; auto. assert (Hf : In t []); [|destruct Hf]. rewrite <- E. apply filter_In. rewrite Es. auto.
  - assert (Ht0 : In t0 ts /\ negb (isScalar t0) = true) by (apply (proj1 (filter_In (fun t => negb (isScalar t)) t0 ts)); rewrite E; left; auto).
    destruct Ht0 as [Ht0 Hn]. exists (tshape t0). split; [|split].
    + intro Ez. apply isScalar_nil in Ez. rewrite Ez in Hn. discriminate.
    + eauto.
    + intros t Ht. destruct (isScalar t) eqn:Es; [left; apply isScalar_nil; auto|right].
      assert (Hi : In t (t0 :: rest)) by (rewrite <- E; apply filter_In; rewrite Es; auto).
      destruct Hi as [<-|Hi]; auto. rewrite forallb_forall in H1. specialize (H1 t Hi). unfold list_eqb in H1.
      destruct (list_eq_dec Nat.eq_dec (tshape t) (tshape t0)); auto. discriminate.
Qed.
Lemma repeat_o2i sh : numel sh <> 0 -> repeat 0 (length sh) = offsetToIndices sh 0.
Proof. intro H. rewrite <- (o2i_ravel sh (repeat 0 (length sh))) by (apply valid_zeros; auto). rewrite ravel_zeros. auto. Qed.

Lemma is_broadcast_positive shapes sh : Forall positive shapes -> is_broadcast shapes sh -> positive sh.
Proof.
  intros HP (H1 & H2). apply Forall_forall. intros d Hd. apply In_nth with (d := 1) in Hd. destruct Hd as (i & Hi & <-).
  specialize (H2 (length sh - 1 - i) ltac:(lia)). destruct H2 as [_ H2].
  assert (E : from_right sh (length sh - 1 - i) = nth i sh 1).
  { unfold from_right. rewrite rev_nth by lia. f_equal. lia. }
  rewrite <- E. destruct H2 as [->|(s & Hs & <-)]; [lia|]. apply positive_right. rewrite Forall_forall in HP. auto.
Qed.
Lemma offsets_spec {A} (ts : list (tensor A)) sh : Forall positive (map tshape ts) ->
  broadcastShape (map tshape ts) = Some sh -> offsets ts sh = spec_offsets ts sh.
Proof.
  intros HP HB. pose proof HB as HI. apply broadcastShape_iff in HI; auto. unfold offsets.
  destruct (forallb isScalar ts) eqn:E1.
  { apply generic_spec. intros idx t Hv Ht. rewrite forallb_forall in E1. specialize (E1 t Ht). apply isScalar_nil in E1.
    rewrite E1. reflexivity. }
  destruct (sameShape ts) eqn:E2.
  - destruct (sameShape_spec ts E2 E1) as (r & Hr & (t0 & Ht0 & Et0) & Hall).
    assert (sh = r) as ->.
    { assert (HI' : is_broadcast (map tshape ts) r).
      { split.
        - apply Nat.le_antisymm.
          + apply le_list_max. apply in_map_iff. exists r. split; auto. apply in_map_iff. eauto.
          + apply list_max_le. apply Forall_forall. intros x Hx. apply in_map_iff in Hx. destruct Hx as (s & <- & Hs).
            apply in_map_iff in Hs. destruct Hs as (t & <- & Ht). destruct (Hall t Ht) as [->| ->]; simpl; lia.
        - intros p Hp. split.
          + intros s Hs. apply in_map_iff in Hs. destruct Hs as (t & <- & Ht). destruct (Hall t Ht) as [->| ->]; auto.
            left. unfold from_right. destruct p; auto.
          + right. exists r. split; auto. apply in_map_iff. eauto. }
      apply broadcastShape_iff in HI'; auto. congruence. }
    destruct (forallb (fun t => negb (isScalar t)) ts) eqn:E3; apply generic_spec; intros idx t Hv Ht.
    + rewrite forallb_forall in E3. specialize (E3 t Ht). destruct (Hall t Ht) as [E|E].
      * apply isScalar_nil in E. rewrite E in E3. discriminate.
      * rewrite E, bidx_same; auto.
    + destruct (Hall t Ht) as [E|E].
      * rewrite (proj2 (isScalar_nil t) E), E. reflexivity.
      * destruct (isScalar t) eqn:Es; [apply isScalar_nil in Es; congruence|]. rewrite E, bidx_same; auto.
  - unfold offsetsBroadcast. pose proof (positive_numel sh (is_broadcast_positive _ _ HP HI)) as Hpos.
    rewrite repeat_o2i by lia.
    set (pi := fun t : tensor A => increments (alignShape (length sh) (tshape t)) (alignStrides (length sh) (tshape t))).
    change (map (fun t : tensor A => increments (alignShape (length sh) (tshape t)) (alignStrides (length sh) (tshape t))) ts)
      with (map pi ts).
    pose proof (trace_spec ts sh pi (numel sh) 0 ltac:(lia) ltac:(lia)) as T.
    replace (map (fun j => dot (offsetToIndices sh 0) (pi j)) ts) with (map (fun _ : tensor A => 0%Z) ts) in T.
    2: { apply map_ext. intro t. rewrite <- repeat_o2i by lia. rewrite dot_zeros. auto. }
    rewrite T. rewrite (map_seq_indices sh (fun idx => map (fun j => dot idx (pi j)) ts)).
    unfold spec_offsets. apply map_ext_in. intros idx Hi. apply indices_in in Hi. apply map_ext_in. intros t Ht.
    unfold pi. apply dot_aligned.
    + rewrite Forall_forall in HP. apply HP. apply in_map; auto.
    + eapply broadcast_len; eauto. apply in_map; auto.
    + apply valid_length; auto.
Qed.

(** * Element-wise operations *)
Lemma rdZ_nat {A} (l : list A) n : rdZ l (Z.of_nat n) = nth_error l n.
Proof. unfold rdZ. destruct (Z.ltb_spec (Z.of_nat n) 0); [lia|]. rewrite Nat2Z.id. auto. Qed.
Lemma call_spec {A B J} (f : list A -> B) (js : list J) (d : J -> list A) (off : J -> nat) (v : J -> A) :
  (forall j, In j js -> nth_error (d j) (off j) = Some (v j)) ->
  call f (map d js) (map (fun j => Z.of_nat (off j)) js) = Some (f (map v js)).
Proof.
  intro H. unfold call.
  assert (E : map (fun p : list A * Z => rdZ (fst p) (snd p)) (combine (map d js) (map (fun j => Z.of_nat (off j)) js))
    = map (fun j => rdZ (d j) (Z.of_nat (off j))) js).
  { clear. induction js; simpl; auto. f_equal; auto. }
  rewrite E, (seqopt_map _ v); auto. intros j Hj. rewrite rdZ_nat. auto.
Qed.

Lemma elementwise_correct {A B} (f : list A -> B) (fs : list (list nat * (list nat -> A))) sh :
  Forall positive (map fst fs) -> broadcastShape (map fst fs) = Some sh ->
  elementwise f (map (fun p => tensor_of (fst p) (snd p)) fs)
  = Ok (tensor_of sh (fun idx => f (map (fun p => snd p (bidx (fst p) idx)) fs))).
Proof.
  intros HP HB. unfold elementwise. 
  set (ts := map (fun p => tensor_of (fst p) (snd p)) fs).
  assert (Ets : map tshape ts = map fst fs) by (unfold ts; rewrite map_map; reflexivity).
  rewrite Ets, HB. unfold forEach.
  rewrite (offsets_spec ts sh) by (rewrite Ets; auto). unfold spec_offsets. rewrite map_map.
  assert (HI : is_broadcast (map fst fs) sh) by (apply broadcastShape_iff; auto).
  rewrite (seqopt_map _ (fun idx => f (map (fun p => snd p (bidx (fst p) idx)) fs))); auto.
  intros idx Hi. apply indices_in in Hi. unfold ts. rewrite !map_map.
  apply (call_spec f fs (fun x => tdata (tensor_of (fst x) (snd x)))
    (fun x => ravel (tshape (tensor_of (fst x) (snd x))) (bidx (tshape (tensor_of (fst x) (snd x))) idx))).
  intros p Hp. apply rd_of_idx. apply bidx_valid with (sh := sh); auto.
  apply (is_broadcast_bto _ _ _ HI). apply in_map; auto.
Qed.
Lemma elementwise_fail {A B} (f : list A -> B) (ts : list (tensor A)) : Forall positive (map tshape ts) ->
  (~ exists sh, is_broadcast (map tshape ts) sh) -> elementwise f ts = Fail.
Proof.
  intros HP H. unfold elementwise. destruct (broadcastShape (map tshape ts)) as [sh|] eqn:E; auto.
  exfalso. apply H. exists sh. apply broadcastShape_iff; auto.
Qed.
Lemma unary_correct {A B} (f : A -> B) sh F : unary f (tensor_of sh F) = Some (tensor_of sh (fun idx => f (F idx))).
Proof.
  unfold unary, tnumel. cbn [tshape tensor_of]. rewrite (tab_tensor sh _ (fun idx => f (F idx))); auto.
  intros idx Hv. change (map F (indices sh)) with (tdata (tensor_of sh F)). cbn [tdata tensor_of].
  pose proof (rd_of_idx sh F idx Hv) as R. simpl in R. rewrite R. reflexivity.
Qed.

(** In place = out of place. *)
Definition shp {A} (o : option (list nat * (list nat -> A))) (s : list nat) : list nat :=
  match o with None => s | Some p => fst p end.
Lemma nth_error_firstn_ge {A} (l : list A) n k : n <= k -> nth_error (firstn n l) k = None.
Proof. intro H. apply nth_error_None. rewrite firstn_length. lia. Qed.

Lemma inplace_correct {A} (f : list A -> A) sh F (others : list (option (list nat * (list nat -> A)))) :
  Forall positive (sh :: map (fun o => shp o sh) others) ->
  broadcastShape (sh :: map (fun o => shp o sh) others) = Some sh ->
  elementwise_inplace f (tensor_of sh F) (map (option_map (fun p => tensor_of (fst p) (snd p))) others)
  = Ok (tensor_of sh (fun idx => f (F idx :: map (fun o => match o with None => F idx | Some p => snd p (bidx (fst p) idx) end) others))).
Proof.
  intros HP HB. unfold elementwise_inplace.
  set (oth := map (option_map (fun p => tensor_of (fst p) (snd p))) others).
  set (ts := tensor_of sh F :: map (operand (tensor_of sh F)) oth).
  assert (Ets : map tshape ts = sh :: map (fun o => shp o sh) others).
  { unfold ts, oth. cbn [map tshape tensor_of]. f_equal. rewrite !map_map. apply map_ext. intros [p|]; reflexivity. }
  rewrite Ets, HB. unfold list_eqb. cbn [tshape tensor_of]. destruct (list_eq_dec Nat.eq_dec sh sh); [|congruence].
  rewrite (offsets_spec ts sh) by (rewrite Ets; auto).
  assert (HI : is_broadcast (sh :: map (fun o => shp o sh) others) sh) by (apply broadcastShape_iff; auto).
  set (G := fun idx => f (F idx :: map (fun o => match o with None => F idx | Some p => snd p (bidx (fst p) idx) end) others)).
  set (body := fun cur p => _).
  (* invariant: the first entries are updated *)
  pose (P := fun (done : list (nat * list Z)) (cur : list A) =>
    length cur = numel sh /\ forall idx, valid sh idx -> nth_error cur (ravel sh idx) =
      if ravel sh idx <? length done then Some (G idx) else Some (F idx)).
  set (L := combine (seq 0 (numel sh)) (spec_offsets ts sh)).
  assert (HL : length L = numel sh).
  { unfold L, spec_offsets. rewrite combine_length, seq_length, map_length, indices_length. lia. }
  destruct (loop_inv P body L [] (tdata (tensor_of sh F))) as (d & Ed & Pd1 & Pd2).
  - split; [apply of_length|]. intros idx Hv. simpl length. destruct (Nat.ltb_spec (ravel sh idx) 0); [lia|].
    apply (rd_of_idx sh F idx Hv).
  - intros p x q cur EL [Hlen Hcur]. simpl app in *.
    assert (Hp : length p < numel sh) by (rewrite <- HL, EL, app_length; simpl; lia).
    assert (Ex : nth_error L (length p) = Some x) by (rewrite EL, nth_error_app2, Nat.sub_diag by lia; auto).
    set (k := length p) in *. set (idx := offsetToIndices sh k).
    assert (Hv : valid sh idx) by (apply o2i_valid; auto).
    assert (Hk : ravel sh idx = k) by (apply ravel_o2i; auto).
    assert (x = (k, map (fun t => Z.of_nat (ravel (tshape t) (bidx (tshape t) idx))) ts)) as ->.
    { unfold L in Ex. rewrite nth_error_combine' in Ex. rewrite nth_error_seq in Ex.
      unfold spec_offsets in Ex. rewrite nth_error_map, indices_nth in Ex by auto.
      destruct (Nat.ltb_spec k (numel sh)); [|lia]. simpl in Ex. injection Ex as <-. reflexivity. }
    unfold body. cbn [fst snd].
    assert (Ec : call f (map tdata (mkT sh cur :: map (operand (mkT sh cur)) oth))
              (map (fun t => Z.of_nat (ravel (tshape t) (bidx (tshape t) idx))) ts) = Some (G idx)).
    { pose (js := None :: map (fun o => match o with None => None | Some p => Some p end) others).
      assert (Ej1 : map tdata (mkT sh cur :: map (operand (mkT sh cur)) oth)
        = map (fun o => match o with None => cur | Some p => tdata (tensor_of (fst p) (snd p)) end) js).
      { unfold js, oth. cbn [map]. f_equal. rewrite !map_map. apply map_ext. intros [?|]; reflexivity. }
      assert (Ej2 : map (fun t => Z.of_nat (ravel (tshape t) (bidx (tshape t) idx))) ts
        = map (fun o => Z.of_nat (ravel (shp o sh) (bidx (shp o sh) idx))) js).
      { unfold js, ts, oth. cbn [map]. f_equal. rewrite !map_map. apply map_ext. intros [?|]; reflexivity. }
      rewrite Ej1, Ej2.
      rewrite (call_spec f js _ (fun o => ravel (shp o sh) (bidx (shp o sh) idx))
        (fun o => match o with None => F idx | Some p => snd p (bidx (fst p) idx) end)).
      - unfold G, js. cbn [map]. rewrite map_map. do 3 f_equal. apply map_ext. intros [?|]; reflexivity.
      - intros o Ho. destruct o as [p0|].
        + apply (rd_of_idx (fst p0) (snd p0)). apply bidx_valid with (sh := sh); auto. cbn [shp].
          apply (is_broadcast_bto _ _ _ HI). right. destruct Ho as [|Ho]; [discriminate|].
          apply in_map_iff in Ho. destruct Ho as (o' & Eo & Ho). apply in_map_iff. exists o'. destruct o'; [|discriminate].
          injection Eo as ->. auto.
        + cbn [shp]. rewrite bidx_same by auto. rewrite Hcur by auto. rewrite Hk.
          destruct (Nat.ltb_spec k k); [lia|]. auto. }
    rewrite Ec. simpl obind.
    destruct (wr_some cur k (G idx)) as (cur' & -> & L' & N'); [lia|]. exists cur'. split; auto. split; [congruence|].
    intros idx' Hv'. rewrite N'. rewrite app_length. simpl length. fold k. rewrite Hcur by auto.
    destruct (Nat.eqb_spec (ravel sh idx') k) as [Ek|Nk].
    + rewrite <- Hk in Ek. apply ravel_inj in Ek; auto. subst idx'. rewrite Hk.
      destruct (Nat.ltb_spec k (k + 1)); [auto|lia].
    + destruct (Nat.ltb_spec (ravel sh idx') k), (Nat.ltb_spec (ravel sh idx') (k + 1)); auto; lia.
  - rewrite Ed. f_equal. unfold tensor_of. f_equal. simpl app in Pd2.
    apply nth_error_ext'. intro k. destruct (Nat.lt_ge_cases k (numel sh)) as [Hk|Hk].
    + rewrite <- (ravel_o2i sh k Hk) at 1. rewrite Pd2 by (apply o2i_valid; auto). rewrite ravel_o2i by auto.
      rewrite HL. destruct (Nat.ltb_spec k (numel sh)); [|lia]. rewrite nth_error_map, indices_nth by auto. reflexivity.
    + rewrite (proj2 (nth_error_None d k)) by lia. symmetry. apply nth_error_None. rewrite map_length, indices_length. auto.
Qed.
