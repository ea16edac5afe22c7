From Coq Require Import ZArith List Bool Arith Lia.
From Coq Require Import ZifyBool ZifyNat.
From Verif Require Import ShapeModel ShapeSpec ShapeProofs TensorModel TensorSpec TensorLemmas BcastModel BcastSpec BcastProofs BcastProofs2 BufModel BufProofs PermProofs PermProofs2 CutModel CutSpec CutProofs CutProofs2 IndexModel IndexSpec.
Import ListNotations.

(** * Writing into a tensor *)
Lemma same_idx_true a b : same_idx a b = true <-> a = b.
Proof. unfold same_idx. destruct (list_eq_dec _ a b); split; intro; congruence. Qed.
Lemma same_idx_ravel sh a b : valid sh a -> valid sh b -> (ravel sh a =? ravel sh b) = same_idx a b.
Proof.
  intros H1 H2. destruct (Nat.eqb_spec (ravel sh a) (ravel sh b)) as [E|E].
  - symmetry. apply same_idx_true. eapply ravel_inj; eauto.
  - symmetry. apply not_true_is_false. intro E2. apply same_idx_true in E2. congruence.
Qed.
Lemma data_ext {A} (d : list A) sh F : length d = numel sh -> (forall idx, valid sh idx -> nth_error d (ravel sh idx) = Some (F idx)) -> d = tdata (tensor_of sh F).
Proof.
  intros L H. apply nth_error_ext'. intro k. cbn [tdata tensor_of]. rewrite nth_error_map. destruct (Nat.lt_ge_cases k (numel sh)) as [Hk|Hk].
  - rewrite indices_nth by auto. cbn [option_map]. rewrite <- (H _ (o2i_valid _ _ Hk)), ravel_o2i by auto. auto.
  - rewrite !(proj2 (nth_error_None _ _)); auto; [rewrite indices_length; auto|lia].
Qed.
Lemma write_at {A} sh (F : list nat -> A) i v : valid sh i ->
  wr (tdata (tensor_of sh F)) (ravel sh i) v = Some (tdata (tensor_of sh (fun idx => if same_idx i idx then v else F idx))).
Proof.
  intro V. destruct (wr_some (tdata (tensor_of sh F)) (ravel sh i) v) as (l' & E & L & N).
  - rewrite of_length. apply ravel_lt; auto.
  - rewrite E. f_equal. apply data_ext; [rewrite L; apply of_length|]. intros idx Vi. rewrite N, Nat.eqb_sym, same_idx_ravel by auto.
    destruct (same_idx i idx); auto. apply rd_of_idx; auto.
Qed.
Lemma writes_tensor {I A} (l : list I) (at_ : I -> list nat) (v : I -> A) sh F body :
  (forall d i, In i l -> length d = numel sh -> body d i = wr d (ravel sh (at_ i)) (v i)) -> (forall i, In i l -> valid sh (at_ i)) ->
  loop l (tdata (tensor_of sh F)) body = Some (tdata (tensor_of sh (after_writes l at_ v F))).
Proof.
  revert F. induction l as [|i l IH] using rev_ind; intros F H1 H2; [reflexivity|].
  rewrite loop_app, IH.
  - cbn [obind loop]. rewrite H1 by (try apply of_length; apply in_or_app; right; left; auto).
    rewrite write_at by (apply H2, in_or_app; right; left; auto). cbn [obind]. do 2 f_equal. apply tensor_of_ext. intros idx V.
    unfold after_writes. rewrite rev_app_distr. cbn [rev app find]. destruct (same_idx (at_ i) idx); auto.
  - intros d j Hj. apply H1. apply in_or_app; auto.
  - intros j Hj. apply H2. apply in_or_app; auto.
Qed.

(** * The counter *)
Lemma tick_spec sh : forall c, valid sh c ->
  if S (ravel sh c) <? numel sh
  then exists c', tick sh c = (false, c') /\ valid sh c' /\ ravel sh c' = S (ravel sh c)
  else tick sh c = (true, repeat 0 (length sh)).
Proof.
  induction sh as [|d sh IH]; intros c V; inversion V; subst; [reflexivity|].
  rewrite ravel_cons, numel_cons. cbn [tick]. specialize (IH l H3). pose proof (ravel_lt _ _ H3) as HR.
  destruct (Nat.ltb_spec (S (ravel sh l)) (numel sh)) as [H|H].
  - destruct IH as (c' & -> & V' & E'). rewrite (proj2 (Nat.ltb_lt _ _)) by nia.
    exists (x :: c'). split; auto. split; [constructor; auto|]. rewrite ravel_cons. lia.
  - rewrite IH. assert (EN : S (ravel sh l) = numel sh) by lia. replace (S (x * numel sh + ravel sh l)) with (S x * numel sh) by (simpl; lia).
    destruct (Nat.ltb_spec (S x) d).
    + rewrite (proj2 (Nat.ltb_lt _ _)) by nia. eexists. split; [reflexivity|]. split.
      * constructor; auto. apply valid_zeros. lia.
      * rewrite ravel_cons, ravel_zeros. lia.
    + rewrite (proj2 (Nat.ltb_ge _ _)) by nia. reflexivity.
Qed.
Lemma counterLoop_run {S} sh (g : S -> nat -> list nat -> option S) : forall n k b c, k + n = numel sh -> (n <> 0 -> c = offsetToIndices sh k) ->
  obind (loop (seq k n) (b, c) (fun st i => obind (g (fst st) i (snd st)) (fun b => Some (b, snd (tick sh (snd st)))))) (fun st => Some (fst st))
  = loop (seq k n) b (fun b i => g b i (offsetToIndices sh i)).
Proof.
  induction n as [|n IH]; intros k b c Hk Hc; [reflexivity|]. rewrite Hc by lia. cbn [seq loop fst snd].
  destruct (g b k _) as [b'|]; cbn [obind]; auto. apply IH; [lia|]. intro Hn.
  assert (Hkn : k < numel sh) by lia. pose proof (tick_spec sh _ (o2i_valid sh k Hkn)) as T. rewrite ravel_o2i in T by auto.
  rewrite (proj2 (Nat.ltb_lt _ _)) in T by lia. destruct T as (c' & -> & V & E). cbn [snd]. rewrite <- E, o2i_ravel by auto. auto.
Qed.
Lemma counterLoop_correct {A} rsh ssh (F : list nat -> A) (m : list nat -> list nat) read place :
  (forall idx, valid rsh idx -> read idx = Some (ravel ssh (m idx)) /\ valid ssh (m idx) /\ place (ravel rsh idx) idx = ravel rsh idx) ->
  counterLoop rsh (tdata (tensor_of ssh F)) read place = Ok (tensor_of rsh (fun idx => F (m idx))).
Proof.
  intro H. unfold counterLoop.
  transitivity (finish rsh (loop (seq 0 (numel rsh)) (fresh (numel rsh)) (fun b i =>
     obind (read (offsetToIndices rsh i)) (fun o => obind (rd (tdata (tensor_of ssh F)) o) (fun x => put b (place i (offsetToIndices rsh i)) x))))).
  { f_equal. rewrite <- (counterLoop_run rsh (fun b i c => obind (read c) (fun o => obind (rd (tdata (tensor_of ssh F)) o) (fun x => put b (place i c) x))) (numel rsh) 0 (fresh (numel rsh)) (repeat 0 (length rsh))).
    - f_equal. apply loop_ext. intros [b c] i _. cbn [fst snd]. destruct (read c); cbn [obind]; auto. destruct (rd _ _); cbn [obind]; auto.
    - auto.
    - apply repeat_o2i. }
  apply (fill_tensor (seq 0 (numel rsh)) (offsetToIndices rsh)).
  - intros b i Hi _. apply in_seq in Hi. assert (i < numel rsh) as Hi' by lia. destruct (H _ (o2i_valid _ _ Hi')) as (E1 & V & E2).
    rewrite E1. cbn [obind]. rewrite rd_of_idx by auto. cbn [obind]. rewrite ravel_o2i in * by auto. rewrite E2. auto.
  - intros i Hi. apply in_seq in Hi. apply o2i_valid. lia.
  - intros idx V. exists (ravel rsh idx). split; [apply in_seq; pose proof (ravel_lt _ _ V); lia|apply o2i_ravel; auto].
Qed.

(** * Replacing one coordinate *)
Lemma valid_nth_iff sh idx : valid sh idx <-> length idx = length sh /\ forall k, k < length sh -> nth k idx 0 < nth k sh 0.
Proof.
  split.
  - intro V. split; [apply (valid_length _ _ V)|]. induction V; intros [|k] Hk; simpl in *; try lia. apply IHV. lia.
  - intros [L H]. revert idx L H. induction sh as [|d sh IH]; intros [|i idx] L H; simpl in *; try discriminate; constructor.
    + apply (H 0). lia.
    + apply IH; [lia|]. intros k Hk. apply (H (S k)). lia.
Qed.
Lemma valid_set sh d n idx x : d < length sh -> valid (set_nth sh d n) idx -> x < nth d sh 0 -> valid sh (set_nth idx d x).
Proof.
  rewrite !valid_nth_iff. rewrite !set_nth_length. intros Hd [L H] Hx. split; auto. intros k Hk. specialize (H k Hk).
  rewrite nth_set_nth in *. destruct (k =? d) eqn:E; cbn [andb] in *.
  - apply Nat.eqb_eq in E. subst. rewrite (proj2 (Nat.ltb_lt _ _)) by lia. auto.
  - auto.
Qed.
Lemma valid_set_coord sh ish d idx x : d < length sh -> length ish = length sh -> (forall k, k < length sh -> k <> d -> nth k ish 0 <= nth k sh 0) ->
  valid ish idx -> x < nth d sh 0 -> valid sh (set_nth idx d x).
Proof.
  rewrite !valid_nth_iff. rewrite !set_nth_length. intros Hd EL Hle [L H] Hx. split; [congruence|]. intros k Hk.
  rewrite nth_set_nth. destruct (Nat.eqb_spec k d) as [->|E]; cbn [andb].
  - rewrite (proj2 (Nat.ltb_lt _ _)) by lia. auto.
  - specialize (Hle k Hk E). specialize (H k ltac:(lia)). lia.
Qed.

(** * expand *)
Lemma Forall2_R {A B} (R : A -> B -> Prop) a b l m : Forall2 R l m -> forall i, i < length l -> R (nth i l a) (nth i m b).
Proof. induction 1; intros [|i] Hi; simpl in *; try lia; auto. apply IHForall2. lia. Qed.
Lemma rmap_iff {A B} (f : A -> res B) l : forall r, rmap f l = Ok r <-> Forall2 (fun x y => f x = Ok y) l r.
Proof.
  induction l as [|x l IH]; intro r; simpl.
  - split; [intro H; injection H as <-; constructor|]. intro H; inversion H; auto.
  - split.
    + destruct (f x) as [| |y] eqn:E; try discriminate. cbn [rbind]. destruct (rmap f l) as [| |ys]; try discriminate. cbn [rbind].
      intro H. injection H as <-. constructor; auto. apply IH; auto.
    + intro H. inversion H; subst. rewrite H2. cbn [rbind]. rewrite (proj2 (IH _) H4). auto.
Qed.
Lemma from_right_pad sh n p : p < n -> length sh <= n -> nth (n - 1 - p) (repeat 1 (n - length sh) ++ sh) 1 = from_right sh p.
Proof.
  intros H1 H2. unfold from_right. destruct (Nat.lt_ge_cases p (length sh)).
  - rewrite rev_nth by lia. rewrite app_nth2; rewrite repeat_length; [|lia]. f_equal. lia.
  - rewrite (nth_overflow (rev sh)) by (rewrite rev_length; lia). rewrite app_nth1 by (rewrite repeat_length; lia). apply nth_repeat.
Qed.
Lemma expandShape_iff sh sizes rsh : expandShape sh sizes = Ok rsh <-> expand_target sh sizes rsh.
Proof.
  unfold expandShape, expand_target. destruct (Nat.ltb_spec (length sizes) (length sh)) as [H|H]; [split; [discriminate|lia]|].
  rewrite rmap_iff. set (al := repeat 1 (length sizes - length sh) ++ sh).
  assert (LA : length al = length sizes) by (unfold al; rewrite app_length, repeat_length; lia).
  assert (LC : length (combine sizes al) = length sizes) by (rewrite combine_length; lia).
  assert (HF : forall x y, (if (fst x =? -1)%Z then Ok (snd x) else if (0 <? fst x)%Z then Ok (Z.to_nat (fst x)) else Fail) = Ok y
     <-> (fst x = (-1)%Z /\ y = snd x) \/ (0 < fst x /\ fst x = Z.of_nat y)%Z).
  { intros [z d] y. cbn [fst snd]. destruct (Z.eqb_spec z (-1)); [subst; split; [intro E; injection E; auto|intros [[_ ->]|[? _]]; [auto|lia]]|].
    destruct (Z.ltb_spec 0 z); split; try discriminate.
    - intro E. injection E as <-. right. lia.
    - intros [[? _]|[_ ->]]; [lia|]. rewrite Nat2Z.id. auto.
    - intros [[? _]|[? _]]; lia. }
  assert (HN : forall i, i < length sizes -> length rsh = length sizes -> ((fun x y => (if (fst x =? -1)%Z then Ok (snd x) else if (0 <? fst x)%Z then Ok (Z.to_nat (fst x)) else Fail) = Ok y) (nth i (combine sizes al) (0%Z, 1)) (nth i rsh 1)
     <-> (let z := nth (length sizes - 1 - i) (rev sizes) 0%Z in
          (z = (-1)%Z /\ from_right rsh (length sizes - 1 - i) = from_right sh (length sizes - 1 - i)) \/ (0 < z /\ z = Z.of_nat (from_right rsh (length sizes - 1 - i)))%Z))).
  { intros i Hi L. cbv beta zeta. rewrite HF, combine_nth by lia. cbn [fst snd].
    rewrite rev_nth by lia. replace (length sizes - S (length sizes - 1 - i)) with i by lia.
    rewrite <- (from_right_pad sh (length sizes)) by lia. fold al. replace (length sizes - 1 - (length sizes - 1 - i)) with i by lia.
    unfold from_right. rewrite rev_nth by lia. rewrite L. replace (length sizes - S (length sizes - 1 - i)) with i by lia. tauto. }
  split.
  - intro F. assert (L : length rsh = length sizes) by (rewrite <- LC; symmetry; apply (Forall2_length _ _ _ F)). split; auto. split; auto.
    intros p Hp. rewrite L in Hp. specialize (HN (length sizes - 1 - p) ltac:(lia) L).
    replace (length sizes - 1 - (length sizes - 1 - p)) with p in HN by lia. apply HN. cbv beta. refine (Forall2_R _ (0%Z, 1) 1 _ _ F _ _). lia.
  - intros (_ & L & HP). apply (Forall2_nth _ (0%Z, 1) 1); [lia|]. intros i Hi. apply HN; try lia. apply HP. lia.
Qed.

Lemma ito_pad n : forall sh c, length c = n + length sh ->
  indicesToOffset (repeat 0 n ++ strides sh) (map (fun p => if fst p =? 1 then 0 else snd p) (combine (repeat 1 n ++ sh) c)) = ravel sh (bidx sh c).
Proof.
  unfold bidx. intros sh c L. replace (length c - length sh) with n by lia. revert c L. induction n as [|n IH]; intros c L; [reflexivity|].
  destruct c as [|x c]; [discriminate|]. cbn [repeat app combine map skipn]. rewrite ito_cons, IH by (simpl in L; lia). lia.
Qed.
Lemma expand_correct {A} sh sizes rsh (F : list nat -> A) : expand_target sh sizes rsh -> bto sh rsh ->
  expand (tensor_of sh F) sizes = Ok (tensor_of rsh (fun idx => F (bidx sh idx))).
Proof.
  intros H1 H2. unfold expand. change (tshape (tensor_of sh F)) with sh. cbv zeta. rewrite (proj2 (expandShape_iff _ _ _) H1). cbn [rbind].
  destruct (isScalar (tensor_of sh F)) eqn:E.
  - apply isScalar_nil in E. change (sh = []) in E. subst.
    apply (fill_tensor (seq 0 (numel rsh)) (offsetToIndices rsh)).
    + intros b i Hi _. apply in_seq in Hi. rewrite ravel_o2i by lia. rewrite bidx_nil. reflexivity.
    + intros i Hi. apply in_seq in Hi. apply o2i_valid. lia.
    + intros idx V. exists (ravel rsh idx). split; [apply in_seq; pose proof (ravel_lt _ _ V); lia|apply o2i_ravel; auto].
  - destruct H1 as (L1 & L2 & _). apply counterLoop_correct. intros idx V. pose proof (valid_length _ _ V).
    rewrite ito_pad by lia. split; auto. split; auto. apply (bidx_valid _ _ _ H2 V).
Qed.

(** * index_select, repeat_interleave *)
Lemma indexSelect_correct {A} sh dim d (F : list nat -> A) n I J : dim_is (length sh) dim d ->
  (forall k, k < n -> I [k] = Z.of_nat (J k) /\ J k < nth d sh 0) ->
  indexSelect (tensor_of sh F) dim (tensor_of [n] I)
  = Ok (tensor_of (set_nth sh d n) (fun idx => F (set_nth idx d (J (nth d idx 0))))).
Proof.
  intros Hd HJ. unfold indexSelect. change (tshape (tensor_of sh F)) with sh. cbv zeta. rewrite (proj2 (axis_some _ _ _) Hd).
  change (tshape (tensor_of [n] I)) with [n]. cbn [length negb Nat.eqb]. destruct Hd as [Hd _].
  unfold tnumel. change (tshape (tensor_of [n] I)) with [n]. replace (numel [n]) with n by (unfold numel; simpl; lia).
  destruct (Nat.eqb_spec n 0) as [->|Hn].
  - f_equal. unfold tensor_of. f_equal. symmetry. replace (indices (set_nth sh d 0)) with (@nil (list nat)); auto. symmetry.
    apply length_zero_iff_nil. rewrite indices_length. destruct (list_split_at sh d Hd) as (pre & x & post & -> & <-). rewrite set_nth_app, numel_app, numel_cons. lia.
  - apply counterLoop_correct. intros idx V. pose proof V as V'. apply valid_nth_iff in V'. rewrite set_nth_length in V'. destruct V' as [L V'].
    assert (Hk : nth d idx 0 < n) by (specialize (V' d Hd); rewrite nth_set_nth, Nat.eqb_refl, (proj2 (Nat.ltb_lt _ _) Hd) in V'; exact V').
    destruct (HJ _ Hk) as [E1 E2].
    assert (Er : rd (tdata (tensor_of [n] I)) (nth d idx 0) = Some (I [nth d idx 0])).
    { rewrite <- (rd_of_idx [n] I [nth d idx 0]) by (constructor; auto). f_equal. unfold ravel. simpl. unfold indicesToOffset. simpl. lia. }
    rewrite Er. cbn [obind]. rewrite E1. replace (Z.of_nat _ <? 0)%Z with false by lia. rewrite Nat2Z.id.
    split; auto. split; auto. eapply valid_set; eauto.
Qed.
Lemma repeatInterleave_correct {A} sh dim d (F : list nat -> A) r : dim_is (length sh) dim d -> 0 < r ->
  repeatInterleave (tensor_of sh F) (Z.of_nat r) dim
  = Ok (tensor_of (set_nth sh d (nth d sh 0 * r)) (fun idx => F (set_nth idx d (nth d idx 0 / r)))).
Proof.
  intros Hd Hr. unfold repeatInterleave. change (tshape (tensor_of sh F)) with sh. cbv zeta. rewrite (proj2 (axis_some _ _ _) Hd).
  replace (Z.of_nat r <=? 0)%Z with false by lia. rewrite Nat2Z.id. destruct Hd as [Hd _].
  apply counterLoop_correct. intros idx V. pose proof V as V'. apply valid_nth_iff in V'. rewrite set_nth_length in V'. destruct V' as [L V'].
  assert (Hk : nth d idx 0 < nth d sh 0 * r) by (specialize (V' d Hd); rewrite nth_set_nth, Nat.eqb_refl, (proj2 (Nat.ltb_lt _ _) Hd) in V'; exact V').
  split; auto. split; auto. eapply valid_set; eauto. apply Nat.div_lt_upper_bound; lia.
Qed.

(** * gather, scatter *)
Lemma coords_acc sh : forall i acc, i < numel sh -> snd (fold_left (fun acc s => (fst acc mod s, snd acc ++ [fst acc / s])) (strides sh) (i, acc)) = acc ++ offsetToIndices sh i.
Proof.
  induction sh as [|d sh IH]; intros i acc H.
  - cbn. rewrite app_nil_r. auto.
  - rewrite strides_cons, numel_cons in *. cbn [fold_left fst snd]. assert (numel sh <> 0) as Hn by nia.
    rewrite IH by (apply Nat.mod_upper_bound; auto). rewrite o2i_cons by auto. rewrite <- o2i_mod by auto.
    rewrite <- app_assoc. cbn [app]. rewrite (Nat.mod_small (i / numel sh)) by (apply Nat.div_lt_upper_bound; lia). auto.
Qed.
Lemma coordsOf_spec sh i : i < numel sh -> coordsOf (strides sh) i = offsetToIndices sh i.
Proof. intro H. unfold coordsOf. rewrite coords_acc by auto. auto. Qed.
Lemma dim_is_norm r v k : dim_is r v k <-> (k < r /\ (if v <? 0 then v + Z.of_nat r else v)%Z = Z.of_nat k).
Proof. unfold dim_is. destruct (Z.ltb_spec v 0); lia. Qed.
Lemma coordOffsets_spec sh dim d ish I J : dim_is (length sh) dim d -> length ish = length sh ->
  (forall idx, valid ish idx -> dim_is (nth d sh 0) (I idx) (J idx)) ->
  coordOffsets sh dim (tensor_of ish I) = Ok (map (fun idx => ravel sh (set_nth idx d (J idx))) (indices ish)).
Proof.
  intros Hd L HJ. unfold coordOffsets. rewrite (proj2 (axis_some _ _ _) Hd). change (tshape (tensor_of ish I)) with ish. rewrite L, Nat.eqb_refl. cbn [negb].
  unfold tnumel. change (tshape (tensor_of ish I)) with ish. rewrite <- map_seq_indices. apply rmap_iff.
  assert (H : forall i, In i (seq 0 (numel ish)) -> coordOffset sh ish d (tdata (tensor_of ish I)) i = Ok (ravel sh (set_nth (offsetToIndices ish i) d (J (offsetToIndices ish i))))).
  { intros i Hi. apply in_seq in Hi. assert (Hi' : i < numel ish) by lia. unfold coordOffset. rewrite rd_of by auto. cbv zeta.
    destruct (proj1 (dim_is_norm _ _ _) (HJ _ (o2i_valid _ _ Hi'))) as [H1 H2]. rewrite H2.
    replace ((0 <=? _) && (_ <? _))%Z with true by lia. rewrite Nat2Z.id, coordsOf_spec by auto. auto. }
  revert H. generalize (seq 0 (numel ish)) as l. induction l; intro H; simpl; constructor; [apply H; left; auto|]. apply IHl. intros; apply H; right; auto.
Qed.
Lemma gather_correct {A} sh dim d (F : list nat -> A) ish I J : dim_is (length sh) dim d -> length ish = length sh ->
  (forall k, k < length sh -> k <> d -> nth k ish 0 <= nth k sh 0) ->
  (forall idx, valid ish idx -> dim_is (nth d sh 0) (I idx) (J idx)) ->
  gather (tensor_of sh F) dim (tensor_of ish I) = Ok (tensor_of ish (fun idx => F (set_nth idx d (J idx)))).
Proof.
  intros Hd L Hle HJ. unfold gather. change (tshape (tensor_of sh F)) with sh. rewrite (coordOffsets_spec sh dim d ish I J) by auto. cbn [rbind]. rewrite map_map.
  assert (E : map (fun idx => rd (tdata (tensor_of sh F)) (ravel sh (set_nth idx d (J idx)))) (indices ish) = map Some (map (fun idx => F (set_nth idx d (J idx))) (indices ish))).
  { rewrite map_map. apply map_ext_in. intros idx Hi. apply indices_in in Hi. apply rd_of_idx. destruct (HJ _ Hi). eapply valid_set_coord; eauto. apply Hd. }
  rewrite E, seqopt_Some. reflexivity.
Qed.
Lemma rmap_fail {A B} (f : A -> res B) l : (forall x, In x l -> f x <> UB) -> (exists x, In x l /\ f x = Fail) -> rmap f l = Fail.
Proof.
  induction l as [|x l IH]; intros H1 (y & Hy & E); [destruct Hy|]. simpl. destruct (f x) eqn:Ex.
  - destruct (H1 x (or_introl eq_refl) Ex).
  - auto.
  - cbn [rbind]. rewrite IH; auto.
    + intros z Hz. apply H1. right; auto.
    + destruct Hy as [->|Hy]; [congruence|]. exists y; auto.
Qed.
Lemma coordOffsets_fail sh dim ish I : (forall d, dim_is (length sh) dim d -> length ish = length sh ->
   exists idx, valid ish idx /\ forall j, ~ dim_is (nth d sh 0) (I idx) j) -> coordOffsets sh dim (tensor_of ish I) = Fail.
Proof.
  intros H. unfold coordOffsets. destruct (axis _ _) as [d|] eqn:E; auto. apply axis_some in E. change (tshape (tensor_of ish I)) with ish.
  destruct (Nat.eqb_spec (length ish) (length sh)) as [L|L]; cbn [negb]; auto. destruct (H d E L) as (idx & V & HN). clear H.
  apply rmap_fail.
  - intros i Hi. apply in_seq in Hi. unfold tnumel in Hi. change (tshape (tensor_of ish I)) with ish in Hi. unfold coordOffset. rewrite rd_of by lia. cbv zeta. destruct ((0 <=? _) && _)%Z; discriminate.
  - exists (ravel ish idx). split; [apply in_seq; unfold tnumel; change (tshape (tensor_of ish I)) with ish; pose proof (ravel_lt _ _ V); lia|].
    unfold coordOffset. rewrite rd_of_idx by auto. cbv zeta. destruct ((0 <=? _) && _)%Z eqn:EB; auto. exfalso.
    apply (HN (Z.to_nat (if (I idx <? 0)%Z then I idx + Z.of_nat (nth d sh 0%nat) else I idx)%Z)). apply dim_is_norm. lia.
Qed.
Lemma scatter_correct {A} sh dim d (F : list nat -> A) ish I J V : dim_is (length sh) dim d -> length ish = length sh ->
  (forall k, k < length sh -> k <> d -> nth k ish 0 <= nth k sh 0) ->
  (forall idx, valid ish idx -> dim_is (nth d sh 0) (I idx) (J idx)) ->
  scatter (tensor_of sh F) dim (tensor_of ish I) (tensor_of ish V)
  = Ok (tensor_of sh (after_writes (indices ish) (fun idx => set_nth idx d (J idx)) V F)).
Proof.
  intros Hd L Hle HJ. unfold scatter. change (tshape (tensor_of sh F)) with sh. rewrite (coordOffsets_spec sh dim d ish I J) by auto. cbn [rbind].
  rewrite map_length.
  assert (EC : combine (seq 0 (length (indices ish))) (map (fun idx => ravel sh (set_nth idx d (J idx))) (indices ish))
               = map (fun idx => (ravel ish idx, ravel sh (set_nth idx d (J idx)))) (indices ish)).
  { rewrite indices_length, <- seq_indices. generalize (indices ish). induction l; simpl; auto. f_equal. auto. }
  rewrite EC, loop_map.
  rewrite (writes_tensor (indices ish) (fun idx => set_nth idx d (J idx)) V); [reflexivity| |].
  - intros dd idx Hi _. apply indices_in in Hi. cbn [fst snd]. rewrite rd_of_idx by auto. auto.
  - intros idx Hi. apply indices_in in Hi. destruct (HJ _ Hi). eapply valid_set_coord; eauto. apply Hd.
Qed.
