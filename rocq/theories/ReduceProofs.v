From Coq Require Import ZArith List Bool Arith Lia Reals Lra Ring.
From Verif Require Import ShapeModel ShapeSpec ShapeProofs TensorModel TensorSpec TensorLemmas BcastModel BcastSpec BcastProofs BcastProofs2 BufModel BufProofs CutSpec ReduceModel ReduceSpec.
Import ListNotations.

(** * Marks *)
Lemma marks_step rank dims : forall m, length m = rank ->
  match fold_left (fun acc d => match acc with
    | None => None
    | Some m => let d := if (d <? 0)%Z then (d + Z.of_nat rank)%Z else d in
                if ((d <? 0) || (Z.of_nat rank <=? d))%Z then None else Some (set_nth m (Z.to_nat d) true)
    end) dims (Some m) with
  | Some ax => length ax = rank /\ (forall d, In d dims -> exists k, dim_is rank d k)
      /\ forall k, nth k ax false = true <-> nth k m false = true \/ exists d, In d dims /\ dim_is rank d k
  | None => exists d, In d dims /\ forall k, ~ dim_is rank d k
  end.
Proof.
  induction dims as [|d dims IH]; intros m Hm; cbn [fold_left].
  - split; auto. split; [intros d []|]. intro k. split; auto. intros [H|[d [[] _]]]; auto.
  - pose proof (axis_some rank d) as AS. pose proof (axis_none rank d) as AN. unfold axis in AS, AN. cbv zeta in *.
    set (d' := if (d <? 0)%Z then (d + Z.of_nat rank)%Z else d) in *. destruct ((d' <? 0) || (Z.of_nat rank <=? d'))%Z.
    + assert (E : fold_left (fun acc d => match acc with
        | None => None
        | Some m => let d := if (d <? 0)%Z then (d + Z.of_nat rank)%Z else d in
                if ((d <? 0) || (Z.of_nat rank <=? d))%Z then None else Some (set_nth m (Z.to_nat d) true)
        end) dims (@None (list bool)) = None) by (clear; induction dims; auto).
      cbv zeta in E. rewrite E. exists d. split; [left; auto|]. intros k Hk. apply AS in Hk. discriminate.
    + specialize (IH (set_nth m (Z.to_nat d') true)). rewrite set_nth_length in IH. specialize (IH Hm). cbv zeta in IH.
      pose proof (proj1 (AS (Z.to_nat d')) eq_refl) as Hk.
      assert (U : forall k, dim_is rank d k -> k = Z.to_nat d') by (intros k Q; apply AS in Q; congruence).
      destruct (fold_left _ dims _) as [ax|].
      * destruct IH as (I1 & I2 & I3). split; auto. split.
        { intros x [<-|Hx]; auto. exists (Z.to_nat d'). exact Hk. }
        intro k. rewrite I3. rewrite <- !nth_default_eq. unfold nth_default. rewrite set_nth_nth.
        assert (LL : (Z.to_nat d' <? length m) = true) by (apply Nat.ltb_lt; rewrite Hm; apply Hk). rewrite LL, andb_true_r.
        destruct (Nat.eqb_spec k (Z.to_nat d')) as [->|N].
        { split; auto. intros _. right. exists d. split; [left; auto|exact Hk]. }
        { split; intros [H|(x & Hx & Hx')]; auto.
          - right. exists x. split; [right|]; auto.
          - destruct Hx as [<-|Hx]; [apply U in Hx'; contradiction|]. right. exists x. auto. }
      * destruct IH as (x & Hx & Hx'). exists x. split; [right|]; auto.
Qed.
Lemma marks_spec rank dims : match marks rank dims with
  | Some ax => axes_named rank dims ax | None => exists d, In d dims /\ forall k, ~ dim_is rank d k end.
Proof.
  unfold marks. pose proof (marks_step rank dims (repeat false rank) (repeat_length _ _)) as H. destruct (fold_left _ dims _) as [ax|]; auto.
  destruct H as (H1 & H2 & H3). split; auto. split; auto. intro k. rewrite H3. split; auto. intros [H|H]; auto.
  exfalso. clear - H. revert k H. induction rank as [|n IH]; intros [|k]; simpl; try discriminate. apply IH.
Qed.
Lemma axes_unique rank dims a b : axes_named rank dims a -> axes_named rank dims b -> a = b.
Proof.
  intros (A1 & _ & A3) (B1 & _ & B3). apply (nth_ext _ _ false false); [congruence|]. intros k _. apply eq_true_iff_eq. rewrite A3, B3. tauto.
Qed.
Lemma marks_named rank dims ax : axes_named rank dims ax -> marks rank dims = Some ax.
Proof.
  intro H. pose proof (marks_spec rank dims) as M. destruct (marks rank dims) as [b|].
  - f_equal. eapply axes_unique; eauto.
  - destruct M as (d & Hd & N). destruct H as (_ & H & _). destruct (H d Hd) as [k Hk]. destruct (N k Hk).
Qed.

(** * Groups *)
Lemma rshape_numel : forall sh ax, length ax = length sh -> numel (reduced_shape ax true sh) = numel (reduced_shape ax false sh).
Proof.
  induction sh as [|d sh IH]; intros [|a ax] H; try discriminate; auto. rewrite !rshape_cons, !numel_app, IH by (simpl in H; lia).
  destruct a; cbn; lia.
Qed.
Lemma group_dst ax keep sh k : length ax = length sh -> k < numel (reduced_shape ax keep sh) ->
  group ax keep sh (offsetToIndices (reduced_shape ax keep sh) k) = filter (fun idx => getReduceDstIndex sh ax (ravel sh idx) =? k) (indices sh).
Proof.
  intros Hl Hk. unfold group. apply filter_ext_in. intros idx Hi. apply indices_in in Hi. unfold getReduceDstIndex.
  pose proof (ravel_lt _ _ Hi). rewrite (dst_spec keep) by (auto; lia). cbn [fst]. rewrite o2i_ravel by auto.
  rewrite same_idx_eqb. rewrite <- (ravel_eqb (reduced_shape ax keep sh)).
  - rewrite ravel_o2i by auto. auto.
  - apply reduced_valid; auto.
  - apply o2i_valid; auto.
Qed.
Lemma groups_keep {X} ax keep sh (f : list (list nat) -> X) : length ax = length sh ->
  map (fun r => f (group ax keep sh r)) (indices (reduced_shape ax keep sh)) = map (fun r => f (group ax true sh r)) (indices (reduced_shape ax true sh)).
Proof.
  intro Hl. assert (En : forall keep, numel (reduced_shape ax keep sh) = numel (reduced_shape ax true sh)) by (intros [|]; auto; symmetry; apply rshape_numel; auto).
  rewrite <- !indices_seq, !map_map, En. apply map_ext_in. intros k Hk. apply in_seq in Hk. rewrite !group_dst; auto; rewrite ?En; lia.
Qed.
Definition dropped (ax : list bool) (sh : list nat) : list nat := flat_map (fun p => if snd p : bool then [fst p] else []) (combine sh ax).
Lemma dropped_cons a ax d sh : dropped (a :: ax) (d :: sh) = (if a then [d] else []) ++ dropped ax sh.
Proof. reflexivity. Qed.
Lemma dropped_numel keep : forall sh ax, length ax = length sh -> numel (reduced_shape ax keep sh) * numel (dropped ax sh) = numel sh.
Proof.
  induction sh as [|d sh IH]; intros [|a ax] H; try discriminate; auto. rewrite rshape_cons, dropped_cons, !numel_app.
  rewrite numel_cons, <- (IH ax) by (simpl in H; lia). destruct a; [destruct keep|]; cbn [app]; rewrite ?numel_cons, ?numel_nil; lia.
Qed.
Lemma filter_flat_map {X Y} (p : Y -> bool) (f : X -> list Y) l : filter p (flat_map f l) = flat_map (fun x => filter p (f x)) l.
Proof. induction l; simpl; auto. rewrite filter_app, IHl. auto. Qed.
Lemma filter_map {X Y} (p : Y -> bool) (f : X -> Y) l : filter p (map f l) = map f (filter (fun x => p (f x)) l).
Proof. induction l as [|x l IH]; simpl; auto. rewrite IH. destruct (p (f x)); auto. Qed.
Lemma flat_map_length_const {X Y} (f : X -> list Y) n l : (forall x, In x l -> length (f x) = n) -> length (flat_map f l) = length l * n.
Proof. induction l as [|x l IH]; intro H; simpl; auto. rewrite app_length, IH, H; [lia|left; auto|intros; apply H; right; auto]. Qed.
Lemma flat_map_length_one {Y} (f : nat -> list Y) i n d : i < d -> length (f i) = n -> (forall j, j <> i -> f j = []) -> length (flat_map f (seq 0 d)) = n.
Proof.
  intros Hi Hn Hz. replace d with (i + (1 + (d - i - 1))) by lia. rewrite !seq_app, !flat_map_app, !app_length. cbn [seq flat_map]. rewrite app_nil_r.
  assert (Z : forall l, ~ In i l -> flat_map f l = []).
  { induction l as [|x l IH]; auto. intro H. simpl. rewrite Hz, IH; auto; simpl in H; tauto. }
  rewrite !Z; [simpl; rewrite ?Nat.add_0_r; auto|rewrite in_seq; lia|rewrite in_seq; lia].
Qed.
Lemma same_idx_cons i a j b : same_idx (i :: a) (j :: b) = (i =? j) && same_idx a b.
Proof. unfold same_idx. destruct (list_eq_dec Nat.eq_dec (i :: a) (j :: b)), (Nat.eqb_spec i j), (list_eq_dec Nat.eq_dec a b); simpl; auto; congruence. Qed.
Lemma group_length keep : forall sh ax ridx, length ax = length sh -> valid (reduced_shape ax keep sh) ridx ->
  length (group ax keep sh ridx) = numel (dropped ax sh).
Proof.
  induction sh as [|d sh IH]; intros [|a ax] ridx Hl Hv; try discriminate.
  - inversion Hv; subst. reflexivity.
  - rewrite rshape_cons in Hv. rewrite dropped_cons, numel_app. unfold group. cbn [indices]. rewrite filter_flat_map.
    assert (Hf : forall i, filter (fun idx => same_idx (reduced_idx (a :: ax) keep idx) ridx) (map (cons i) (indices sh))
       = map (cons i) (filter (fun idx => same_idx ((if a then (if keep then [0] else []) else [i]) ++ reduced_idx ax keep idx) ridx) (indices sh))).
    { intro i. rewrite filter_map. auto. }
    destruct a; [destruct keep|]; cbn [app] in *.
    + inversion Hv as [|x y r rs H1 H2]; subst. assert (x = 0) as -> by lia.
      rewrite (flat_map_length_const _ (numel (dropped ax sh))), seq_length; [rewrite numel_cons, numel_nil; lia|].
      intros i _. rewrite Hf, map_length. erewrite filter_ext; [apply (IH ax r); auto|]. intro idx. cbn [app]. rewrite same_idx_cons. auto.
    + rewrite (flat_map_length_const _ (numel (dropped ax sh))), seq_length; [rewrite numel_cons, numel_nil; lia|].
      intros i _. rewrite Hf, map_length. apply IH; auto.
    + inversion Hv as [|x y r rs H1 H2]; subst.
      rewrite (flat_map_length_one _ x (numel (dropped ax sh))); [rewrite numel_nil; lia|auto| |].
      * rewrite Hf, map_length. erewrite filter_ext; [apply (IH ax r); auto|]. intro idx. cbn [app]. rewrite same_idx_cons, Nat.eqb_refl. auto.
      * intros j Hj. rewrite Hf. rewrite (filter_ext _ (fun _ => false)); [|intro idx; cbn [app]; rewrite same_idx_cons; destruct (Nat.eqb_spec j x); [lia|auto]].
        assert (Q : forall l : list (list nat), filter (fun _ => false) l = []) by (clear; induction l; auto). rewrite Q. auto.
Qed.

Section Ring.
Context {K : cring}.
Add Ring Kring3 : (cring_ring K).
Lemma sumAll_correct sh (F : list nat -> K) : sumAll (tensor_of sh F) = Ok (tensor_of [] (fun _ => sum F (indices sh))).
Proof.
  unfold sumAll, reduceOpAll, isScalar. destruct sh as [|d sh]; [unfold tensor_of; cbn; rewrite sum_cons, sum_nil, add_0_r; auto|]. cbn [tshape tensor_of].
  set (s := d :: sh). fold (tensor_of s F). assert (E : forall l a, (forall i, In i l -> i < numel s) -> loop l a (fun val i => obind (rd (tdata (tensor_of s F)) i) (fun x => Some (add x val)))
     = Some (add a (sum (fun k => F (offsetToIndices s k)) l))).
  { induction l as [|i l IH]; intros a H; cbn [loop]; [rewrite sum_nil; f_equal; ring|]. rewrite rd_of by (apply H; left; auto). cbn [obind].
    rewrite IH by (intros; apply H; right; auto). rewrite sum_cons. f_equal. ring. }
  unfold reduceAll, tnumel. cbn [tshape tensor_of]. fold (tensor_of s F). unfold s in E. rewrite E by (intros i Hi; apply in_seq in Hi; fold s; lia).
  fold s. assert (E2 : add zero (sum (fun k => F (offsetToIndices s k)) (seq 0 (numel s))) = sum F (indices s)) by (rewrite <- indices_seq, sum_map; ring).
  rewrite E2. reflexivity.
Qed.
Lemma sumOnDims_correct sh dims ax keep (F : list nat -> K) : sh <> [] -> dims <> [] -> axes_named (length sh) dims ax ->
  sumOnDims (tensor_of sh F) dims keep = Ok (tensor_of (reduced_shape ax keep sh) (fun ridx => sum F (group ax keep sh ridx))).
Proof.
  intros Hs Hd Ha. unfold sumOnDims, isScalar. cbn [tshape tensor_of]. destruct sh as [|x sh]; [congruence|]. destruct dims as [|z dims]; [congruence|].
  rewrite (marks_named _ _ _ Ha). fold (tensor_of (x :: sh) F). rewrite sumDims_correct by apply Ha. reflexivity.
Qed.
Lemma sumOnDims_scalar dims keep (F : list nat -> K) : sumOnDims (tensor_of [] F) dims keep = Ok (tensor_of [] F).
Proof. reflexivity. Qed.
Lemma sumOnDims_rejects sh dims keep (F : list nat -> K) : sh <> [] -> dims = [] \/ (exists d, In d dims /\ forall k, ~ dim_is (length sh) d k) ->
  sumOnDims (tensor_of sh F) dims keep = Fail.
Proof.
  intros Hs H. unfold sumOnDims, isScalar. cbn [tshape tensor_of]. destruct sh as [|x sh]; [congruence|]. destruct dims as [|z dims]; auto.
  destruct H as [H|(d & Hd & N)]; [discriminate|]. pose proof (marks_spec (length (x :: sh)) (z :: dims)) as M. destruct (marks _ _) as [b|]; auto.
  destruct M as (_ & M & _). destruct (M d Hd) as [k Hk]. destruct (N k Hk).
Qed.

(** One after the other. *)
Definition orb_list (a b : list bool) : list bool := map (fun p => fst p || snd p) (combine a b).
Lemma reduced_twice : forall ax bx idx, length ax = length idx -> length bx = length idx ->
  reduced_idx bx true (reduced_idx ax true idx) = reduced_idx (orb_list ax bx) true idx.
Proof.
  induction ax as [|a ax IH]; intros [|b bx] [|i idx] H1 H2; try discriminate; auto. unfold orb_list. cbn [combine map fst snd]. fold (orb_list ax bx).
  rewrite !reduced_cons. destruct a; cbn [app orb]; rewrite reduced_cons, IH by (simpl in *; lia); destruct b; auto.
Qed.
Lemma rshape_twice : forall ax bx sh, length ax = length sh -> length bx = length sh ->
  reduced_shape bx true (reduced_shape ax true sh) = reduced_shape (orb_list ax bx) true sh.
Proof.
  induction ax as [|a ax IH]; intros [|b bx] [|i sh] H1 H2; try discriminate; auto. unfold orb_list. cbn [combine map fst snd]. fold (orb_list ax bx).
  rewrite !rshape_cons. destruct a; cbn [app orb]; rewrite rshape_cons, IH by (simpl in *; lia); destruct b; auto.
Qed.
Lemma rshape_length : forall ax sh, length ax = length sh -> length (reduced_shape ax true sh) = length sh.
Proof. induction ax as [|a ax IH]; intros [|d sh] H; try discriminate; auto. rewrite rshape_cons, app_length, IH by (simpl in H; lia). destruct a; auto. Qed.
Lemma nth_orb a b k : length a = length b -> nth k (orb_list a b) false = nth k a false || nth k b false.
Proof.
  intro H. revert b k H. induction a as [|x a IH]; intros [|y b] k H; try discriminate; [destruct k; auto|]. destruct k; auto. cbn [orb_list combine map nth fst snd]. apply IH. simpl in H. lia.
Qed.
Lemma orb_list_length a b : length a = length b -> length (orb_list a b) = length a.
Proof. intro H. unfold orb_list. rewrite map_length, combine_length. lia. Qed.
Lemma axes_app rank d1 d2 a b : axes_named rank d1 a -> axes_named rank d2 b -> axes_named rank (d1 ++ d2) (orb_list a b).
Proof.
  intros (A1 & A2 & A3) (B1 & B2 & B3). split; [rewrite orb_list_length; congruence|]. split.
  - intros d Hd. apply in_app_iff in Hd as [H|H]; auto.
  - intro k. rewrite nth_orb by congruence. rewrite orb_true_iff, A3, B3. split.
    + intros [(x & H1 & H2)|(x & H1 & H2)]; exists x; rewrite in_app_iff; tauto.
    + intros (x & H1 & H2). apply in_app_iff in H1 as [H1|H1]; [left|right]; exists x; auto.
Qed.
Lemma group_twice ax bx sh (F : list nat -> K) r : length ax = length sh -> length bx = length sh ->
  sum (fun s => sum F (group ax true sh s)) (group bx true (reduced_shape ax true sh) r) = sum F (group (orb_list ax bx) true sh r).
Proof.
  intros H1 H2. unfold group. rewrite !sum_filter. set (rsh := reduced_shape ax true sh).
  transitivity (sum (fun s => sum (fun idx => if same_idx (reduced_idx ax true idx) s then (if same_idx (reduced_idx bx true s) r then F idx else zero) else zero) (indices sh)) (indices rsh)).
  { apply sum_ext. intros s _. rewrite sum_filter. destruct (same_idx (reduced_idx bx true s) r).
    - auto.
    - symmetry. apply sum_zero'. intros idx _. destruct (same_idx _ s); auto. }
  rewrite sum_swap. apply sum_ext. intros idx Hi. apply indices_in in Hi.
  assert (Hv : valid rsh (reduced_idx ax true idx)) by (apply reduced_valid; auto).
  rewrite <- reduced_twice by (rewrite (valid_length _ _ Hi); auto).
  rewrite <- (sum_single idx_eqb idx_eqb_true (fun s => if same_idx (reduced_idx bx true s) r then F idx else zero) (reduced_idx ax true idx) (indices rsh)).
  - apply sum_ext. intros s _. rewrite same_idx_eqb. replace (idx_eqb (reduced_idx ax true idx) s) with (idx_eqb s (reduced_idx ax true idx)); auto.
    apply eq_true_iff_eq. rewrite !idx_eqb_true. split; auto.
  - apply indices_nodup.
  - apply indices_in. auto.
Qed.
Definition rbindT {A B} (r : res A) (f : A -> res B) : res B := match r with UB => UB | Fail => Fail | Ok x => f x end.
Lemma sumOnDims_seq sh d1 d2 (F : list nat -> K) : d1 <> [] -> d2 <> [] ->
  sumOnDims (tensor_of sh F) (d1 ++ d2) true
  = match sumOnDims (tensor_of sh F) d1 true with UB => UB | Fail => Fail | Ok r => sumOnDims r d2 true end.
Proof.
  intros H1 H2. destruct sh as [|x sh']; [reflexivity|]. set (sh := x :: sh'). assert (Hs : sh <> []) by discriminate.
  assert (H12 : d1 ++ d2 <> []) by (destruct d1; [congruence|discriminate]).
  pose proof (marks_spec (length sh) d1) as M1. destruct (marks (length sh) d1) as [a|].
  2: { destruct M1 as (d & Hd & N). rewrite !sumOnDims_rejects; auto; right; exists d; auto. split; auto. apply in_app_iff. auto. }
  rewrite (sumOnDims_correct sh d1 a) by auto. pose proof (marks_spec (length sh) d2) as M2.
  assert (LA : length a = length sh) by apply M1. pose proof (rshape_length a sh LA) as LR.
  assert (Hr : reduced_shape a true sh <> []) by (intro E; rewrite E in LR; discriminate).
  destruct (marks (length sh) d2) as [b|].
  - rewrite (sumOnDims_correct sh (d1 ++ d2) (orb_list a b)) by (auto; apply axes_app; auto).
    rewrite (sumOnDims_correct _ d2 b) by (auto; rewrite LR; auto).
    assert (LB : length b = length sh) by apply M2. rewrite rshape_twice by auto. f_equal. apply tensor_of_ext. intros r _. symmetry. apply group_twice; auto.
  - destruct M2 as (d & Hd & N). rewrite !sumOnDims_rejects; auto; right; exists d; [rewrite LR|]; auto. split; auto. apply in_app_iff. auto.
Qed.
End Ring.
