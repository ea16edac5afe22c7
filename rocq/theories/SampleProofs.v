(** Cumulative sums, sorting and top-k. *)
From Coq Require Import ZArith List Bool Arith Lia Permutation.
From Verif Require Import ShapeModel ShapeSpec ShapeProofs TensorModel TensorSpec TensorLemmas BcastModel BufModel BufProofs CutSpec ReduceSpec LineModel LineProofs SoftmaxProofs SampleModel SampleSpec.
Import ListNotations.

(** * Cumulative sum *)
Lemma cumsumLine_length {K : cring} (l : list K) : forall a, length (cumsumLine a l) = length l.
Proof. induction l; intro; simpl; auto. Qed.
Lemma cumsumLine_nth {K : cring} (l : list K) : forall a j d, j < length l -> nth j (cumsumLine a l) d = add a (sum (fun x => x) (firstn (S j) l)).
Proof.
  induction l as [|x l IH]; intros a j d Hj; simpl in Hj; [lia|]. cbn [cumsumLine firstn]. cbv zeta. rewrite sum_cons. destruct j as [|j]; cbn [nth].
  - rewrite firstn_O, sum_nil, add_0_r. auto.
  - rewrite IH by lia. rewrite add_assoc. auto.
Qed.
Lemma line_firstn {A} (F : list nat -> A) k n idx m : m <= n -> firstn m (line F true k n idx) = line F true k m idx.
Proof.
  intro H. unfold line. rewrite firstn_map. f_equal. replace n with (m + (n - m)) by lia. rewrite seq_app, firstn_app, seq_length, Nat.sub_diag, firstn_O, app_nil_r.
  rewrite <- (seq_length m 0) at 1. apply firstn_all.
Qed.
Lemma cumsum_ok {K : cring} sh (F : list nat -> K) dim k : dim_is (length sh) dim k ->
  cumsum (tensor_of sh F) dim = Ok (tensor_of sh (fun idx => sum (fun j => F (with_coord true k idx j)) (seq 0 (S (nth k idx 0))))).
Proof.
  intros [Hk Hd]. unfold cumsum. simpl tshape. replace (axis (length sh) dim) with (Some k) by (symmetry; apply axis_some; auto).
  set (n := nth k sh 0) in *.
  pose proof (lineKernel_ok zero sh k n (fun o i => obind (readLine (tdata (tensor_of sh F)) n (innerSize sh k) o i) (fun l => Some (cumsumLine zero l)))
    (fun idx => cumsumLine zero (line F true k n idx)) Hk) as Q.
  replace (set_nth sh k n) with sh in Q by (symmetry; apply set_nth_same).
  rewrite Q.
  - f_equal. apply tensor_of_ext. intros idx V. pose proof (coord_lt sh k idx V Hk). rewrite cumsumLine_nth by (rewrite line_length; auto).
    rewrite add_0_l. rewrite line_firstn by (unfold n; lia). unfold line. rewrite sum_map. auto.
  - intros idx j. rewrite line_twice. auto.
  - intros idx V. unfold n at 1. rewrite (readLine_ok sh k F idx 1) by auto. simpl. split; auto. rewrite cumsumLine_length, line_length. auto.
Qed.
Lemma cumsum_bad {K : cring} sh (F : list nat -> K) dim : (forall k, ~ dim_is (length sh) dim k) -> cumsum (tensor_of sh F) dim = Fail.
Proof.
  intro H. unfold cumsum. simpl tshape. destruct (axis (length sh) dim) as [k|] eqn:E; auto. apply axis_some in E. destruct (H k). exact E.
Qed.

(** * Entries *)
Section Sort.
  Context {A : Type} (lt : A -> A -> bool).
  Notation entry := (A * nat)%type.
  Context (ssort : (entry -> entry -> bool) -> list entry -> list entry) (psort : (entry -> entry -> bool) -> nat -> list entry -> list entry).
  Context (Hs : sort_contract ssort) (Hp : partial_sort_contract psort).
  Lemma entries_in (l : list A) v i : In (v, i) (entries l) <-> nth_error l i = Some v.
  Proof.
    unfold entries. split; intro H.
    - apply In_nth_error in H. destruct H as [q Hq]. rewrite nth_error_combine, nth_error_seq0 in Hq.
      destruct (nth_error l q) eqn:E; [|discriminate]. destruct (q <? length l); [|discriminate]. injection Hq as -> ->. auto.
    - apply nth_error_In with i. rewrite nth_error_combine, nth_error_seq0, H. assert (i < length l) by (apply nth_error_Some; congruence).
      apply Nat.ltb_lt in H0. rewrite H0. auto.
  Qed.
  Lemma entries_length (l : list A) : length (entries l) = length l.
  Proof. unfold entries. rewrite combine_length, seq_length. lia. Qed.
  Lemma entries_snd (l : list A) : map snd (entries l) = seq 0 (length l).
  Proof.
    unfold entries. generalize 0. induction l as [|x l IH]; intro a; simpl; auto. f_equal. auto.
  Qed.
  Lemma cmp_weak (P : A -> Prop) b (Q : entry -> Prop) : strict_weak P lt -> (forall e, Q e -> P (fst e)) -> strict_weak Q (cmpOf lt b).
  Proof.
    intros (H1 & H2 & H3) HQ. unfold cmpOf. split; [|split].
    - intros x Hx. destruct b; apply H1; auto.
    - intros x y z Hx Hy Hz E1 E2. destruct b; eapply H2; [| | |eassumption|eassumption| | | |eassumption|eassumption]; auto.
    - intros x y z Hx Hy Hz E1 E2 E3 E4. destruct b; [apply H3 with (fst y)|apply H3 with (fst y)]; auto.
  Qed.
  Lemma entries_weak (P : A -> Prop) b l : strict_weak P lt -> (forall x, In x l -> P x) -> strict_weak (fun e => In e (entries l)) (cmpOf lt b).
  Proof.
    intros HP Hl. apply (cmp_weak P); auto. intros [v i] H. apply Hl. apply entries_in in H. eapply nth_error_In; eauto.
  Qed.
  Lemma sub_weak {T} (P Q : T -> Prop) c : strict_weak P c -> (forall x, Q x -> P x) -> strict_weak Q c.
  Proof. intros (H1 & H2 & H3) H. split; [|split]; intros; eauto. Qed.
  Lemma sortLine_ok (P : A -> Prop) b l : strict_weak P lt -> (forall x, In x l -> P x) ->
    Permutation (sortLine lt ssort b l) (entries l) /\ ordered_upto (cmpOf lt b) (length l) (sortLine lt ssort b l).
  Proof.
    intros HP Hl. destruct (Hs (cmpOf lt b) (entries l) (entries_weak P b l HP Hl)) as [H1 H2]. rewrite entries_length in H2. auto.
  Qed.
  Lemma nth_error_firstn {T} (l : list T) : forall k i, nth_error (firstn k l) i = if i <? k then nth_error l i else None.
  Proof.
    induction l as [|x l IH]; intros [|k] [|i]; simpl; auto.
    - destruct (S i <? S k); auto.
    - rewrite IH. auto.
  Qed.
  Lemma topkLine_ok (P : A -> Prop) k b s l : strict_weak P lt -> (forall x, In x l -> P x) -> k <= length l ->
    let t := topkLine lt ssort psort k b s l in
    length t = k /\ ordered_upto (cmpOf lt b) k t
    /\ exists rest, Permutation (t ++ rest) (entries l) /\ forall x y, In x t -> In y rest -> cmpOf lt b y x = false.
  Proof.
    intros HP Hl Hk t. unfold topkLine in t.
    destruct (Hp (cmpOf lt b) k (entries l)) as [H1 H2]; [rewrite entries_length; auto|apply (entries_weak P); auto|].
    set (v := psort (cmpOf lt b) k (entries l)) in *.
    assert (Lv : length v = length l) by (rewrite (Permutation_length H1); apply entries_length).
    assert (Lf : length (firstn k v) = k) by (rewrite firstn_length; lia).
    assert (Pt : Permutation t (firstn k v)).
    { unfold t. destruct s; auto. apply Hs. apply (sub_weak (fun e => In e (entries l))); [apply (entries_weak P); auto|].
      intros x Hx. apply (Permutation_in _ H1). rewrite <- (firstn_skipn k v). apply in_or_app; auto. }
    split; [rewrite (Permutation_length Pt); auto|]. split.
    - unfold t. destruct s.
      + rewrite <- Lf at 1. apply Hs. apply (sub_weak (fun e => In e (entries l))); [apply (entries_weak P); auto|].
        intros x Hx. apply (Permutation_in _ H1). rewrite <- (firstn_skipn k v). apply in_or_app; auto.
      + intros i j x y Hij Hi Ex Ey. rewrite nth_error_firstn in Ex, Ey. destruct (i <? k); [|discriminate]. destruct (j <? k); [|discriminate]. apply (H2 i j); auto.
    - exists (skipn k v). split.
      + rewrite Pt, firstn_skipn. auto.
      + intros x y Hx Hy. apply (Permutation_in _ Pt) in Hx. apply In_nth_error in Hx. destruct Hx as [i Hi]. apply In_nth_error in Hy. destruct Hy as [j Hj].
        rewrite nth_error_firstn in Hi. destruct (Nat.ltb_spec i k); [|discriminate].
        apply (H2 i (k + j) x y); auto; [lia|]. rewrite <- Hj.
        rewrite <- (firstn_skipn k v) at 1. rewrite nth_error_app2 by lia. f_equal. lia.
  Qed.
  (** * Tensors of lines *)
  Lemma unzip_of {B C} sh (G : list nat -> B * C) : unzip (Ok (tensor_of sh G)) = Ok (tensor_of sh (fun i => fst (G i)), tensor_of sh (fun i => snd (G i))).
  Proof. unfold unzip, tensor_of. simpl. rewrite !map_map. auto. Qed.
  Lemma line_of_nth {B C} (G : list nat -> list B) (h : B -> C) d k m idx : (forall idx j, G (with_coord true k idx j) = G idx) -> length (G idx) = m -> k < length idx ->
    line (fun idx => h (nth (nth k idx 0) (G idx) d)) true k m idx = map h (G idx).
  Proof.
    intros HG HL Hk. apply nth_error_ext'. intro j. unfold line. rewrite !nth_error_map, nth_error_seq0. destruct (Nat.ltb_spec j m); cbn [option_map].
    - rewrite (with_coord_nth k idx j Hk). rewrite HG. rewrite (nth_error_nth' (G idx) d) by lia. auto.
    - replace (nth_error (G idx) j) with (@None B); auto. symmetry. apply nth_error_None. lia.
  Qed.
  Lemma line_nth_error {B} (F : list nat -> B) k n idx j : nth_error (line F true k n idx) j = if j <? n then Some (F (with_coord true k idx j)) else None.
  Proof. unfold line. rewrite nth_error_map, nth_error_seq0. destruct (j <? n); auto. Qed.
  Lemma line_all sh k (F : list nat -> A) (P : A -> Prop) idx m : k < length sh -> (forall i, valid sh i -> P (F i)) -> valid (set_nth sh k m) idx ->
    forall x, In x (line F true k (nth k sh 0) idx) -> P x.
  Proof.
    intros Hk HP V x Hx. unfold line in Hx. apply in_map_iff in Hx. destruct Hx as (j & <- & Hj). apply in_seq in Hj. apply HP. apply (valid_at sh k idx j m); auto. lia.
  Qed.

  Lemma sort_ok (P : A -> Prop) sh (F : list nat -> A) dim k desc : dim_is (length sh) dim k -> strict_weak P lt -> (forall idx, valid sh idx -> P (F idx)) ->
    exists V I, sort lt ssort (tensor_of sh F) dim desc = Ok (tensor_of sh V, tensor_of sh I)
    /\ forall idx, valid sh idx ->
       Permutation (line I true k (nth k sh 0) idx) (seq 0 (nth k sh 0))
       /\ V idx = F (with_coord true k idx (I idx))
       /\ forall i j, i < j < nth k sh 0 ->
          let before := V (with_coord true k idx i) in let after := V (with_coord true k idx j) in
          (if desc then lt before after else lt after before) = false.
  Proof.
    intros [Hk Hd] HP HF. set (n := nth k sh 0).
    set (G := fun idx => sortLine lt ssort desc (line F true k n idx)).
    assert (HG : forall idx j, G (with_coord true k idx j) = G idx) by (intros; unfold G; rewrite line_twice; auto).
    assert (HL : forall idx m, valid (set_nth sh k m) idx -> Permutation (G idx) (entries (line F true k n idx)) /\ ordered_upto (cmpOf lt desc) n (G idx)).
    { intros idx m V. pose proof (sortLine_ok P desc (line F true k n idx) HP (line_all sh k F P idx m Hk HF V)) as Q. rewrite line_length in Q. exact Q. }
    assert (Hlen : forall idx m, valid (set_nth sh k m) idx -> length (G idx) = n).
    { intros idx m V. rewrite (Permutation_length (proj1 (HL idx m V))), entries_length. apply line_length. }
    exists (fun idx => fst (nth (nth k idx 0) (G idx) (F [], 0))), (fun idx => snd (nth (nth k idx 0) (G idx) (F [], 0))).
    split.
    - unfold sort. simpl tshape. replace (axis (length sh) dim) with (Some k) by (symmetry; apply axis_some; auto). fold n.
      pose proof (lineKernel_ok (F [], 0) sh k n (fun o i => obind (readLine (tdata (tensor_of sh F)) n (innerSize sh k) o i) (fun l => Some (sortLine lt ssort desc l)))
        G Hk HG) as Q.
      replace (set_nth sh k n) with sh in Q by (symmetry; apply set_nth_same).
      rewrite Q; [apply unzip_of|].
      intros idx V. unfold n at 1. rewrite (readLine_ok sh k F idx 1) by auto. simpl. split; auto. eapply Hlen; eauto.
    - intros idx V. assert (V' : valid (set_nth sh k n) idx) by (unfold n; rewrite set_nth_same; auto).
      pose proof (valid_length _ _ V) as Li. destruct (HL idx n V') as [HPm Hord]. specialize (Hlen idx n V').
      split; [|split].
      + rewrite line_of_nth by (auto; lia). rewrite HPm, entries_snd, line_length. auto.
      + pose proof (coord_lt sh k idx V Hk) as Hc. fold n in Hc.
        destruct (nth (nth k idx 0) (G idx) (F [], 0)) as [v p] eqn:E. cbn [fst snd].
        assert (Hin : In (v, p) (entries (line F true k n idx))).
        { apply (Permutation_in _ HPm). rewrite <- E. apply nth_In. lia. }
        apply entries_in in Hin. rewrite line_nth_error in Hin. destruct (p <? n); congruence.
      + intros i j [Hij Hj]. fold n in Hj. cbv zeta. rewrite !HG, !with_coord_nth by lia.
        set (x := nth i (G idx) (F [], 0)). set (y := nth j (G idx) (F [], 0)).
        assert (Q : cmpOf lt desc y x = false).
        { apply (Hord i j); auto; [lia| |]; apply nth_error_nth'; lia. }
        unfold cmpOf in Q. destruct desc; auto.
  Qed.
  Lemma topk_ok (P : A -> Prop) sh (F : list nat -> A) dim d k largest srt : dim_is (length sh) dim d -> strict_weak P lt -> (forall idx, valid sh idx -> P (F idx)) ->
    0 < k <= nth d sh 0 ->
    exists V I, topk lt ssort psort (tensor_of sh F) (Z.of_nat k) dim largest srt = Ok (tensor_of (set_nth sh d k) V, tensor_of (set_nth sh d k) I)
    /\ forall idx, valid (set_nth sh d k) idx ->
       NoDup (line I true d k idx) /\ I idx < nth d sh 0
       /\ V idx = F (with_coord true d idx (I idx))
       /\ (forall i j, i < j < k ->
            let before := V (with_coord true d idx i) in let after := V (with_coord true d idx j) in
            (if largest then lt before after else lt after before) = false)
       /\ (forall p, p < nth d sh 0 -> ~ In p (line I true d k idx) ->
            let left_out := F (with_coord true d idx p) in (if largest then lt (V idx) left_out else lt left_out (V idx)) = false).
  Proof.
    intros [Hk Hd] HP HF Hkn. set (n := nth d sh 0) in *.
    set (G := fun idx => topkLine lt ssort psort k largest srt (line F true d n idx)).
    assert (HG : forall idx j, G (with_coord true d idx j) = G idx) by (intros; unfold G; rewrite line_twice; auto).
    assert (HL : forall idx m, valid (set_nth sh d m) idx -> length (G idx) = k /\ ordered_upto (cmpOf lt largest) k (G idx)
        /\ exists rest, Permutation (G idx ++ rest) (entries (line F true d n idx)) /\ forall x y, In x (G idx) -> In y rest -> cmpOf lt largest y x = false).
    { intros idx m V. apply (topkLine_ok P); auto; [|rewrite line_length; lia]. apply (line_all sh d F P idx m); auto. }
    exists (fun idx => fst (nth (nth d idx 0) (G idx) (F [], 0))), (fun idx => snd (nth (nth d idx 0) (G idx) (F [], 0))).
    split.
    - unfold topk. simpl tshape. replace (axis (length sh) dim) with (Some d) by (symmetry; apply axis_some; auto). fold n.
      replace ((0 <? Z.of_nat k)%Z && (Z.of_nat k <=? Z.of_nat n)%Z) with true by (symmetry; apply andb_true_iff; split; [apply Z.ltb_lt|apply Z.leb_le]; lia).
      rewrite Nat2Z.id. cbv zeta.
      rewrite (lineKernel_ok (F [], 0) sh d k (fun o i => obind (readLine (tdata (tensor_of sh F)) n (innerSize sh d) o i) (fun l => Some (topkLine lt ssort psort k largest srt l)))
        G Hk HG); [apply unzip_of|].
      intros idx V. unfold n at 1. rewrite (readLine_ok sh d F idx 1) by auto. simpl. split; auto. eapply HL; eauto.
    - intros idx V. pose proof (valid_length _ _ V) as Li. rewrite set_nth_length in Li. destruct (HL idx k V) as (Hlen & Hord & rest & HPm & Hrest).
      assert (Hc : nth d idx 0 < k).
      { pose proof (coord_lt _ d idx V) as Q. rewrite set_nth_length in Q. specialize (Q Hk).
        replace (nth d (set_nth sh d k) 0) with k in Q; auto. symmetry. exact (with_coord_nth d sh k Hk). }
      assert (El : line (fun idx => snd (nth (nth d idx 0) (G idx) (F [], 0))) true d k idx = map snd (G idx)) by (apply line_of_nth; auto; lia).
      rewrite El.
      assert (Hin : forall e, In e (G idx) -> nth_error (line F true d n idx) (snd e) = Some (fst e)).
      { intros [v p] He. apply entries_in. apply (Permutation_in _ HPm). apply in_or_app; auto. }
      assert (HI : In (nth (nth d idx 0) (G idx) (F [], 0)) (G idx)) by (apply nth_In; lia).
      pose proof (Hin _ HI) as Hv. rewrite line_nth_error in Hv.
      split; [|split; [|split; [|split]]].
      + assert (ND : NoDup (map snd (G idx ++ rest))).
        { apply (Permutation_NoDup (Permutation_sym (Permutation_map snd HPm))). rewrite entries_snd. apply seq_NoDup. }
        rewrite map_app in ND. clear -ND. induction (map snd (G idx)) as [|x l IH]; [constructor|]. simpl in ND. inversion ND; subst. constructor; auto.
        intro K. apply H1. apply in_or_app; auto.
      + destruct (Nat.ltb_spec (snd (nth (nth d idx 0) (G idx) (F [], 0))) n); auto. discriminate.
      + destruct (snd (nth (nth d idx 0) (G idx) (F [], 0)) <? n); congruence.
      + intros i j [Hij Hj]. cbv zeta. rewrite !HG, !with_coord_nth by lia.
        assert (Q : cmpOf lt largest (nth j (G idx) (F [], 0)) (nth i (G idx) (F [], 0)) = false).
        { apply (Hord i j); auto; [lia| |]; apply nth_error_nth'; lia. }
        unfold cmpOf in Q. destruct largest; auto.
      + intros p Hpn Hout. cbv zeta.
        assert (Hr : In (F (with_coord true d idx p), p) rest).
        { assert (He : In (F (with_coord true d idx p), p) (entries (line F true d n idx))).
          { apply entries_in. rewrite line_nth_error. apply Nat.ltb_lt in Hpn. rewrite Hpn. auto. }
          apply (Permutation_in _ (Permutation_sym HPm)) in He. apply in_app_or in He. destruct He as [He|He]; auto.
          destruct Hout. apply in_map_iff. eexists; split; [|exact He]. auto. }
        pose proof (Hrest _ _ HI Hr) as Q. unfold cmpOf in Q. simpl in Q. destruct largest; auto.
  Qed.
  Lemma sort_bad sh (F : list nat -> A) dim desc : (forall k, ~ dim_is (length sh) dim k) -> sort lt ssort (tensor_of sh F) dim desc = Fail.
  Proof.
    intro H. unfold sort. simpl tshape. destruct (axis (length sh) dim) as [k|] eqn:E; auto. apply axis_some in E. destruct (H k). exact E.
  Qed.
  Lemma topk_bad sh (F : list nat -> A) k dim largest srt : (forall d, dim_is (length sh) dim d -> ~ (0 < k <= Z.of_nat (nth d sh 0%nat))%Z) ->
    topk lt ssort psort (tensor_of sh F) k dim largest srt = Fail.
  Proof.
    intro H. unfold topk. simpl tshape. destruct (axis (length sh) dim) as [d|] eqn:E; auto. apply axis_some in E.
    specialize (H d E). destruct (Z.ltb_spec 0 k); destruct (Z.leb_spec k (Z.of_nat (nth d sh 0))); auto. lia.
  Qed.
End Sort.

(** * The contracts can be met *)
Lemma insert_perm {A} (cmp : A -> A -> bool) x l : Permutation (insert_sorted cmp x l) (x :: l).
Proof. induction l as [|y l IH]; simpl; auto. destruct (cmp y x); auto. rewrite IH. apply perm_swap. Qed.
Lemma isort_perm {A} (cmp : A -> A -> bool) l : Permutation (insertion_sort cmp l) l.
Proof. unfold insertion_sort. induction l as [|x l IH]; simpl; auto. rewrite insert_perm. auto. Qed.
Inductive sorted_by {A} (cmp : A -> A -> bool) : list A -> Prop :=
| sb_nil : sorted_by cmp []
| sb_cons x l : (forall y, In y l -> cmp y x = false) -> sorted_by cmp l -> sorted_by cmp (x :: l).
Lemma insert_sorted_by {A} (P : A -> Prop) (cmp : A -> A -> bool) x l : strict_weak P cmp -> P x -> (forall y, In y l -> P y) ->
  sorted_by cmp l -> sorted_by cmp (insert_sorted cmp x l).
Proof.
  intros (H1 & H2 & H3) Px Pl Sl. induction Sl as [|y l Hy Sl IH]; simpl; [constructor; [intros ? []|constructor]|].
  assert (Py : P y) by (apply Pl; simpl; auto).
  destruct (cmp y x) eqn:E.
  - constructor; [|apply IH; intros; apply Pl; simpl; auto]. intros z Hz. apply (Permutation_in _ (insert_perm cmp x l)) in Hz. destruct Hz as [<-|Hz]; auto.
    destruct (cmp x y) eqn:E2; auto. specialize (H2 x y x Px Py Px E2 E). rewrite H1 in H2; auto.
  - constructor; [|constructor; auto]. intros z [<-|Hz]; auto. assert (Pz : P z) by (apply Pl; simpl; auto).
    destruct (cmp z x) eqn:E2; auto. specialize (Hy z Hz).
    destruct (cmp x y) eqn:E3.
    + rewrite (H2 z x y) in Hy; auto.
    + destruct (cmp y z) eqn:E4.
      * rewrite (H2 y z x) in E; auto.
      * rewrite (H3 z y x) in E2; auto.
Qed.
Lemma isort_sorted {A} (cmp : A -> A -> bool) l : strict_weak (fun x => In x l) cmp -> sorted_by cmp (insertion_sort cmp l).
Proof.
  intro H. assert (G : forall m, incl m l -> sorted_by cmp (insertion_sort cmp m)).
  { unfold insertion_sort. induction m as [|x m IH]; intro Hm; simpl; [constructor|]. apply (insert_sorted_by (fun x => In x l)); auto.
    - apply Hm; simpl; auto.
    - intros y Hy. apply Hm. right. apply (Permutation_in _ (isort_perm cmp m)). exact Hy.
    - apply IH. intros y Hy. apply Hm; simpl; auto. }
  apply G, incl_refl.
Qed.
Lemma sorted_ordered {A} (cmp : A -> A -> bool) l k : sorted_by cmp l -> ordered_upto cmp k l.
Proof.
  intros Sl. induction Sl as [|x l Hx Sl IH]; intros i j a b Hij Hi Ea Eb; [destruct i; discriminate|].
  destruct i as [|i], j as [|j]; try lia; simpl in *.
  - injection Ea as ->. apply Hx. eapply nth_error_In; eauto.
  - assert (IH' : ordered_upto cmp (S k) l). { clear -Sl. induction Sl as [|x l Hx Sl IH]; intros i j a b Hij Hi Ea Eb; [destruct i; discriminate|].
      destruct i as [|i], j as [|j]; try lia; simpl in *; [injection Ea as ->; apply Hx; eapply nth_error_In; eauto|].
      eapply (IH i j); eauto; lia. }
    eapply (IH' i j); eauto; lia.
Qed.
Lemma isort_contract {A} : sort_contract (@insertion_sort A).
Proof. intros cmp l H. split; [apply isort_perm|]. apply sorted_ordered, isort_sorted; auto. Qed.
Lemma isort_partial {A} : partial_sort_contract (fun cmp (_ : nat) (l : list A) => insertion_sort cmp l).
Proof. intros cmp k l _ H. split; [apply isort_perm|]. apply sorted_ordered, isort_sorted; auto. Qed.
