(* Sorting segments in place. *)
From Coq Require Import List Arith ZArith Bool Lia Permutation Sorted.
From Verif Require Import ShapeModel ShapeSpec ShapeProofs TensorModel TensorSpec TensorLemmas BcastModel BufModel BufProofs CutSpec ReduceSpec LineModel LineProofs SoftmaxProofs
  SampleModel SampleSpec SampleProofs GpuModel CudaModel CudaLineModel CudaLineProofs2 CudaSampleModel CudaSampleSpec.
Import ListNotations.
Local Open Scope nat_scope.

Lemma write_line {A} (off : nat -> nat) (n : nat) : (forall d d', d < n -> d' < n -> off d = off d' -> d = d') ->
  forall (r : list A) s buf, s + length r <= n -> (forall d, d < n -> off d < length buf) ->
  exists buf', loop (combine (seq s (length r)) r) buf (fun buf jv => wr buf (off (fst jv)) (snd jv)) = Some buf' /\ length buf' = length buf /\
    (forall d, d < length r -> nth_error buf' (off (s + d)) = nth_error r d) /\
    (forall p, (forall d, s <= d < s + length r -> p <> off d) -> nth_error buf' p = nth_error buf p).
Proof.
  intros INJ. induction r as [|x r IH]; intros s buf Hs Hb; cbn [length seq combine loop].
  - exists buf. split; [reflexivity|]. split; [reflexivity|]. split; [intros d Hd; lia|reflexivity].
  - cbn [length] in Hs. cbn [fst snd]. rewrite wr_set by (apply Hb; lia). cbn [obind].
    destruct (IH (S s) (set_nth buf (off s) x)) as (buf' & E & L & H1 & H2); [lia|intros d Hd; rewrite set_nth_length; apply Hb; exact Hd|].
    exists buf'. split; [exact E|]. split; [rewrite L; apply set_nth_length|]. split.
    + intros [|d] Hd.
      * rewrite Nat.add_0_r. rewrite H2.
        -- rewrite set_nth_nth, Nat.eqb_refl. destruct (Nat.ltb_spec (off s) (length buf)) as [_|N]; [reflexivity|]. specialize (Hb s). lia.
        -- intros d' Hd' Ed. apply INJ in Ed; lia.
      * cbn [nth_error]. replace (s + S d) with (S s + d) by lia. apply H1. lia.
    + intros p Hp. rewrite H2 by (intros d Hd; apply Hp; lia). rewrite set_nth_nth. destruct (Nat.eqb_spec p (off s)) as [E'|_]; [|reflexivity]. exfalso. apply (Hp s); [lia|exact E'].
Qed.

Section Segments.
Context {A : Type} (lt : A -> A -> bool).
Notation entry := (A * nat)%type.
Context (ssort : (entry -> entry -> bool) -> list entry -> list entry).
Variable outer n inner : nat.
Variable desc : bool.
Variable buf0 : list entry.
Variable L : nat -> nat -> list entry.
Hypothesis LEN : length buf0 = outer * n * inner.
Hypothesis READ : forall o i, o < outer -> i < inner -> readLine buf0 n inner o i = Some (L o i).
Hypothesis SIZE : forall o i, o < outer -> i < inner -> length (ssort (cmpOf lt desc) (L o i)) = n.

Lemma segments_sorted : forall S, S <= outer * inner ->
  exists buf, loop (seq 0 S) buf0 (sortSegment lt ssort n inner desc) = Some buf /\ length buf = length buf0 /\
  forall o i d, o < outer -> i < inner -> d < n ->
    nth_error buf (lineOffset n inner o i d) = if o * inner + i <? S then nth_error (ssort (cmpOf lt desc) (L o i)) d else nth_error buf0 (lineOffset n inner o i d).
Proof.
  induction S as [|S IH]; intros HS; [exists buf0; split; [reflexivity|split; [reflexivity|]]; intros; reflexivity|].
  destruct IH as (buf & E & LB & H); [lia|]. assert (HI : 0 < inner) by (destruct inner; [rewrite Nat.mul_0_r in HS; lia|lia]).
  set (o := S / inner). set (i := S mod inner). assert (Hi : i < inner) by (apply Nat.mod_upper_bound; lia).
  assert (Ho : o < outer) by (apply Nat.div_lt_upper_bound; lia). assert (ES : o * inner + i = S) by (unfold o, i; pose proof (Nat.div_mod S inner); lia).
  rewrite seq_S, Nat.add_0_l, loop_app, E. cbn [obind loop]. unfold sortSegment at 1. cbv zeta. fold o i.
  assert (ER : readLine buf n inner o i = Some (L o i)).
  { rewrite <- READ by assumption. unfold readLine, tab. f_equal. apply map_ext_in. intros d Hd. apply in_seq in Hd. unfold rd. rewrite H by (try assumption; lia).
    rewrite ES, Nat.ltb_irrefl. reflexivity. }
  rewrite ER. cbn [obind]. set (r := ssort (cmpOf lt desc) (L o i)). assert (Lr : length r = n) by (apply SIZE; assumption).
  destruct (@write_line entry (lineOffset n inner o i) n) with (r := r) (s := 0) (buf := buf) as (buf' & E' & LB' & H1 & H2).
  - intros d d' Hd Hd' Ed. apply lineOffset_inj in Ed; try assumption. apply Ed.
  - lia.
  - intros d Hd. rewrite LB, LEN. apply lineOffset_lt; assumption.
  - rewrite Lr in E'. match goal with |- context [loop ?a ?b ?c] => change (loop a b c) with (loop (combine (seq 0 n) r) buf (fun buf jv => wr buf (lineOffset n inner o i (fst jv)) (snd jv))) end. rewrite E'. cbn [obind]. exists buf'. split; [reflexivity|]. split; [lia|]. intros o' i' d Ho' Hi' Hd.
    destruct (Nat.eq_dec (o' * inner + i') S) as [Eq|Ne].
    + assert (o' = o /\ i' = i) as [-> ->].
      { destruct (div_prod o' i' inner Hi') as [D1 D2]. rewrite Eq in D1, D2. unfold o, i. auto. }
      rewrite Eq. destruct (Nat.ltb_spec S (Datatypes.S S)); [|lia]. specialize (H1 d). cbn [Nat.add] in H1. rewrite H1 by lia. reflexivity.
    + rewrite H2.
      * rewrite H by assumption. destruct (Nat.ltb_spec (o' * inner + i') S); destruct (Nat.ltb_spec (o' * inner + i') (Datatypes.S S)); try lia; reflexivity.
      * intros d' Hd' Ed. apply lineOffset_inj in Ed; try assumption; [|lia]. destruct Ed as (-> & -> & _). apply Ne. exact ES.
Qed.
End Segments.

Section Sort.
Context {A : Type} (lt : A -> A -> bool).
Notation entry := (A * nat)%type.
Context (ssort : (entry -> entry -> bool) -> list entry -> list entry) (Hs : sort_contract ssort).

Lemma start_buffer sh (F : list nat -> A) k : k < length sh ->
  combine (tdata (tensor_of sh F)) (map (initIndices (nth k sh 0) (innerSize sh k)) (seq 0 (outerSize sh k * nth k sh 0 * innerSize sh k)))
  = tdata (tensor_of sh (fun idx => (F idx, nth k idx 0))).
Proof.
  intros Hk. rewrite <- (split_numel sh k Hk). apply nth_error_ext'. intros p. rewrite nth_error_combine, nth_error_map, nth_error_seq0.
  destruct (Nat.ltb_spec p (numel sh)) as [Hp|Hp].
  - change (@nth_error A) with (@rd A). rewrite rd_of by exact Hp. change (@nth_error (A * nat)) with (@rd (A * nat)). rewrite rd_of by exact Hp. cbn [option_map]. do 2 f_equal.
    pose proof (o2i_valid sh p Hp) as V. pose proof (ravel_o2i sh p Hp) as E. rewrite (line_self sh k _ Hk V) in E.
    pose proof (coord_lt sh k _ V Hk) as Hc. set (j := nth k (offsetToIndices sh p) 0) in *.
    destruct (split_valid sh k _ Hk V) as (_ & _ & V2). pose proof (ravel_lt _ _ V2) as Hi. fold (inOf sh k (offsetToIndices sh p)) in Hi. fold (innerSize sh k) in Hi.
    rewrite <- E. unfold initIndices. rewrite lineOffset_alt. set (o := outOf sh k _). set (i := inOf sh k _) in *. set (inner := innerSize sh k) in *. set (n := nth k sh 0) in *.
    replace ((o * n + j) * inner + i) with ((j * inner + i) + o * (n * inner)) by ring. rewrite Nat.mod_add by nia. rewrite Nat.mod_small by nia.
    rewrite Nat.div_add_l by lia. rewrite Nat.div_small by lia. lia.
  - destruct (nth_error (tdata (tensor_of sh F)) p); symmetry; apply nth_error_None; rewrite of_length; exact Hp.
Qed.
Lemma line_entries (F : list nat -> A) k n idx : k < length idx -> line (fun idx => (F idx, nth k idx 0)) true k n idx = entries (line F true k n idx).
Proof.
  intros Hk. apply nth_error_ext'. intros j. unfold entries. rewrite nth_error_combine, line_length, nth_error_seq0. rewrite !line_nth_error.
  destruct (j <? n); [|reflexivity]. rewrite with_coord_nth by exact Hk. reflexivity.
Qed.

Lemma sortCuda_ok (P : A -> Prop) sh (F : list nat -> A) dim k desc : dim_is (length sh) dim k -> strict_weak P lt -> (forall idx, valid sh idx -> P (F idx)) ->
  let G idx := sortLine lt ssort desc (line F true k (nth k sh 0) idx) in
  sortCuda lt ssort (tensor_of sh F) dim desc
  = Ok (tensor_of sh (fun idx => fst (nth (nth k idx 0) (G idx) (F [], 0))), tensor_of sh (fun idx => snd (nth (nth k idx 0) (G idx) (F [], 0)))) /\
  sort lt ssort (tensor_of sh F) dim desc = sortCuda lt ssort (tensor_of sh F) dim desc.
Proof.
  intros [Hk Hd] HP HF G.
  assert (HG : forall idx j, G (with_coord true k idx j) = G idx) by (intros; unfold G; rewrite line_twice; auto).
  set (n := nth k sh 0) in *.
  assert (HL : forall idx m, valid (set_nth sh k m) idx -> length (G idx) = n).
  { intros idx m V. pose proof (sortLine_ok lt ssort Hs P desc (line F true k n idx) HP (line_all sh k F P idx m Hk HF V)) as [Q _].
    unfold G. rewrite (Permutation_length Q), entries_length. apply line_length. }
  assert (ES : sort lt ssort (tensor_of sh F) dim desc = Ok (tensor_of sh (fun idx => fst (nth (nth k idx 0) (G idx) (F [], 0))), tensor_of sh (fun idx => snd (nth (nth k idx 0) (G idx) (F [], 0))))).
  { unfold sort. simpl tshape. replace (axis (length sh) dim) with (Some k) by (symmetry; apply axis_some; split; auto). fold n.
    pose proof (lineKernel_ok (F [], 0) sh k n (fun o i => obind (readLine (tdata (tensor_of sh F)) n (innerSize sh k) o i) (fun l => Some (sortLine lt ssort desc l)))
      G Hk HG) as Q.
    replace (set_nth sh k n) with sh in Q by (symmetry; apply set_nth_same).
    rewrite Q; [apply unzip_of|].
    intros idx V. unfold n at 1. rewrite (readLine_ok sh k F idx 1) by auto. simpl. split; auto. eapply HL; eauto. }
  rewrite ES. enough (EC : sortCuda lt ssort (tensor_of sh F) dim desc = Ok (tensor_of sh (fun idx => fst (nth (nth k idx 0) (G idx) (F [], 0))), tensor_of sh (fun idx => snd (nth (nth k idx 0) (G idx) (F [], 0))))) by (rewrite EC; auto).
  clear ES. unfold sortCuda. simpl tshape. replace (axis (length sh) dim) with (Some k) by (symmetry; apply axis_some; split; auto). cbv zeta. fold n.
  unfold n. rewrite (start_buffer sh F k Hk). fold n.
  set (T := tensor_of sh (fun idx => (F idx, nth k idx 0))). set (outer := outerSize sh k). set (inner := innerSize sh k).
  pose proof (split_numel sh k Hk) as EN. fold n outer inner in EN.
  (* the index at the start of line (o, i) *)
  assert (HX : forall o i, o < outer -> i < inner -> exists idx, valid (set_nth sh k 1) idx /\ outOf sh k idx = o /\ inOf sh k idx = i).
  { intros o i Ho Hi. exists (offsetToIndices (firstn k sh) o ++ 0 :: offsetToIndices (skipn (S k) sh) i).
    assert (V1 : valid (firstn k sh) (offsetToIndices (firstn k sh) o)) by (apply o2i_valid; exact Ho).
    assert (V2 : valid (skipn (S k) sh) (offsetToIndices (skipn (S k) sh) i)) by (apply o2i_valid; exact Hi).
    pose proof (valid_length _ _ V1) as L1. rewrite firstn_length in L1. assert (L1' : length (offsetToIndices (firstn k sh) o) = k) by lia. split; [|split].
    - rewrite set_nth_split by exact Hk. apply valid_app; [rewrite L1', firstn_length; lia|]. split; [exact V1|]. constructor; [lia|exact V2].
    - unfold outOf. rewrite firstn_app, L1', Nat.sub_diag, (firstn_all2 (offsetToIndices (firstn k sh) o)) by lia. cbn [firstn]. rewrite app_nil_r. apply ravel_o2i. exact Ho.
    - unfold inOf. set (a := offsetToIndices (firstn k sh) o) in *. set (b := offsetToIndices (skipn (S k) sh) i) in *.
      replace (skipn (S k) (a ++ 0 :: b)) with b; [apply ravel_o2i; exact Hi|]. rewrite <- L1'. replace (S (length a)) with (length (a ++ [0])) by (rewrite app_length; cbn; lia).
      change (0 :: b) with ([0] ++ b). rewrite app_assoc, skipn_app, Nat.sub_diag, (skipn_all2 (a ++ [0])) by lia. reflexivity. }
  assert (HR : forall idx m, valid (set_nth sh k m) idx -> readLine (tdata T) n inner (outOf sh k idx) (inOf sh k idx) = Some (entries (line F true k n idx))).
  { intros idx m V. unfold T, n, inner, outOf, inOf. rewrite (readLine_ok sh k _ idx m Hk V). f_equal. apply line_entries.
    pose proof (valid_length _ _ V) as Lx. rewrite set_nth_length in Lx. lia. }
  set (Lf := fun o i => match readLine (tdata T) n inner o i with Some l => l | None => [] end).
  destruct (segments_sorted lt ssort outer n inner desc (tdata T) Lf) with (S := outer * inner) as (buf & E & LB & H).
  - unfold T. rewrite of_length. exact EN.
  - intros o i Ho Hi. destruct (HX o i Ho Hi) as (idx & V & <- & <-). unfold Lf. rewrite (HR idx 1 V). reflexivity.
  - intros o i Ho Hi. destruct (HX o i Ho Hi) as (idx & V & <- & <-). unfold Lf. rewrite (HR idx 1 V). apply (HL idx 1 V).
  - lia.
  - rewrite E. assert (EB : buf = tdata (tensor_of sh (fun idx => nth (nth k idx 0) (G idx) (F [], 0)))).
    { apply nth_error_ext'. intros p. destruct (Nat.lt_ge_cases p (numel sh)) as [Hp|Hp].
      - change (nth_error (tdata (tensor_of sh (fun idx => nth (nth k idx 0) (G idx) (F [], 0)))) p) with (rd (tdata (tensor_of sh (fun idx => nth (nth k idx 0) (G idx) (F [], 0)))) p).
        rewrite rd_of by exact Hp. pose proof (o2i_valid sh p Hp) as V. set (idx := offsetToIndices sh p) in *.
        assert (Ep : p = lineOffset n inner (outOf sh k idx) (inOf sh k idx) (nth k idx 0)) by (unfold n, inner; rewrite <- line_self by assumption; symmetry; apply ravel_o2i; exact Hp).
        destruct (split_valid sh k idx Hk V) as (V1 & Hc & V2). pose proof (ravel_lt _ _ V1) as Ho. pose proof (ravel_lt _ _ V2) as Hi.
        fold (outOf sh k idx) in Ho. fold (outerSize sh k) in Ho. fold outer in Ho. fold (inOf sh k idx) in Hi. fold (innerSize sh k) in Hi. fold inner in Hi. fold n in Hc.
        rewrite Ep. rewrite H by assumption.
        destruct (Nat.ltb_spec (outOf sh k idx * inner + inOf sh k idx) (outer * inner)) as [_|X].
        2:{ exfalso. assert (S (outOf sh k idx) * inner <= outer * inner) by (apply Nat.mul_le_mono_r; lia). lia. }
        assert (V' : valid (set_nth sh k n) idx) by (unfold n; rewrite set_nth_same; exact V).
        unfold Lf. rewrite (HR idx n V'). fold (sortLine lt ssort desc (line F true k n idx)). fold (G idx). apply nth_error_nth'. rewrite (HL idx n V'). exact Hc.
      - transitivity (@None entry); [apply nth_error_None; rewrite LB; unfold T; rewrite of_length; exact Hp|]. symmetry. apply nth_error_None. rewrite of_length. exact Hp. }
    rewrite EB. unfold tensor_of. cbn [tdata]. rewrite !map_map. reflexivity.
Qed.
Lemma sortCuda_bad sh (F : list nat -> A) dim desc : (forall k, ~ dim_is (length sh) dim k) -> sortCuda lt ssort (tensor_of sh F) dim desc = Fail.
Proof. intro H. unfold sortCuda. simpl tshape. destruct (axis (length sh) dim) as [k|] eqn:E; auto. apply axis_some in E. destruct (H k). exact E. Qed.

(* topk *)
Lemma topkCuda_eq sh (F : list nat -> A) k dim largest srt :
  topkCuda lt ssort (tensor_of sh F) k dim largest srt = topk lt ssort (fun cmp _ l => ssort cmp l) (tensor_of sh F) k dim largest false.
Proof.
  unfold topkCuda, topk. destruct (axis _ dim) as [d|]; [|reflexivity]. cbv zeta. destruct (_ && _); [|reflexivity]. f_equal. unfold lineKernel, lineLoop. f_equal.
  apply loop_ext. intros out o _. apply loop_ext. intros out' i _. unfold readLine, topkLine, entries.
  destruct (tab (nth d (tshape (tensor_of sh F)) 0) _) as [l|] eqn:E; [|reflexivity]. cbn [obind].
  assert (Ll : length l = nth d (tshape (tensor_of sh F)) 0).
  { unfold tab in E. apply seqopt_length in E. rewrite map_length, seq_length in E. exact E. }
  rewrite Ll. reflexivity.
Qed.

End Sort.
(* stability *)
Lemma sorted_filter {T} (R : T -> T -> Prop) f l : StronglySorted R l -> StronglySorted R (filter f l).
Proof.
  induction 1 as [|x l S IH F]; [constructor|]. cbn. destruct (f x); [|exact IH]. constructor; [exact IH|]. apply Forall_forall. intros y Hy. apply filter_In in Hy as [Hy _].
  rewrite Forall_forall in F. apply F, Hy.
Qed.
Lemma entries_sorted {A} (l : list A) : StronglySorted (fun a b => snd a < snd b) (entries l).
Proof.
  unfold entries. generalize 0. induction l as [|x l IH]; intros s; [constructor|]. cbn. constructor; [apply IH|]. apply Forall_forall. intros [y j] Hy.
  apply in_combine_r in Hy. apply in_seq in Hy. cbn. lia.
Qed.
Lemma filter_order {T} (R : T -> T -> Prop) f (l : list T) : StronglySorted R (filter f l) -> forall i j x y, i < j -> nth_error l i = Some x -> nth_error l j = Some y -> f x = true -> f y = true -> R x y.
Proof.
  induction l as [|z l IH]; intros S i j x y Hij Ex Ey Fx Fy; [destruct i; discriminate|]. destruct i as [|i], j as [|j]; try lia; cbn in Ex, Ey.
  - injection Ex as ->. cbn in S. rewrite Fx in S. inversion S as [|? ? S' F']; subst. rewrite Forall_forall in F'. apply F'. apply filter_In. split; [eapply nth_error_In; eauto|exact Fy].
  - apply (IH) with (i := i) (j := j); auto; [|lia]. cbn in S. destruct (f z); [inversion S; assumption|exact S].
Qed.
Lemma stable_line {A} (lt : A -> A -> bool) ssort (P : A -> Prop) desc (l : list A) : stable_contract ssort -> strict_weak P lt -> (forall x, In x l -> P x) ->
  forall i j x y, i < j -> nth_error (sortLine lt ssort desc l) i = Some x -> nth_error (sortLine lt ssort desc l) j = Some y ->
  lt (fst x) (fst y) = false -> lt (fst y) (fst x) = false -> snd x < snd y.
Proof.
  intros [Hs Hst] HP Hl i j x y Hij Ex Ey N1 N2. pose proof (entries_weak lt P desc l HP Hl) as W. destruct (Hs _ _ W) as [Perm _].
  assert (Ix : In x (entries l)) by (apply (Permutation_in _ Perm); apply nth_error_In with i; exact Ex).
  assert (Iy : In y (entries l)) by (apply (Permutation_in _ Perm); apply nth_error_In with j; exact Ey).
  assert (Px : P (fst x)) by (apply Hl; destruct x; apply entries_in in Ix; eapply nth_error_In; eauto).
  apply (filter_order (fun a b => snd a < snd b) (equivalent (cmpOf lt desc) x) (sortLine lt ssort desc l)) with (i := i) (j := j); auto.
  - unfold sortLine. rewrite Hst by assumption. apply sorted_filter. apply entries_sorted.
  - unfold equivalent. rewrite (proj1 W) by exact Ix. reflexivity.
  - unfold equivalent, cmpOf. destruct desc; rewrite N1, N2; reflexivity.
Qed.
Lemma insert_filter {A} (cmp : A -> A -> bool) (P : A -> Prop) z x l : strict_weak P cmp -> P z -> P x -> (forall y, In y l -> P y) ->
  filter (equivalent cmp z) (insert_sorted cmp x l) = filter (equivalent cmp z) (x :: l).
Proof.
  intros (H1 & H2 & H3) Pz Px. induction l as [|y l IH]; intros Pl; [reflexivity|]. cbn [insert_sorted]. destruct (cmp y x) eqn:E; [|reflexivity].
  assert (Py : P y) by (apply Pl; left; reflexivity). specialize (IH (fun q Hq => Pl q (or_intror Hq))). cbn [filter] in *. rewrite IH.
  destruct (equivalent cmp z y) eqn:Ey; [|reflexivity]. destruct (equivalent cmp z x) eqn:Ex; [|reflexivity]. exfalso.
  unfold equivalent in *. apply andb_true_iff in Ey as [A1 A2]. apply andb_true_iff in Ex as [B1 B2]. apply negb_true_iff in A1, A2, B1, B2.
  rewrite (H3 y z x) in E; auto. discriminate.
Qed.
Lemma isort_stable {A} : stable_contract (@insertion_sort A).
Proof.
  split; [apply isort_contract|]. intros cmp l x W Hx. assert (G : forall m, incl m l -> filter (equivalent cmp x) (insertion_sort cmp m) = filter (equivalent cmp x) m).
  { unfold insertion_sort. induction m as [|y m IH]; intros Hm; [reflexivity|]. cbn [fold_right]. rewrite (insert_filter cmp (fun x => In x l)); auto.
    - cbn [filter]. rewrite IH by (intros q Hq; apply Hm; right; exact Hq). reflexivity.
    - apply Hm. left. reflexivity.
    - intros q Hq. apply Hm. right. apply (Permutation_in _ (isort_perm cmp m)). exact Hq. }
  apply G, incl_refl.
Qed.
Lemma full_sort_partial {A} (ssort : (A -> A -> bool) -> list A -> list A) : sort_contract ssort -> partial_sort_contract (fun cmp _ l => ssort cmp l).
Proof. intros H cmp k l Hk W. destruct (H cmp l W) as [P O]. split; [exact P|]. intros i j x y Hij Hi Ex Ey. apply (O i j x y Hij); [lia|exact Ex|exact Ey]. Qed.
