(** C62: indexing with tensors of indices reads and writes exactly the named
    positions. *)
From Coq Require Import ZArith List Bool Arith Lia.
From Verif Require Import ShapeModel ShapeSpec ShapeProofs TensorModel TensorSpec TensorLemmas BcastModel BcastSpec BufModel BufProofs CutModel CutSpec IndexModel IndexSpec IndexProofs IndexProofs2 AdvModel AdvSpec AdvProofs.
Import ListNotations.

(** ** Reading: element j ++ r of the result is element P(j) ++ r of the tensor. *)
Theorem index_tensors_read_partial {A} : forall sh ish Is P (F : list nat -> A), names_positions sh ish Is P ->
  indexAdvance (tensor_of sh F) (map (tensor_of ish) Is)
  = Ok (tensor_of (ish ++ skipn (length Is) sh) (fun idx => F (P (firstn (length ish) idx) ++ skipn (length ish) idx))).
Proof. exact indexAdvance_ok. Qed.
(** ** Embedding: the rows of the weight matrix selected by the input. *)
Theorem embedding_rows_partial {A} : forall n d ish J (W : list nat -> A), (forall j, valid ish j -> J j < n) ->
  embedding (tensor_of ish (fun j => Z.of_nat (J j))) (tensor_of [n; d] W)
  = Ok (tensor_of (ish ++ [d]) (fun idx => W [J (firstn (length ish) idx); nth (length ish) idx 0])).
Proof.
  intros n d ish J W HJ. unfold embedding.
  change [tensor_of ish (fun j => Z.of_nat (J j))] with (map (tensor_of ish) [fun j => Z.of_nat (J j)]).
  rewrite (indexAdvance_ok [n; d] ish [fun j => Z.of_nat (J j)] (fun j => [J j])).
  - unfold adv_shape. cbn [length skipn]. f_equal. apply tensor_of_ext. intros idx V. unfold adv_source. cbn [app]. f_equal. f_equal.
    pose proof (valid_length _ _ V) as L. rewrite app_length in L. cbn [length] in L.
    rewrite <- (firstn_skipn (length ish) idx) at 2. rewrite app_nth2 by (rewrite firstn_length; lia). rewrite firstn_length, Nat.min_l, Nat.sub_diag by lia.
    assert (L' : length (skipn (length ish) idx) = 1) by (rewrite skipn_length; lia). destruct (skipn (length ish) idx) as [|x [|]]; try discriminate L'. auto.
  - split; [discriminate|]. split; [cbn; lia|]. intros j V. cbn [map]. specialize (HJ j V).
    split; [auto|]. split; [cbn; lia|]. cbn [length]. intros i Hi. replace i with 0 by lia. cbn [nth]. split; auto.
Qed.
(** ** Writing one value to all the positions, or one value each: the last write to
    a position counts, all other elements keep their value. *)
Theorem index_tensors_put_value_partial {A} : forall sh ish Is P (F : list nat -> A) v, names_positions sh ish Is P ->
  indexPutAdvance (tensor_of sh F) (map (tensor_of ish) Is) (tensor_of [] (fun _ => v))
  = Ok (tensor_of sh (after_writes (indices (ish ++ skipn (length Is) sh)) (adv_source ish P) (fun _ => v) F)).
Proof. intros sh ish Is P F v H. apply indexPut_shape; auto. Qed.
(** A non-scalar value may have any shape with the right number of elements. *)
Theorem index_tensors_put_partial {A} : forall sh ish Is P (F V : list nat -> A) vsh, names_positions sh ish Is P -> vsh <> [] ->
  numel vsh = numel (ish ++ skipn (length Is) sh) ->
  indexPutAdvance (tensor_of sh F) (map (tensor_of ish) Is) (mkT vsh (tdata (tensor_of (ish ++ skipn (length Is) sh) V)))
  = Ok (tensor_of sh (after_writes (indices (ish ++ skipn (length Is) sh)) (adv_source ish P) V F)).
Proof. intros sh ish Is P F V vsh H Hv Hn. apply indexPut_shape; auto. right. split; [destruct vsh; [congruence|reflexivity]|]. split; auto. Qed.
(** What that means for one element. *)
Theorem index_tensors_put_untouched {A} : forall sh ish n P (F V : list nat -> A) idx,
  (forall e, valid (ish ++ skipn n sh) e -> adv_source ish P e <> idx) ->
  after_writes (indices (ish ++ skipn n sh)) (adv_source ish P) V F idx = F idx.
Proof.
  intros sh ish n P F V idx H. unfold after_writes. rewrite (proj2 (find_none_iff _ _)); auto.
  intros e He. apply in_rev, indices_in in He. destruct (same_idx _ _) eqn:E; auto. apply same_idx_true in E. destruct (H e He E).
Qed.
Theorem index_tensors_put_written {A} : forall sh ish n P (F V : list nat -> A) e, valid (ish ++ skipn n sh) e ->
  (forall e', valid (ish ++ skipn n sh) e' -> adv_source ish P e' = adv_source ish P e -> V e' = V e) ->
  after_writes (indices (ish ++ skipn n sh)) (adv_source ish P) V F (adv_source ish P e) = V e.
Proof.
  intros sh ish n P F V e He H. unfold after_writes. destruct (find _ _) as [e'|] eqn:E.
  - apply find_some in E. destruct E as [E1 E2]. apply in_rev, indices_in in E1. apply same_idx_true in E2. auto.
  - assert (Q : In e (rev (indices (ish ++ skipn n sh)))) by (apply in_rev; rewrite rev_involutive; apply indices_in; auto).
    apply (proj1 (find_none_iff _ _) E) in Q. cbv beta in Q. rewrite (proj2 (same_idx_true _ _)) in Q by auto. discriminate Q.
Qed.
(** So reading back what was written gives the written values, when no position is
    named twice. *)
Theorem index_tensors_put_get_partial {A} : forall sh ish Is P (F V : list nat -> A) vsh, names_positions sh ish Is P -> vsh <> [] ->
  numel vsh = numel (ish ++ skipn (length Is) sh) -> (forall j j', valid ish j -> valid ish j' -> P j = P j' -> j = j') ->
  exists t, indexPutAdvance (tensor_of sh F) (map (tensor_of ish) Is) (mkT vsh (tdata (tensor_of (ish ++ skipn (length Is) sh) V))) = Ok t /\
    indexAdvance t (map (tensor_of ish) Is) = Ok (tensor_of (ish ++ skipn (length Is) sh) V).
Proof.
  intros sh ish Is P F V vsh H Hv Hn Hinj. eexists. split; [apply index_tensors_put_partial; eauto|].
  rewrite (indexAdvance_ok _ _ _ P) by auto. f_equal. apply tensor_of_ext. intros idx Vi. apply index_tensors_put_written; auto.
  assert (D : forall e, valid (ish ++ skipn (length Is) sh) e -> exists j r, e = j ++ r /\ valid ish j).
  { intros e He. pose proof (valid_length _ _ He) as L. rewrite app_length in L. rewrite <- (firstn_skipn (length ish) e) in He.
    apply valid_app in He; [|rewrite firstn_length; lia]. destruct He as [H1 H2]. exists (firstn (length ish) e), (skipn (length ish) e). split; auto. symmetry. apply firstn_skipn. }
  intros e' Ve' E. destruct (D idx Vi) as (j & r & -> & Vj). destruct (D e' Ve') as (j' & r' & -> & Vj').
  rewrite !(source_split ish P) in E by (apply (valid_length _ _); auto).
  destruct H as (_ & _ & HN). pose proof (HN j Vj) as (L1 & _). pose proof (HN j' Vj') as (L2 & _). rewrite map_length in L1, L2.
  assert (AL : forall a b c d : list nat, length a = length c -> a ++ b = c ++ d -> a = c).
  { induction a as [|x a IHa]; intros b [|y c] d La Ea; try discriminate La; auto. injection Ea as <- Ea. f_equal. apply (IHa b c d); auto. }
  assert (E1 : P j' = P j) by (apply (AL _ r' _ r); [congruence|auto]).
  rewrite E1 in E. apply app_inv_head in E. subst r'. rewrite (Hinj j' j Vj' Vj E1). auto.
Qed.
(** ** A value with a wrong number of elements is rejected, and so it must be. *)
Theorem index_tensors_put_rejects {A} : forall sh ish Is (F : list nat -> A) (val : tensor A), Is <> [] -> length Is <= length sh ->
  tshape val <> [] -> tnumel val <> numel (ish ++ skipn (length Is) sh) ->
  indexPutAdvance (tensor_of sh F) (map (tensor_of ish) Is) val = Fail.
Proof.
  intros sh ish [|I0 Is'] F v Hne Hle Hs Hn; [congruence|]. unfold indexPutAdvance. cbn [map]. change (tshape (tensor_of sh F)) with sh. change (tnumel (tensor_of ish I0)) with (numel ish).
  change (length (tensor_of ish I0 :: map (tensor_of ish) Is')) with (S (length (map (tensor_of ish) Is'))). rewrite map_length. change (S (length Is')) with (length (I0 :: Is')).
  replace (length sh <? length (I0 :: Is')) with false by (symmetry; apply Nat.ltb_ge; lia). cbv zeta. rewrite stride_last by (simpl in *; lia).
  replace (isScalar v) with false by (unfold isScalar; destruct (tshape v); [congruence|reflexivity]).
  rewrite numel_app in Hn. destruct (Nat.eqb_spec (tnumel v) (numel (skipn (length (I0 :: Is')) sh) * numel ish)); auto. lia.
Qed.

(** ** Where the full property fails: invalid indices are not rejected. *)
(** An index past the end of a row reads the next row; further out it reads outside
    the tensor; writing does the same. *)
Theorem index_tensors_range_refuted :
  let t := tensor_of [2; 2] (fun idx => nth 0 idx 0 * 10 + nth 1 idx 0) in
  indexAdvance t [mkT [1] [0%Z]; mkT [1] [2%Z]] = Ok (mkT [1] [10])
  /\ indexAdvance t [mkT [1] [1%Z]; mkT [1] [2%Z]] = UB
  /\ indexAdvance t [mkT [1] [(-3)%Z]] = UB
  /\ indexPutAdvance t [mkT [1] [0%Z]; mkT [1] [3%Z]] (mkT [] [7]) = Ok (mkT [2; 2] [0; 1; 10; 7])
  /\ indexPutAdvance t [mkT [1] [2%Z]] (mkT [] [7]) = UB.
Proof. repeat split; reflexivity. Qed.
(** Every index tensor is read as far as the first one goes, also past its end. *)
Theorem index_tensors_sizes_refuted : let t := tensor_of [2; 2] (fun idx => nth 0 idx 0 * 10 + nth 1 idx 0) in
  indexAdvance t [mkT [2] [0%Z; 1%Z]; mkT [1] [0%Z]] = UB /\ indexAdvance t [mkT [1] [1%Z]; mkT [2] [0%Z; 5%Z]] = Ok (mkT [1] [10]).
Proof. repeat split; reflexivity. Qed.
(** No index, or more than dimensions. *)
Theorem index_tensors_count_refuted : forall (t : tensor nat) inds v, inds = [] \/ length (tshape t) < length inds ->
  indexAdvance t inds = UB /\ indexPutAdvance t inds v = UB.
Proof.
  intros t [|i0 r] v H; [split; reflexivity|]. destruct H as [H|H]; [discriminate|]. unfold indexAdvance, indexPutAdvance.
  apply Nat.ltb_lt in H. rewrite H. auto.
Qed.

(** Rows 2 and -3 (= 0) of a 3x2 matrix. *)
Example index_tensors_case : names_positions [3; 2] [2] [fun j => nth (nth 0 j 0) [2; -3]%Z 0%Z] (fun j => [nth (nth 0 j 0) [2; 0] 0]) /\
  indexAdvance (tensor_of [3; 2] (fun idx => nth 0 idx 0 * 10 + nth 1 idx 0)) [mkT [2] [2; -3]%Z] = Ok (mkT [2; 2] [20; 21; 0; 1]).
Proof.
  split; [|reflexivity]. split; [discriminate|]. split; [cbn; lia|]. intros j V. inversion V as [|i d j' sh' Hi V']; subst. inversion V'; subst.
  split; [reflexivity|]. split; [cbn; lia|]. cbn [map length]. intros k Hk. replace k with 0 by lia. destruct i as [|[|i]]; [| |lia]; cbn; split; lia.
Qed.
Example index_tensors_put_case :
  indexPutAdvance (tensor_of [3; 2] (fun _ => 0)) [mkT [2] [2; -3]%Z] (mkT [4] [1; 2; 3; 4]) = Ok (mkT [3; 2] [3; 4; 0; 0; 1; 2])
  /\ indexPutAdvance (tensor_of [3; 2] (fun _ => 0)) [mkT [2] [2; 2]%Z; mkT [2] [1; -1]%Z] (mkT [2] [5; 6]) = Ok (mkT [3; 2] [0; 0; 0; 0; 0; 6]).
Proof. split; reflexivity. Qed.

Print Assumptions index_tensors_read_partial.
Print Assumptions embedding_rows_partial.
Print Assumptions index_tensors_put_value_partial.
Print Assumptions index_tensors_put_partial.
Print Assumptions index_tensors_put_untouched.
Print Assumptions index_tensors_put_written.
Print Assumptions index_tensors_put_get_partial.
Print Assumptions index_tensors_put_rejects.
Print Assumptions index_tensors_range_refuted.
Print Assumptions index_tensors_sizes_refuted.
Print Assumptions index_tensors_count_refuted.
