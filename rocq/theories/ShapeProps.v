(** C04, C05, C13: reshaping, row-major indexing, views over storage. *)
From Coq Require Import ZArith List Bool Arith Lia.
From Verif Require Import ShapeModel ShapeSpec ShapeProofs.
Import ListNotations.

(** C05.  For every shape, multi-indices in range and offsets below the element
    count correspond one to one, in row-major order. *)
Theorem rowmajor_index_bijection : forall sh,
  (forall idx, valid sh idx ->
     indicesToOffset (strides sh) idx < numel sh
     /\ offsetToIndices sh (indicesToOffset (strides sh) idx) = idx
     /\ nth_error (indices sh) (indicesToOffset (strides sh) idx) = Some idx)
  /\ (forall off, off < numel sh ->
     valid sh (offsetToIndices sh off)
     /\ indicesToOffset (strides sh) (offsetToIndices sh off) = off)
  /\ length (indices sh) = numel sh.
Proof. exact rowmajor_bijection. Qed.
Theorem rowmajor_indices_exactly_valid : forall sh,
  NoDup (indices sh) /\ forall idx, In idx (indices sh) <-> valid sh idx.
Proof. intro sh. split; [apply indices_nodup|apply indices_in]. Qed.
Example rowmajor_ex : valid [2;3;4] [1;2;3] /\ indicesToOffset (strides [2;3;4]) [1;2;3] = 23
  /\ offsetToIndices [2;3;4] 17 = [1;1;1].
Proof. repeat split; repeat constructor. Qed.

Local Open Scope Z_scope.

(** C04.  Requests with entries >= -1: when exactly one shape of the right
    element count matches the request, the tensor gets it; otherwise nothing
    changes. *)
Theorem reshape_correct_partial : forall A (t : view A) req, wf t -> Forall (fun d => -1 <= d) req ->
  (forall sh, unique (resolves req (vnumel t)) sh -> reshape_ t req = newView sh (vdata t))
  /\ ((~ exists sh, unique (resolves req (vnumel t)) sh) -> reshape_ t req = t).
Proof.
  intros A t req (W1 & W2 & W3 & W4) Hr. destruct (reshape_cases t req) as [H1 H2]; auto.
  - rewrite W2. apply prod_nonneg; auto.
  - split; auto. intros sh Hs. rewrite (H1 sh Hs). unfold newView. rewrite numelZ_prod.
    destruct Hs as ((_ & <- & _) & _). reflexivity.
Qed.
Example reshape_ex : wf (newView [2;3;4] (repeat 0 24)) /\
  vshape (reshape_ (newView [2;3;4] (repeat 0 24)) [4;-1]) = [4;6] /\
  vshape (reshape_ (newView [2;3;4] (repeat 0 24)) [5;-1]) = [2;3;4].
Proof. split; [|split; reflexivity]. repeat split. repeat constructor; discriminate. Qed.

(** C04, every request: data, element count and row-major strides survive. *)
Theorem reshape_preserves : forall A (t : view A) req, wf t ->
  vdata (reshape_ t req) = vdata t /\ vnumel (reshape_ t req) = vnumel t
  /\ prod (vshape (reshape_ t req)) = vnumel t
  /\ vstrides (reshape_ t req) = stridesZ (vshape (reshape_ t req)).
Proof. intros A t req (W1 & W2 & W3 & W4). apply reshape_any; auto. Qed.

(** ... but a request with negative entries other than -1 can be accepted. *)
Theorem reshape_negative_refuted : exists (t : view Z) req1 req2, wf t
  /\ vshape (reshape_ t req1) = [-2;-2] /\ vshape (reshape_ t req2) = [-1;-4].
Proof.
  exists (newView [2;2] [1;2;3;4]), [-2;-2], [-1;-4]. split; [|split; reflexivity].
  repeat split. repeat constructor; discriminate.
Qed.

Theorem flatten_merges_partial : forall A (t : view A) (a b c : list Z),
  wf t -> vshape t = a ++ b ++ c -> b <> [] ->
  flatten_ t (Z.of_nat (length a)) (Z.of_nat (length a + length b) - 1)
    = Some (newView (a ++ [prod b] ++ c) (vdata t)).
Proof. exact @flatten_correct. Qed.
(** A negative last dimension means "to the end" ... *)
Theorem flatten_to_end_partial : forall A (t : view A) (a b : list Z) e,
  wf t -> vshape t = a ++ b -> e < 0 ->
  flatten_ t (Z.of_nat (length a)) e = Some (newView (a ++ [prod b]) (vdata t)).
Proof. exact @flatten_to_end. Qed.
(** ... whichever negative number it is: -2 does not mean "to the last but one". *)
Theorem flatten_negative_end_refuted : exists (t : view Z), wf t
  /\ option_map vshape (flatten_ t 0 (-2)) = Some [24]
  /\ option_map vshape (flatten_ t 0 1) = Some [6;4].
Proof.
  exists (newView [2;3;4] (repeat 0 24)).
  split; [repeat split; repeat constructor; discriminate|split; reflexivity].
Qed.
Theorem flatten_out_of_range_refuted : exists (t : view Z), wf t /\ flatten_ t 0 2 = None.
Proof. exists (newView [2;2] [1;2;3;4]). split; [repeat split; repeat constructor; discriminate|reflexivity]. Qed.

Theorem unflatten_splits_partial : forall A (t : view A) (a : list Z) x c d req,
  wf t -> vshape t = a ++ x :: c -> (d = Z.of_nat (length a) \/ d = - Z.of_nat (length c) - 1) ->
  Forall (fun r => -1 <= r) req -> (count_occ Z.eq_dec req (-1)%Z <= 1)%nat ->
  (forall sh, unique (resolves req x) sh -> unflatten_ t d req = Some (newView (a ++ sh ++ c) (vdata t)))
  /\ ((~ exists sh, unique (resolves req x) sh) -> unflatten_ t d req = Some t).
Proof. exact @unflatten_correct. Qed.
(** Two -1 entries: accepted on a zero-size tensor, with sizes the request
    does not determine. *)
Theorem unflatten_two_inferred_refuted : exists (t : view Z), wf t
  /\ option_map vshape (unflatten_ t 1 [-1;-1;2]) = Some [0;0;3;2].
Proof. exists (newView [0;6] []). split; [repeat split; repeat constructor; discriminate|reflexivity]. Qed.

Theorem unsqueeze_inserts : forall A (t : view A) (a c : list Z) d, wf t -> vshape t = a ++ c ->
  (d = Z.of_nat (length a) \/ d = - Z.of_nat (length c) - 1) ->
  unsqueeze_ t d = Some (newView (a ++ [1] ++ c) (vdata t)).
Proof. exact @unsqueeze_correct. Qed.
Theorem unsqueeze_rejects : forall A (t : view A) d,
  (dimZ t < d \/ d < - dimZ t - 1) -> unsqueeze_ t d = Some t.
Proof. exact @unsqueeze_bad. Qed.

Theorem squeeze_dim_removes : forall A (t : view A) (a : list Z) x c d, wf t -> vshape t = a ++ x :: c ->
  (d = Z.of_nat (length a) \/ d = - Z.of_nat (length c) - 1) ->
  squeeze1_ t d = Some (if x =? 1 then newView (a ++ c) (vdata t) else t).
Proof. exact @squeeze1_correct. Qed.
Theorem squeeze_dim_rejects : forall A (t : view A) d,
  (dimZ t <= d \/ d < - dimZ t) -> squeeze1_ t d = Some t.
Proof. exact @squeeze1_bad. Qed.
Theorem squeeze_removes : forall A (t : view A) dims, wf t ->
  squeeze_ t dims = newView (keep (dimZ t) dims 0 (vshape t)) (vdata t).
Proof. exact @squeeze_correct. Qed.
Example reshape_family_ex : let t := newView [2;1;6] (repeat 0 12) in wf t /\
  flatten_ t 0 1 = Some (newView [2;6] (repeat 0 12)) /\
  unflatten_ t (-1) [3;-1] = Some (newView [2;1;3;2] (repeat 0 12)) /\
  unsqueeze_ t (-1) = Some (newView [2;1;6;1] (repeat 0 12)) /\
  squeeze1_ t 1 = Some (newView [2;6] (repeat 0 12)) /\
  squeeze_ t [] = newView [2;6] (repeat 0 12).
Proof. repeat split. repeat constructor; discriminate. Qed.

(** C13.  The bounds check accepts exactly the views that lie inside the
    storage, for views at offset 0 and for one-byte elements. *)
Theorem view_bounds_partial : forall shape esz offset size,
  Forall (fun d => 0 <= d) shape -> 0 < esz ->
  (offset = 0 \/ (esz = 1 /\ 0 <= offset)) ->
  (view_check shape esz offset size = true <->
   0 <= fst (view_bytes shape esz offset)
   /\ fst (view_bytes shape esz offset) + snd (view_bytes shape esz offset) <= size).
Proof. exact view_inside. Qed.
Example view_bounds_ex : view_check [2;3] 4 0 24 = true /\ view_check [2;3] 4 0 23 = false
  /\ view_check [5] 1 3 8 = true.
Proof. repeat split. Qed.
(** What is missing: with wider elements a non-zero offset is counted in bytes
    by the check and in elements by the access, so a view beyond the storage is
    accepted; negative offsets are accepted too. *)
Theorem view_bounds_refuted : exists shape esz offset size, Forall (fun d => 0 <= d) shape /\ 0 < esz
  /\ 0 <= offset /\ view_check shape esz offset size = true
  /\ size < fst (view_bytes shape esz offset) + snd (view_bytes shape esz offset).
Proof. exists [2], 4, 2, 12. repeat split; try discriminate. repeat constructor; discriminate. Qed.
Theorem view_negative_offset_refuted : exists shape esz offset size, Forall (fun d => 0 <= d) shape /\ 0 < esz
  /\ view_check shape esz offset size = true /\ fst (view_bytes shape esz offset) < 0.
Proof. exists [1], 4, (-1), 4. repeat split; try discriminate. repeat constructor; discriminate. Qed.

Print Assumptions rowmajor_index_bijection.
Print Assumptions rowmajor_indices_exactly_valid.
Print Assumptions reshape_correct_partial.
Print Assumptions reshape_preserves.
Print Assumptions reshape_negative_refuted.
Print Assumptions flatten_merges_partial.
Print Assumptions flatten_to_end_partial.
Print Assumptions flatten_negative_end_refuted.
Print Assumptions flatten_out_of_range_refuted.
Print Assumptions unflatten_splits_partial.
Print Assumptions unflatten_two_inferred_refuted.
Print Assumptions unsqueeze_inserts.
Print Assumptions unsqueeze_rejects.
Print Assumptions squeeze_dim_removes.
Print Assumptions squeeze_dim_rejects.
Print Assumptions squeeze_removes.
Print Assumptions view_bounds_partial.
Print Assumptions view_bounds_refuted.
Print Assumptions view_negative_offset_refuted.
