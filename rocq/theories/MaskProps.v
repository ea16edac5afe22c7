(** C66: filling and masked filling. *)
From Coq Require Import ZArith List Bool Arith Lia.
From Verif Require Import ShapeModel ShapeSpec ShapeProofs TensorModel TensorSpec TensorLemmas BcastModel BufModel MaskModel MaskProofs.
Import ListNotations.

Theorem fill_sets_every_element : forall A sh (F : list nat -> A) v, fill (tensor_of sh F) v = Ok (tensor_of sh (fun _ => v)).
Proof. intros. apply fill_ok. Qed.
(** Masked filling: where the mask is set the value, elsewhere the element; the
    out-of-place, in-place and into-another-tensor forms agree. *)
Theorem masked_fill_value : forall A sh (F : list nat -> A) M v,
  fillMasked (tensor_of sh F) (tensor_of sh M) v = Ok (tensor_of sh (fun idx => if M idx then v else F idx)).
Proof. intros. apply masked_new. Qed.
Theorem masked_fill_forms_agree_partial : forall A sh (F O : list nat -> A) M v,
  fillMaskedInplace (tensor_of sh F) (tensor_of sh M) v = fillMasked (tensor_of sh F) (tensor_of sh M) v
  /\ fillMaskedOut (tensor_of sh O) (tensor_of sh F) (tensor_of sh M) v = fillMasked (tensor_of sh F) (tensor_of sh M) v.
Proof.
  intros. rewrite masked_inplace, masked_new. split; auto. rewrite masked_out_gen by (cbn [tdata tensor_of]; rewrite map_length, indices_length; auto).
  rewrite skipn_all2 by (cbn [tdata tensor_of]; rewrite map_length, indices_length; auto). rewrite app_nil_r. reflexivity.
Qed.
Theorem masked_fill_rejects_shape : forall A (t out : tensor A) (m : tensor bool) v, tshape m <> tshape t ->
  fillMasked t m v = Fail /\ fillMaskedInplace t m v = Fail /\ fillMaskedOut out t m v = Fail.
Proof.
  intros A t out m v H. unfold fillMasked, fillMaskedInplace, fillMaskedOut, list_eqb.
  destruct (list_eq_dec Nat.eq_dec (tshape m) (tshape t)); [contradiction|].
  destruct (list_eq_dec Nat.eq_dec (tshape t) (tshape m)) as [E|]; [congruence|]. auto.
Qed.
(** Refuted: "an output of another shape is rejected".  A smaller one is written
    past its end, for every contents; a larger one is accepted and keeps its
    other elements. *)
Theorem masked_fill_out_smaller_refuted : forall A sh osh (F O : list nat -> A) M v, numel osh < numel sh ->
  fillMaskedOut (tensor_of osh O) (tensor_of sh F) (tensor_of sh M) v = UB.
Proof. intros. apply masked_out_short. cbn [tdata tensor_of]. rewrite map_length, indices_length. auto. Qed.
Theorem masked_fill_out_larger_refuted : forall A sh osh (F O : list nat -> A) M v, numel sh < numel osh ->
  exists r, fillMaskedOut (tensor_of osh O) (tensor_of sh F) (tensor_of sh M) v = Ok r /\ tshape r = osh
  /\ (forall idx, valid osh idx -> numel sh <= indicesToOffset (strides osh) idx ->
      nth_error (tdata r) (indicesToOffset (strides osh) idx) = Some (O idx)).
Proof.
  intros A sh osh F O M v H. eexists. split; [apply masked_out_gen; cbn [tdata tensor_of]; rewrite map_length, indices_length; lia|].
  split; [reflexivity|]. intros idx V Hi. change (indicesToOffset (strides osh) idx) with (ravel osh idx) in *. cbn [tdata].
  assert (L : length (map (fun idx => if M idx then v else F idx) (indices sh)) = numel sh) by (rewrite map_length, indices_length; auto).
  rewrite nth_error_app2 by lia. rewrite L.
  pose proof (rd_of_idx osh O idx V) as R. unfold rd in R. rewrite <- R.
  rewrite <- (firstn_skipn (numel sh) (tdata (tensor_of osh O))) at 2. rewrite nth_error_app2, firstn_length.
  - cbn [tdata tensor_of]. rewrite map_length, indices_length, Nat.min_l by lia. reflexivity.
  - rewrite firstn_length. cbn [tdata tensor_of]. rewrite map_length, indices_length. lia.
Qed.

(** Filling [count] elements from a position on changes exactly those, and is
    undefined as soon as one of them lies outside. *)
Theorem fill_offset_range : forall A sh (d : list A) v o c, (0 <= o)%Z -> (0 <= c)%Z -> (o + c <= Z.of_nat (length d))%Z ->
  exists r, fillOffset (mkT sh d) (mkT [] [v]) o c = Ok (mkT sh r) /\ length r = length d
  /\ forall i, i < length d -> nth_error r i = if ((o <=? Z.of_nat i) && (Z.of_nat i <? o + c))%Z then Some v else nth_error d i.
Proof.
  intros A sh d v o c Ho Hc H. rewrite <- (Z2Nat.id o), <- (Z2Nat.id c) by auto. rewrite fillOffset_in by lia. eexists. split; [reflexivity|].
  set (a := Z.to_nat o) in *. set (b := Z.to_nat c) in *. assert (Hab : a + b <= length d) by (unfold a, b; lia).
  split; [rewrite !app_length, firstn_length, repeat_length, skipn_length; lia|]. intros i Hi.
  destruct (Z.leb_spec (Z.of_nat a) (Z.of_nat i)); cbn [andb].
  - rewrite nth_error_app2, firstn_length, Nat.min_l by (rewrite ?firstn_length; lia).
    destruct (Z.ltb_spec (Z.of_nat i) (Z.of_nat a + Z.of_nat b)).
    + rewrite nth_error_app1 by (rewrite repeat_length; lia). apply nth_error_repeat. lia.
    + rewrite nth_error_app2 by (rewrite repeat_length; lia). rewrite repeat_length.
      rewrite <- (firstn_skipn (a + b) d) at 2. rewrite nth_error_app2; rewrite firstn_length, Nat.min_l by lia; [f_equal; lia|lia].
  - rewrite nth_error_app1 by (rewrite firstn_length; lia). rewrite <- (firstn_skipn a d) at 2. rewrite nth_error_app1; auto. rewrite firstn_length. lia.
Qed.
Theorem fill_offset_outside_refuted : forall A sh (d : list A) v o c, (0 < c)%Z -> (o < 0 \/ Z.of_nat (length d) < o + c)%Z ->
  fillOffset (mkT sh d) (mkT [] [v]) o c = UB.
Proof.
  intros A sh d v o c Hc [H|H]; [apply fillOffset_before; auto|]. destruct (Z.ltb_spec o 0); [apply fillOffset_before; auto|].
  rewrite <- (Z2Nat.id o), <- (Z2Nat.id c) by lia. apply fillOffset_after; lia.
Qed.
Theorem fill_offset_needs_scalar : forall A (t val : tensor A) o c, tshape val <> [] -> fillOffset t val o c = Fail.
Proof. intros A t [sh d] o c H. unfold fillOffset. cbn in *. destruct sh; [congruence|reflexivity]. Qed.

Example mask_case :
  fillMasked (mkT [2; 2] [1; 2; 3; 4]) (mkT [2; 2] [false; true; true; false]) 9 = Ok (mkT [2; 2] [1; 9; 9; 4])
  /\ fillMaskedOut (mkT [5] [6; 6; 6; 6; 6]) (mkT [2; 2] [1; 2; 3; 4]) (mkT [2; 2] [false; true; true; false]) 9 = Ok (mkT [5] [1; 9; 9; 4; 6])
  /\ fillOffset (mkT [2; 2] [1; 2; 3; 4]) (mkT [] [9]) 1 2 = Ok (mkT [2; 2] [1; 9; 9; 4])
  /\ fillOffset (mkT [2; 2] [1; 2; 3; 4]) (mkT [] [9]) 3 2 = UB.
Proof. repeat split; reflexivity. Qed.

Print Assumptions fill_sets_every_element.
Print Assumptions masked_fill_value.
Print Assumptions masked_fill_forms_agree_partial.
Print Assumptions masked_fill_rejects_shape.
Print Assumptions masked_fill_out_smaller_refuted.
Print Assumptions masked_fill_out_larger_refuted.
Print Assumptions fill_offset_range.
Print Assumptions fill_offset_outside_refuted.
Print Assumptions fill_offset_needs_scalar.
