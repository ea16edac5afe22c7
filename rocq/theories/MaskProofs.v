From Coq Require Import ZArith List Bool Arith Lia ZifyBool ZifyNat.
From Verif Require Import ShapeModel ShapeSpec ShapeProofs TensorModel TensorSpec TensorLemmas BcastModel BcastProofs BufModel BufProofs MaskModel.
Import ListNotations.

Lemma wr_mid {A} (a b : list A) x v : wr (a ++ x :: b) (length a) v = Some (a ++ v :: b).
Proof. induction a as [|y a IH]; cbn [app length wr]; auto. rewrite IH. reflexivity. Qed.
Lemma wr_end {A} : forall (l : list A) i v, length l <= i -> wr l i v = None.
Proof. induction l as [|x l IH]; intros [|i] v H; cbn [wr length] in *; auto; try lia. rewrite IH by lia. reflexivity. Qed.
Lemma skipn_cons {A} (l : list A) k x : nth_error l k = Some x -> skipn k l = x :: skipn (S k) l.
Proof. revert k. induction l as [|y l IH]; intros [|k] E; try discriminate; cbn in *; [injection E as ->; auto|auto]. Qed.
(** Writing positions 0, 1, ..., n-1 one after the other. *)
Section Seq.
  Context {A : Type} (g : nat -> A) (d0 : list A).
  Definition state (k : nat) : list A := map g (seq 0 k) ++ skipn k d0.
  Lemma state_next k : k < length d0 -> wr (state k) k (g k) = Some (state (S k)).
  Proof.
    intro H. unfold state. destruct (nth_error d0 k) as [x|] eqn:E; [|apply nth_error_None in E; lia].
    rewrite (skipn_cons _ _ _ E). replace k with (length (map g (seq 0 k))) at 3 by (rewrite map_length, seq_length; auto).
    rewrite wr_mid, seq_S, map_app, <- app_assoc. reflexivity.
  Qed.
  Lemma state_rest k : k < length d0 -> nth_error (state k) k = nth_error d0 k.
  Proof.
    intro H. unfold state. rewrite nth_error_app2; rewrite map_length, seq_length; [|lia]. rewrite Nat.sub_diag.
    destruct (nth_error d0 k) as [x|] eqn:E; [|apply nth_error_None in E; lia]. rewrite (skipn_cons _ _ _ E). reflexivity.
  Qed.
  Lemma seq_write (body : list A -> nat -> option (list A)) n : n <= length d0 -> (forall k, k < n -> body (state k) k = wr (state k) k (g k)) ->
    loop (seq 0 n) d0 body = Some (state n).
  Proof.
    intros L H. assert (G : forall m k, k + m = n -> loop (seq k m) (state k) body = Some (state n)).
    { induction m as [|m IH]; intros k E; [simpl; f_equal; f_equal; lia|]. cbn [seq loop]. rewrite H, state_next by lia. cbn [obind].
      apply IH. lia. }
    apply (G n 0). reflexivity.
  Qed.
  Lemma seq_write_ub (body : list A -> nat -> option (list A)) n : length d0 < n -> (forall k, k <= length d0 -> body (state k) k = wr (state k) k (g k)) ->
    loop (seq 0 n) d0 body = None.
  Proof.
    intros L H. assert (G : forall m k, k + m = n -> k <= length d0 -> loop (seq k m) (state k) body = None).
    { induction m as [|m IH]; intros k E Hk; [lia|]. cbn [seq loop]. rewrite H by lia.
      destruct (Nat.eq_dec k (length d0)) as [->|N].
      - rewrite wr_end; auto. unfold state. rewrite app_length, map_length, seq_length, skipn_length. lia.
      - rewrite state_next by lia. cbn [obind]. apply IH; lia. }
    apply (G n 0); lia.
  Qed.
End Seq.
Lemma state_all {A} (g : nat -> A) d0 n : length d0 <= n -> state g d0 n = map g (seq 0 n).
Proof. intro H. unfold state. rewrite skipn_all2 by lia. apply app_nil_r. Qed.
Lemma tensor_of_seq {A} sh (F : list nat -> A) : map (fun i => F (offsetToIndices sh i)) (seq 0 (numel sh)) = map F (indices sh).
Proof. apply (map_seq_indices sh F). Qed.
Lemma rd_flat {A} sh (F : list nat -> A) i : i < numel sh -> rd (tdata (tensor_of sh F)) i = Some (F (offsetToIndices sh i)).
Proof. intro H. unfold rd. cbn [tdata tensor_of]. rewrite nth_error_map, indices_nth by auto. reflexivity. Qed.

Section Mask.
  Context {A : Type}.
  Lemma fill_ok sh (F : list nat -> A) v : fill (tensor_of sh F) v = Ok (tensor_of sh (fun _ => v)).
  Proof.
    unfold fill, tnumel. cbn [tshape tensor_of tdata]. rewrite (seq_write (fun _ => v)); [|rewrite map_length, indices_length; auto|auto].
    rewrite state_all by (rewrite map_length, indices_length; auto). unfold tensor_of; rewrite <- (tensor_of_seq sh (fun _ => v)). reflexivity.
  Qed.
  Definition sel (sh : list nat) (M : list nat -> bool) (F : list nat -> A) (v : A) (i : nat) : A :=
    if M (offsetToIndices sh i) then v else F (offsetToIndices sh i).
  Lemma masked_new sh (F : list nat -> A) M v :
    fillMasked (tensor_of sh F) (tensor_of sh M) v = Ok (tensor_of sh (fun idx => if M idx then v else F idx)).
  Proof.
    unfold fillMasked, list_eqb, tnumel. cbn [tshape tensor_of]. destruct (list_eq_dec Nat.eq_dec sh sh); [|congruence].
    rewrite (seq_write (fun i => Some (sel sh M F v i))).
    - rewrite state_all by (unfold fresh; rewrite repeat_length; auto). unfold finish. cbn [obind].
      rewrite (seqopt_map (fun i => Some (sel sh M F v i)) (sel sh M F v)) by auto.
      unfold tensor_of; rewrite <- (tensor_of_seq sh (fun idx => if M idx then v else F idx)). reflexivity.
    - unfold fresh. rewrite repeat_length. auto.
    - intros k Hk. pose proof (rd_flat sh M k Hk) as R1. pose proof (rd_flat sh F k Hk) as R2. cbn [tdata tensor_of] in *. rewrite R1. cbn [obind].
      unfold sel, put. destruct (M _); auto. rewrite R2. reflexivity.
  Qed.
  Lemma masked_inplace sh (F : list nat -> A) M v :
    fillMaskedInplace (tensor_of sh F) (tensor_of sh M) v = Ok (tensor_of sh (fun idx => if M idx then v else F idx)).
  Proof.
    unfold fillMaskedInplace, list_eqb, tnumel. cbn [tshape tensor_of]. destruct (list_eq_dec Nat.eq_dec sh sh); [|congruence].
    assert (L : length (map F (indices sh)) = numel sh) by (rewrite map_length, indices_length; auto).
    rewrite (seq_write (sel sh M F v)).
    - rewrite state_all by (unfold tensor_of; cbn [tdata]; rewrite L; auto). unfold tensor_of; rewrite <- (tensor_of_seq sh (fun idx => if M idx then v else F idx)). reflexivity.
    - unfold tensor_of; cbn [tdata]; rewrite L; auto.
    - intros k Hk. pose proof (rd_flat sh M k Hk) as R1. pose proof (rd_flat sh F k Hk) as R2. cbn [tdata tensor_of] in *. rewrite R1. cbn [obind].
      unfold sel. destruct (M _); auto. unfold rd in *. rewrite state_rest by (change (tdata (tensor_of sh F)) with (map F (indices sh)); rewrite L; auto).
      change (tdata (tensor_of sh F)) with (map F (indices sh)). rewrite R2. reflexivity.
  Qed.
  Lemma masked_out_gen sh (F : list nat -> A) M v (out : tensor A) : numel sh <= length (tdata out) ->
    fillMaskedOut out (tensor_of sh F) (tensor_of sh M) v
    = Ok (mkT (tshape out) (map (fun idx => if M idx then v else F idx) (indices sh) ++ skipn (numel sh) (tdata out))).
  Proof.
    intro L. unfold fillMaskedOut, list_eqb, maskedLoop, tnumel. cbn [tshape tensor_of]. destruct (list_eq_dec Nat.eq_dec sh sh); [|congruence].
    rewrite (seq_write (sel sh M F v)); auto.
    - unfold state. unfold tensor_of; rewrite <- (tensor_of_seq sh (fun idx => if M idx then v else F idx)). reflexivity.
    - intros k Hk. pose proof (rd_flat sh M k Hk) as R1. pose proof (rd_flat sh F k Hk) as R2. cbn [tdata tensor_of] in *. rewrite R1. cbn [obind].
      unfold sel. destruct (M _); auto. rewrite R2. reflexivity.
  Qed.
  Lemma masked_out_short sh (F : list nat -> A) M v (out : tensor A) : length (tdata out) < numel sh ->
    fillMaskedOut out (tensor_of sh F) (tensor_of sh M) v = UB.
  Proof.
    intro L. unfold fillMaskedOut, list_eqb, maskedLoop, tnumel. cbn [tshape tensor_of]. destruct (list_eq_dec Nat.eq_dec sh sh); [|congruence].
    rewrite (seq_write_ub (sel sh M F v)); auto.
    intros k Hk. assert (Hk' : k < numel sh) by lia. pose proof (rd_flat sh M k Hk') as R1. pose proof (rd_flat sh F k Hk') as R2. cbn [tdata tensor_of] in *. rewrite R1. cbn [obind].
    unfold sel. destruct (M _); auto. rewrite R2. reflexivity.
  Qed.
  Lemma wr_app (p : list A) : forall l i v, wr (p ++ l) (length p + i) v = obind (wr l i v) (fun l => Some (p ++ l)).
  Proof.
    induction p as [|x p IH]; intros l i v; cbn [app length Nat.add]; [destruct (wr l i v); reflexivity|]. cbn [wr]. rewrite IH.
    destruct (wr l i v); reflexivity.
  Qed.
  Lemma loop_under (p : list A) v n : forall k l, loop (seq k n) (p ++ l) (fun d i => wr d (length p + i) v)
    = obind (loop (seq k n) l (fun d i => wr d i v)) (fun l => Some (p ++ l)).
  Proof.
    induction n as [|n IH]; intros k l; [reflexivity|]. cbn [seq loop]. rewrite wr_app. destruct (wr l k v); cbn [obind]; auto.
  Qed.
  Lemma fillOffset_in sh (d : list A) v o c : o + c <= length d ->
    fillOffset (mkT sh d) (mkT [] [v]) (Z.of_nat o) (Z.of_nat c) = Ok (mkT sh (firstn o d ++ repeat v c ++ skipn (o + c) d)).
  Proof.
    intro H. unfold fillOffset. cbn [tshape tdata]. rewrite Nat2Z.id.
    rewrite (loop_ext _ _ (fun d i => wr d (o + i) v)).
    2:{ intros s i _. cbv zeta. destruct (Z.ltb_spec (Z.of_nat o + Z.of_nat i) 0); [lia|]. f_equal. lia. }
    rewrite <- (firstn_skipn o d) at 1. assert (L : length (firstn o d) = o) by (rewrite firstn_length; lia).
    rewrite (loop_ext _ _ (fun d' i => wr d' (length (firstn o d) + i) v)) by (intros; rewrite L; auto).
    rewrite loop_under, (seq_write (fun _ => v)); [|rewrite skipn_length; lia|auto]. cbn [obind]. unfold state. do 3 f_equal. f_equal.
    - clear. generalize 0. induction c; intro s; simpl; f_equal; auto.
    - clear. revert d. induction o as [|o IH]; intro d; [reflexivity|]. destruct d; [destruct c; reflexivity|]. cbn [skipn Nat.add]. apply IH.
  Qed.
  Lemma fillOffset_before sh (d : list A) v o c : (o < 0)%Z -> (0 < c)%Z -> fillOffset (mkT sh d) (mkT [] [v]) o c = UB.
  Proof.
    intros Ho Hc. unfold fillOffset. cbn [tshape tdata]. destruct (Z.to_nat c) as [|n] eqn:E; [lia|]. cbn [seq loop]. cbv zeta.
    destruct (Z.ltb_spec (o + Z.of_nat 0) 0); [reflexivity|lia].
  Qed.
  Lemma fillOffset_after sh (d : list A) v o c : 0 < c -> length d < o + c ->
    fillOffset (mkT sh d) (mkT [] [v]) (Z.of_nat o) (Z.of_nat c) = UB.
  Proof.
    intros Hc H. unfold fillOffset. cbn [tshape tdata]. rewrite Nat2Z.id.
    rewrite (loop_ext _ _ (fun d i => wr d (o + i) v)).
    2:{ intros s i _. cbv zeta. destruct (Z.ltb_spec (Z.of_nat o + Z.of_nat i) 0); [lia|]. f_equal. lia. }
    destruct (le_lt_dec o (length d)) as [Ho|Ho].
    - rewrite <- (firstn_skipn o d) at 1. assert (L : length (firstn o d) = o) by (rewrite firstn_length; lia).
      rewrite (loop_ext _ _ (fun d' i => wr d' (length (firstn o d) + i) v)) by (intros; rewrite L; auto).
      rewrite loop_under, (seq_write_ub (fun _ => v)); [reflexivity|rewrite skipn_length; lia|auto].
    - destruct c as [|c]; [lia|]. cbn [seq loop]. rewrite wr_end by lia. reflexivity.
  Qed.
End Mask.
