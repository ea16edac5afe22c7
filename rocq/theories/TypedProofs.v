From Coq Require Import ZArith List Bool Arith Lia ZifyBool ZifyNat.
From Verif Require Import ShapeModel ShapeSpec ShapeProofs TensorModel TensorSpec TensorLemmas BcastModel BcastSpec BcastProofs
  DispatchModel TypedModel TypedSpec.
Import ListNotations.

Lemma position_ravel : forall sh idx, length sh = length idx -> position sh idx = ravel sh idx.
Proof.
  induction sh as [|d sh IH]; intros [|i idx] H; try discriminate; [reflexivity|].
  rewrite ravel_cons. cbn [position]. rewrite IH; auto.
Qed.
Lemma skipn_skipn' {A} : forall a b (l : list A), skipn a (skipn b l) = skipn (a + b) l.
Proof.
  intros a b. revert a. induction b as [|b IH]; intros a l; [rewrite Nat.add_0_r; reflexivity|].
  rewrite Nat.add_succ_r. destruct l; cbn [skipn]; [destruct a; reflexivity|apply IH].
Qed.
Lemma size_width t : dtypeSize t = width t.
Proof. destruct t; reflexivity. Qed.
Lemma bits_width t : (2 ^ Z.of_nat (bits t) = 256 ^ Z.of_nat (width t))%Z.
Proof. destruct t; reflexivity. Qed.
Lemma size_pos t : 0 < width t.
Proof. destruct t; cbv; lia. Qed.
Lemma chunks_nth w : 0 < w -> forall n l k, nth_error (chunks n w l) k
  = if (k <? n) && (S k * w <=? length l) then Some (pattern (firstn w (skipn (k * w) l))) else None.
Proof.
  intro Hw. induction n as [|n IH]; intros l k; cbn [chunks].
  - destruct k; reflexivity.
  - destruct (Nat.ltb_spec (length l) w) as [Hl|Hl].
    + replace (S k * w <=? length l) with false by (symmetry; apply Nat.leb_gt; nia). rewrite andb_false_r. destruct k; reflexivity.
    + destruct k as [|k]; cbn [nth_error].
      * replace (0 <? S n) with true by reflexivity. replace (1 * w <=? length l) with true by (symmetry; apply Nat.leb_le; lia).
        reflexivity.
      * rewrite IH, skipn_length. replace (S k <? S n) with (k <? n) by reflexivity.
        assert (E : skipn (k * w) (skipn w l) = skipn (S k * w) l) by (rewrite skipn_skipn'; f_equal; lia).
        rewrite E. replace (S k * w <=? length l - w) with (S (S k) * w <=? length l); [reflexivity|].
        apply Bool.eq_true_iff_eq. rewrite !Nat.leb_le. nia.
Qed.

Lemma typed_nth w x k : 0 < w -> nth_error (chunks (length (ybytes x)) w (ybytes x)) k
  = if S k * w <=? length (ybytes x) then Some (pattern (firstn w (skipn (k * w) (ybytes x)))) else None.
Proof.
  intro H. rewrite chunks_nth by auto. destruct (Nat.leb_spec (S k * w) (length (ybytes x))); [|rewrite andb_false_r; auto].
  replace (k <? length (ybytes x)) with true; auto. symmetry. apply Nat.ltb_lt. nia.
Qed.
(** Reading two operands as elements of [w] bytes. *)
Lemma reads_ok {B} (f : list Z -> B) t x y sh : positive (ysh x) -> positive (ysh y) -> is_broadcast [ysh x; ysh y] sh ->
  sized x -> sized y -> width t <= width (ty x) -> width t <= width (ty y) ->
  elementwise f [dataPtr t x; dataPtr t y]
  = Ok (tensor_of sh (fun idx => f [pattern_at (width t) x (bidx (ysh x) idx); pattern_at (width t) y (bidx (ysh y) idx)])).
Proof.
  intros Px Py HI Sx Sy Wx Wy. unfold elementwise. cbn [map tshape dataPtr].
  assert (HP : Forall positive [ysh x; ysh y]) by auto.
  pose proof (proj2 (broadcastShape_iff _ _ HP) HI) as HB. rewrite HB. unfold forEach.
  rewrite (offsets_spec [dataPtr t x; dataPtr t y] sh) by auto. unfold spec_offsets. rewrite map_map.
  rewrite (seqopt_map _ (fun idx => f [pattern_at (width t) x (bidx (ysh x) idx); pattern_at (width t) y (bidx (ysh y) idx)])); auto.
  intros idx Hi. apply indices_in in Hi.
  change (map tdata [dataPtr t x; dataPtr t y]) with (map (fun z => tdata (dataPtr t z)) [x; y]).
  change (map (fun t0 => Z.of_nat (ravel (tshape t0) (bidx (tshape t0) idx))) [dataPtr t x; dataPtr t y])
    with (map (fun z => Z.of_nat (ravel (ysh z) (bidx (ysh z) idx))) [x; y]).
  apply (call_spec f [x; y] (fun z => tdata (dataPtr t z)) (fun z => ravel (ysh z) (bidx (ysh z) idx))
    (fun z => pattern_at (width t) z (bidx (ysh z) idx))).
  assert (G : forall z, In (ysh z) [ysh x; ysh y] -> sized z -> width t <= width (ty z) ->
    nth_error (tdata (dataPtr t z)) (ravel (ysh z) (bidx (ysh z) idx)) = Some (pattern_at (width t) z (bidx (ysh z) idx))).
  { intros z Hz Sz Wz. assert (V : valid (ysh z) (bidx (ysh z) idx)).
    { apply bidx_valid with (sh := sh); auto. apply (is_broadcast_bto _ _ _ HI); auto. }
    cbn [tdata dataPtr]. rewrite size_width, typed_nth by apply size_pos. unfold pattern_at.
    rewrite position_ravel by (symmetry; apply valid_length; auto).
    pose proof (ravel_lt _ _ V) as L. replace (_ <=? _) with true; auto. symmetry. apply Nat.leb_le. unfold sized in Sz. nia. }
  intros z [<-|[<-|[]]]; apply G; simpl; auto.
Qed.
Lemma last_position sh : positive sh -> valid sh (map (fun d => d - 1) sh) /\ ravel sh (map (fun d => d - 1) sh) = numel sh - 1.
Proof.
  induction sh as [|d sh IH]; intro P.
  - split; [constructor|reflexivity].
  - inversion P; subst. destruct IH as [V R]; auto. split.
    + cbn [map]. constructor; auto. lia.
    + cbn [map]. rewrite ravel_cons, R, numel_cons. pose proof (positive_numel sh H2). nia.
Qed.
Lemma bidx_last s sh : bto s sh -> bidx s (map (fun d => d - 1) sh) = map (fun d => d - 1) s.
Proof.
  intros [L F]. unfold bidx. rewrite map_length, skipn_map. remember (skipn (length sh - length s) sh) as u. clear Hequ L.
  induction F as [|a b s u Hab F IH]; [reflexivity|]. cbn [map combine fst snd]. f_equal; auto.
  destruct (Nat.eqb_spec a 1); subst; [reflexivity|]. destruct Hab; subst; [contradiction|reflexivity].
Qed.
Lemma seqopt_none {A B} (f : A -> option B) l a : In a l -> f a = None -> seqopt (map f l) = None.
Proof.
  induction l as [|b l IH]; intros H E; [destruct H|]. destruct H as [->|H]; cbn [map seqopt].
  - rewrite E. reflexivity.
  - rewrite IH; auto. destruct (f b); reflexivity.
Qed.
Lemma narrow_ub {B} (f : list Z -> B) t x y sh : positive (ysh x) -> positive (ysh y) -> is_broadcast [ysh x; ysh y] sh ->
  sized y -> width (ty y) < width t ->
  elementwise f [dataPtr t x; dataPtr t y] = UB.
Proof.
  intros Px Py HI Sy W. unfold elementwise. cbn [map tshape dataPtr].
  assert (HP : Forall positive [ysh x; ysh y]) by auto.
  pose proof (proj2 (broadcastShape_iff _ _ HP) HI) as HB. rewrite HB. unfold forEach.
  rewrite (offsets_spec [dataPtr t x; dataPtr t y] sh) by auto. unfold spec_offsets. rewrite map_map.
  pose proof (is_broadcast_positive _ _ HP HI) as Psh.
  rewrite (seqopt_none _ _ (map (fun d => d - 1) sh)); auto.
  - apply indices_in. apply last_position; auto.
  - cbn [map tdata tshape dataPtr]. unfold call. cbn [combine map fst snd].
    rewrite (bidx_last (ysh y)) by (apply (is_broadcast_bto _ _ _ HI); simpl; auto).
    rewrite !rdZ_nat, (proj2 (last_position _ Py)), !size_width.
    rewrite (typed_nth (width t) y) by apply size_pos.
    replace (_ <=? length (ybytes y)) with false.
    + cbn [seqopt obind]. destruct (nth_error _ _); reflexivity.
    + symmetry. apply Nat.leb_gt. pose proof (positive_numel _ Py). unfold sized in Sy. nia.
Qed.
(** Elements as bit patterns. *)
Lemma toBytes_length n : forall v, length (toBytes n v) = n.
Proof. induction n; intro v; simpl; auto. Qed.
Lemma pattern_toBytes n : forall v, (0 <= v < 256 ^ Z.of_nat n)%Z -> pattern (toBytes n v) = v.
Proof.
  induction n as [|n IH]; intros v H.
  - simpl in *. lia.
  - cbn [toBytes]. unfold pattern. cbn [fold_right]. fold (pattern (toBytes n (v / 256))). rewrite IH.
    + pose proof (Z.div_mod v 256). lia.
    + rewrite Nat2Z.inj_succ, Z.pow_succ_r in H by lia. split; [apply Z.div_pos; lia|apply Z.div_lt_upper_bound; lia].
Qed.
Lemma flat_map_length' {A B} (f : A -> list B) w l : (forall a, length (f a) = w) -> length (flat_map f l) = length l * w.
Proof. intro H. induction l; simpl; auto. rewrite app_length, H, IHl. lia. Qed.
Lemma typed_of_sized t sh F : sized (typed_of t sh F).
Proof. unfold sized, typed_of. cbn [ybytes ysh ty]. rewrite (flat_map_length' _ (width t)), indices_length; auto. intro. apply toBytes_length. Qed.
Lemma flat_map_cut {A B} (f : A -> list B) w : (forall a, length (f a) = w) -> forall l k a, nth_error l k = Some a ->
  firstn w (skipn (k * w) (flat_map f l)) = f a.
Proof.
  intro H. induction l as [|b l IH]; intros k a E; [destruct k; discriminate|]. destruct k as [|k]; cbn [flat_map nth_error] in *.
  - injection E as ->. rewrite Nat.mul_0_l. cbn [skipn]. rewrite <- (H a) at 1. rewrite firstn_app, firstn_all, Nat.sub_diag, firstn_O, app_nil_r. reflexivity.
  - rewrite skipn_app, H, skipn_all2 by (rewrite H; lia). cbn [app]. replace (S k * w - w) with (k * w) by lia. auto.
Qed.
Lemma pattern_of t sh F idx : valid sh idx -> in_type t (F idx) -> pattern_at (width t) (typed_of t sh F) idx = F idx.
Proof.
  intros V H. unfold pattern_at, typed_of. cbn [ysh ybytes]. rewrite position_ravel by (symmetry; apply valid_length; auto).
  rewrite (flat_map_cut (fun i => toBytes (width t) (F i)) _ (fun a => toBytes_length _ _) (indices sh) _ idx).
  - apply pattern_toBytes. rewrite <- bits_width. exact H.
  - rewrite indices_nth by (apply ravel_lt; auto). rewrite o2i_ravel; auto.
Qed.
Lemma store_of t sh G : store t (tensor_of sh G) = typed_of t sh G.
Proof. unfold store, typed_of, tensor_of. rewrite size_width. cbn [tshape tdata]. rewrite flat_map_concat_map, map_map, <- flat_map_concat_map. reflexivity. Qed.
Lemma typed_of_ext t sh F G : (forall idx, valid sh idx -> F idx = G idx) -> typed_of t sh F = typed_of t sh G.
Proof.
  intro H. unfold typed_of. f_equal. rewrite !flat_map_concat_map. f_equal. apply map_ext_in. intros idx Hi.
  rewrite H; auto. apply indices_in; auto.
Qed.
