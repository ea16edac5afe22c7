(** Proofs about indexing with tensors of indices. *)
From Coq Require Import ZArith List Bool Arith Lia.
From Verif Require Import ShapeModel ShapeSpec ShapeProofs TensorModel TensorSpec TensorLemmas BcastModel BcastSpec BcastProofs BcastProofs2 BufModel BufProofs CutModel CutSpec CutProofs CutProofs2 IndexModel IndexSpec IndexProofs IndexProofs2 AdvModel AdvSpec.
Import ListNotations.

Lemma loop_grid {S} m (f : S -> nat -> nat -> option S) : forall n a s,
  loop (seq a n) s (fun s i => loop (seq 0 m) s (fun s k => f s i k)) = loop (seq (a * m) (n * m)) s (fun s p => f s (p / m) (p mod m)).
Proof.
  induction n as [|n IH]; intros a s; [reflexivity|]. cbn [seq loop]. replace (Datatypes.S n * m) with (m + n * m) by lia.
  rewrite seq_app, loop_app. replace (a * m + m) with (Datatypes.S a * m) by lia.
  replace (loop (seq (a * m) m) s (fun s p => f s (p / m) (p mod m))) with (loop (seq 0 m) s (fun s k => f s a k)).
  - destruct (loop (seq 0 m) s (fun s k => f s a k)) as [s'|]; cbn [obind]; auto.
  - replace (seq (a * m) m) with (map (fun k => a * m + k) (seq 0 m)).
    + rewrite loop_map. apply loop_ext. intros s' k Hk. apply in_seq in Hk.
      rewrite Nat.div_add_l, Nat.div_small by lia. rewrite (Nat.add_comm (a * m)), Nat.mod_add, Nat.mod_small by lia. rewrite Nat.add_0_r. auto.
    + clear. generalize (a * m). intro b. revert b. induction m as [|m IH]; intro b; auto. cbn [seq map]. rewrite Nat.add_0_r. f_equal.
      rewrite <- seq_shift, map_map. rewrite <- (IH (Datatypes.S b)). apply map_ext. intro. lia.
Qed.

Lemma wrap_of d v p : dim_is d v p -> wrapIdx d v = Z.of_nat p.
Proof. unfold dim_is, wrapIdx. intros [H1 H2]. destruct (Z.leb_spec 0 v); lia. Qed.

Lemma offset_sum : forall pre sh vs, names_coords sh vs pre ->
  fold_right Z.add 0%Z (map (fun p => wrapIdx (fst (fst p)) (snd p) * Z.of_nat (snd (fst p)))%Z (combine (combine sh (strides sh)) vs))
  = Z.of_nat (ravel (firstn (length pre) sh) pre * numel (skipn (length pre) sh)).
Proof.
  induction pre as [|p pre IH]; intros sh vs N.
  - destruct N as (L1 & _). destruct vs; [|discriminate]. destruct (combine sh (strides sh)); auto.
  - destruct vs as [|z vs]; [destruct N; discriminate|]. destruct sh as [|d sh]; [destruct N as (_ & L & _); simpl in L; lia|].
    apply names_cons in N. destruct N as [Hd N]. pose proof (names_valid _ _ _ N) as V. rewrite strides_cons. cbn [combine map fold_right fst snd]. rewrite IH by auto.
    cbn [length firstn skipn]. rewrite ravel_cons. rewrite (wrap_of _ _ _ Hd).
    assert (EN : numel sh = numel (firstn (length pre) sh) * numel (skipn (length pre) sh)) by (rewrite <- numel_app, firstn_skipn; auto).
    rewrite EN. nia.
Qed.

Lemma stride_last sh m : 0 < m -> m <= length sh -> nth (m - 1) (strides sh) 0 = numel (skipn m sh).
Proof.
  intros H1 H2. replace m with (S (m - 1)) at 2 by lia. assert (m - 1 < length sh) by lia. clear H1 H2. revert H. generalize (m - 1). intros k. revert sh.
  induction k as [|k IH]; intros [|d sh] H; cbn [length] in H; try lia; rewrite strides_cons; cbn [nth skipn]; auto. apply IH. lia.
Qed.

Section Adv.
  Context {A : Type} (sh ish : list nat) (Is : list (list nat -> Z)) (P : list nat -> list nat).
  Hypothesis HP : names_positions sh ish Is P.
  Notation n := (length Is).
  Notation rest := (skipn (length Is) sh).
  Notation rsh := (adv_shape sh ish (length Is)).
  Notation inds := (map (tensor_of ish) Is).

  Lemma P_valid j : valid ish j -> length (P j) = n /\ valid (firstn n sh) (P j).
  Proof.
    intro V. destruct HP as (_ & _ & H). specialize (H j V). pose proof (names_valid _ _ _ H) as H'. destruct H as (L & _).
    rewrite map_length in L. rewrite <- L in H'. auto.
  Qed.
  Lemma source_valid j r : valid ish j -> valid rest r -> valid sh (P j ++ r).
  Proof.
    intros V Vr. destruct (P_valid j V) as [L V']. rewrite <- (firstn_skipn n sh). apply valid_app; [|auto].
    apply (valid_length _ _ V').
  Qed.
  Lemma source_ravel j k : valid ish j -> k < numel rest -> ravel sh (P j ++ offsetToIndices rest k) = ravel (firstn n sh) (P j) * numel rest + k.
  Proof.
    intros V Hk. destruct (P_valid j V) as [L V']. rewrite <- (firstn_skipn n sh) at 1. rewrite ravel_app by (apply (valid_length _ _ V')).
    rewrite ravel_o2i by auto. auto.
  Qed.
  Lemma advOffset_ok i : i < numel ish -> advOffset sh inds i = Some (Z.of_nat (ravel (firstn n sh) (P (offsetToIndices ish i)) * numel rest)).
  Proof.
    intro Hi. unfold advOffset. rewrite map_map. rewrite (seqopt_map _ (fun I => I (offsetToIndices ish i))).
    2: { intros I _. apply rd_of; auto. }
    cbn [obind]. f_equal. destruct HP as (_ & _ & H). specialize (H _ (o2i_valid _ _ Hi)).
    destruct (P_valid _ (o2i_valid _ _ Hi)) as [L _]. rewrite (offset_sum (P (offsetToIndices ish i))) by auto. rewrite L. auto.
  Qed.
  Lemma rd_source (F : list nat -> A) j k : valid ish j -> k < numel rest ->
    rdZ (tdata (tensor_of sh F)) (Z.of_nat (ravel (firstn n sh) (P j) * numel rest) + Z.of_nat k) = Some (F (P j ++ offsetToIndices rest k)).
  Proof.
    intros V Hk. rewrite <- Nat2Z.inj_add, <- source_ravel by auto. unfold rdZ. replace (_ <? 0)%Z with false by lia. rewrite Nat2Z.id.
    apply rd_of_idx. apply source_valid; auto. apply o2i_valid; auto.
  Qed.
  Lemma split_pos p : p < numel rsh -> p / numel rest < numel ish /\ p mod numel rest < numel rest
    /\ numel rest * (p / numel rest) + p mod numel rest = p
    /\ offsetToIndices rsh p = offsetToIndices ish (p / numel rest) ++ offsetToIndices rest (p mod numel rest).
  Proof.
    unfold adv_shape. rewrite numel_app. intro H. assert (numel rest <> 0) by (intros E; rewrite E in H; lia).
    assert (H1 : p / numel rest < numel ish) by (apply Nat.div_lt_upper_bound; lia).
    assert (H2 : p mod numel rest < numel rest) by (apply Nat.mod_upper_bound; auto).
    assert (H3 : numel rest * (p / numel rest) + p mod numel rest = p) by (symmetry; apply Nat.div_mod; auto).
    repeat split; auto.
    rewrite <- (o2i_ravel (ish ++ rest) (offsetToIndices ish (p / numel rest) ++ offsetToIndices rest (p mod numel rest))).
    - f_equal. rewrite ravel_app by apply o2i_length. rewrite !ravel_o2i by auto. lia.
    - apply valid_app; [apply o2i_length|]. split; apply o2i_valid; auto.
  Qed.
  Lemma source_split j r : length j = length ish -> adv_source ish P (j ++ r) = P j ++ r.
  Proof. intro L. unfold adv_source. rewrite <- L, firstn_app, firstn_all, Nat.sub_diag, skipn_app, skipn_all, Nat.sub_diag. simpl. rewrite app_nil_r. auto. Qed.
  Lemma source_pos p : p < numel rsh -> adv_source ish P (offsetToIndices rsh p) = P (offsetToIndices ish (p / numel rest)) ++ offsetToIndices rest (p mod numel rest).
  Proof. intro H. destruct (split_pos p H) as (_ & _ & _ & ->). apply source_split. apply o2i_length. Qed.

  (** The two loops of the code are the same loop when the indices are in range. *)
  Lemma index2D_ok d0 d1 I0 I1 i : sh = [d0; d1] -> Is = [I0; I1] -> i < numel ish ->
    index2D d0 d1 (tensor_of ish I0) (tensor_of ish I1) i = Some (Z.of_nat (ravel (firstn n sh) (P (offsetToIndices ish i)) * numel rest) + Z.of_nat 0)%Z.
  Proof.
    intros E1 E2 Hi. unfold index2D. rewrite !rd_of by auto. cbn [obind]. f_equal.
    destruct (P_valid _ (o2i_valid _ _ Hi)) as [L _]. destruct HP as (_ & _ & H). specialize (H _ (o2i_valid _ _ Hi)). rewrite E1, E2 in *. cbn [map] in H.
    destruct (P (offsetToIndices ish i)) as [|p [|q [|]]]; try discriminate L.
    apply names_cons in H. destruct H as [Hp H]. apply names_cons in H. destruct H as [Hq _].
    rewrite (wrap_of _ _ _ Hp), (wrap_of _ _ _ Hq). cbn [length firstn skipn]. rewrite !ravel_cons. cbn. lia.
  Qed.

  Definition grid {S} (s : S) (body : S -> nat -> Z -> option S) : option S :=
    loop (seq 0 (numel rsh)) s (fun s p =>
      body s p (Z.of_nat (ravel (firstn n sh) (P (offsetToIndices ish (p / numel rest))) * numel rest) + Z.of_nat (p mod numel rest))%Z).
  Lemma general_grid {S} (s : S) body :
    loop (seq 0 (numel ish)) s (fun s i => obind (advOffset sh inds i) (fun z => loop (seq 0 (numel rest)) s (fun s k => body s (numel rest * i + k) (z + Z.of_nat k)%Z)))
    = grid s body.
  Proof.
    unfold grid, adv_shape. rewrite numel_app. change (seq 0 (numel ish * numel rest)) with (seq (0 * numel rest) (numel ish * numel rest)).
    transitivity (loop (seq (0 * numel rest) (numel ish * numel rest)) s (fun s p =>
       body s (numel rest * (p / numel rest) + p mod numel rest) (Z.of_nat (ravel (firstn n sh) (P (offsetToIndices ish (p / numel rest))) * numel rest) + Z.of_nat (p mod numel rest))%Z)).
    - rewrite <- (loop_grid (numel rest) (fun s i k => body s (numel rest * i + k) (Z.of_nat (ravel (firstn n sh) (P (offsetToIndices ish i)) * numel rest) + Z.of_nat k)%Z)).
      apply loop_ext. intros s' i Hi. apply in_seq in Hi. rewrite advOffset_ok by lia. auto.
    - apply loop_ext. intros s' p Hp. apply in_seq in Hp.
      destruct (split_pos p) as (_ & _ & E & _); [unfold adv_shape; rewrite numel_app; lia|]. rewrite E. auto.
  Qed.
  Lemma two_grid {S} (s : S) body d0 d1 I0 I1 : sh = [d0; d1] -> Is = [I0; I1] ->
    loop (seq 0 (numel ish)) s (fun s i => obind (index2D d0 d1 (tensor_of ish I0) (tensor_of ish I1) i) (fun z => body s i z)) = grid s body.
  Proof.
    intros E1 E2. unfold grid, adv_shape. rewrite numel_app. replace (numel rest) with 1 by (rewrite E1, E2; auto). rewrite Nat.mul_1_r.
    apply loop_ext. intros s' i Hi. apply in_seq in Hi. rewrite (index2D_ok d0 d1 I0 I1 i E1 E2) by lia. cbn [obind].
    rewrite Nat.div_1_r, Nat.mod_1_r. replace (numel rest) with 1 by (rewrite E1, E2; auto). auto.
  Qed.
  Lemma grid_ext {S} (s : S) f g : (forall s p j k, p < numel rsh -> valid ish j -> j = offsetToIndices ish (p / numel rest) -> k = p mod numel rest -> k < numel rest ->
       f s p (Z.of_nat (ravel (firstn n sh) (P j) * numel rest) + Z.of_nat k)%Z = g s p) -> grid s f = loop (seq 0 (numel rsh)) s g.
  Proof.
    intro H. apply loop_ext. intros s' p Hp. apply in_seq in Hp. destruct (split_pos p) as (H1 & H2 & _); [lia|].
    apply H; auto; try lia. apply o2i_valid; auto.
  Qed.
End Adv.

Lemma indexAdvance_ok {A} sh ish Is P (F : list nat -> A) : names_positions sh ish Is P ->
  indexAdvance (tensor_of sh F) (map (tensor_of ish) Is) = Ok (tensor_of (adv_shape sh ish (length Is)) (fun idx => F (adv_source ish P idx))).
Proof.
  intro HP. pose proof HP as (Hne & Hle & _).
  assert (G : finish (adv_shape sh ish (length Is)) (grid sh ish Is P (fresh (numel (adv_shape sh ish (length Is))))
       (fun out p z => obind (rdZ (tdata (tensor_of sh F)) z) (fun x => put out p x)))
     = Ok (tensor_of (adv_shape sh ish (length Is)) (fun idx => F (adv_source ish P idx)))).
  { rewrite (grid_ext sh ish Is P _ _ (fun out p => put out p (F (adv_source ish P (offsetToIndices (adv_shape sh ish (length Is)) p))))).
    2: { intros s p j k Hp V Ej Ek Hk. rewrite (rd_source sh ish Is P HP F j k V Hk). cbn [obind]. rewrite (source_pos sh ish Is P p Hp). rewrite <- Ej, <- Ek. auto. }
    unfold finish. rewrite (fill _ (fun p => p) (fun p => F (adv_source ish P (offsetToIndices (adv_shape sh ish (length Is)) p)))).
    - cbn [obind]. rewrite seqopt_Some. unfold tensor_of. f_equal. f_equal. rewrite <- indices_seq, map_map. auto.
    - auto.
    - intros i Hi. apply in_seq in Hi. lia.
    - intros k Hk. exists k. split; auto. apply in_seq. lia. }
  destruct Is as [|I0 Is']; [congruence|]. unfold indexAdvance. cbn [map]. change (tshape (tensor_of sh F)) with sh. change (tshape (tensor_of ish I0)) with ish.
  change (tensor_of ish I0 :: map (tensor_of ish) Is') with (map (tensor_of ish) (I0 :: Is')). rewrite map_length.
  replace (length sh <? length (I0 :: Is')) with false by (symmetry; apply Nat.ltb_ge; lia). cbv zeta.
  rewrite stride_last by (simpl in *; lia). change (ish ++ skipn (length (I0 :: Is')) sh) with (adv_shape sh ish (length (I0 :: Is'))).
  change (tnumel (tensor_of ish I0)) with (numel ish).
  destruct sh as [|d0 [|d1 [|d2 sh]]]; try (rewrite <- G; f_equal; apply (general_grid _ ish (I0 :: Is') P HP _ (fun out p z => obind (rdZ _ z) (fun x => put out p x)))).
  destruct Is' as [|I1 [|I2 Is']]; try (rewrite <- G; f_equal; apply (general_grid _ ish _ P HP _ (fun out p z => obind (rdZ _ z) (fun x => put out p x)))).
  rewrite <- G. f_equal. cbn [map]. apply (two_grid [d0; d1] ish [I0; I1] P HP _ (fun out p z => obind (rdZ _ z) (fun x => put out p x)) d0 d1 I0 I1 eq_refl eq_refl).
Qed.

(** ** Writing *)
Lemma wrZ_nat {A} (l : list A) k v : wrZ l (Z.of_nat k) v = wr l k v.
Proof. unfold wrZ. replace (Z.of_nat k <? 0)%Z with false by lia. rewrite Nat2Z.id. auto. Qed.
Lemma put_grid {A} sh ish Is P (F : list nat -> A) (src : nat -> option A) (V : list nat -> A) : names_positions sh ish Is P ->
  (forall p, p < numel (adv_shape sh ish (length Is)) -> src p = Some (V (offsetToIndices (adv_shape sh ish (length Is)) p))) ->
  grid sh ish Is P (tdata (tensor_of sh F)) (fun l p z => obind (src p) (fun x => wrZ l z x))
  = Some (tdata (tensor_of sh (after_writes (indices (adv_shape sh ish (length Is))) (adv_source ish P) V F))).
Proof.
  intros HP HS. set (rsh := adv_shape sh ish (length Is)) in *.
  rewrite (grid_ext sh ish Is P _ _ (fun l p => wr l (ravel sh (adv_source ish P (offsetToIndices rsh p))) (V (offsetToIndices rsh p)))).
  - rewrite <- (loop_map (offsetToIndices rsh) _ (fun l idx => wr l (ravel sh (adv_source ish P idx)) (V idx))). fold rsh. rewrite indices_seq.
    apply (writes_tensor _ (adv_source ish P) V sh F); auto.
    intros idx Hi. apply indices_in in Hi. rewrite <- (firstn_skipn (length ish) idx) in Hi. 
    assert (L : length idx = length rsh) by (apply valid_length; rewrite firstn_skipn in Hi; auto).
    unfold rsh, adv_shape in Hi, L. rewrite app_length in L. apply valid_app in Hi; [|rewrite firstn_length; lia]. destruct Hi as [H1 H2].
    apply (source_valid sh ish Is P HP); auto.
  - intros l p j k Hp Vj Ej Ek Hk. fold rsh in Hp. rewrite HS by auto. cbn [obind]. rewrite <- Nat2Z.inj_add, wrZ_nat. f_equal.
    unfold rsh. rewrite (source_pos sh ish Is P p Hp). rewrite <- Ej, <- Ek. symmetry. apply (source_ravel sh ish Is P HP); auto.
Qed.

Lemma put_run {A} sh ish I0 Is' P (F : list nat -> A) (src : nat -> option A) V : let Is := I0 :: Is' in names_positions sh ish Is P ->
  (forall p, p < numel (adv_shape sh ish (length Is)) -> src p = Some (V (offsetToIndices (adv_shape sh ish (length Is)) p))) ->
  let m := numel (skipn (length Is) sh) in
  let done o := match o with None => UB | Some d => Ok (mkT sh d) end in
  match sh, map (tensor_of ish) Is with
  | [d0; d1], [i0; i1] =>
    done (loop (seq 0 (numel ish)) (tdata (tensor_of sh F)) (fun l i => obind (index2D d0 d1 i0 i1 i) (fun z => obind (src (m * i + 0)) (fun x => wrZ l z x))))
  | _, _ =>
    done (loop (seq 0 (numel ish)) (tdata (tensor_of sh F)) (fun l i =>
      obind (advOffset sh (map (tensor_of ish) Is) i) (fun z => loop (seq 0 m) l (fun l k => obind (src (m * i + k)) (fun x => wrZ l (z + Z.of_nat k) x)))))
  end = Ok (tensor_of sh (after_writes (indices (adv_shape sh ish (length Is))) (adv_source ish P) V F)).
Proof.
  intros Is HP HS m done. subst Is m. pose proof (put_grid sh ish (I0 :: Is') P F src V HP HS) as G.
  assert (GG : forall o, o = grid sh ish (I0 :: Is') P (tdata (tensor_of sh F)) (fun l p z => obind (src p) (fun x => wrZ l z x)) ->
     done o = Ok (tensor_of sh (after_writes (indices (adv_shape sh ish (length (I0 :: Is')))) (adv_source ish P) V F))) by (intros o ->; rewrite G; reflexivity).
  clear G HS.
  destruct sh as [|d0 [|d1 [|d2 sh]]]; try (apply GG; apply (general_grid _ ish (I0 :: Is') P HP _ (fun l p z => obind (src p) (fun x => wrZ l z x)))).
  destruct Is' as [|I1 [|I2 Is']]; try (apply GG; apply (general_grid _ ish _ P HP _ (fun l p z => obind (src p) (fun x => wrZ l z x)))).
  cbn [map]. apply GG. rewrite <- (two_grid [d0; d1] ish [I0; I1] P HP _ _ d0 d1 I0 I1 eq_refl eq_refl).
  apply loop_ext. intros l i _. cbn [length skipn numel fold_right]. replace (numel [] * i + 0) with i by (cbn; lia). auto.
Qed.
Lemma indexPut_shape {A} sh ish Is P (F : list nat -> A) (val : tensor A) V : names_positions sh ish Is P ->
  (isScalar val = true /\ (forall idx, rd (tdata val) 0 = Some (V idx)) \/ isScalar val = false /\ tnumel val = numel (adv_shape sh ish (length Is)) /\ tdata val = tdata (tensor_of (adv_shape sh ish (length Is)) V)) ->
  indexPutAdvance (tensor_of sh F) (map (tensor_of ish) Is) val
  = Ok (tensor_of sh (after_writes (indices (adv_shape sh ish (length Is))) (adv_source ish P) V F)).
Proof.
  intros HP HV. pose proof HP as (Hne & Hle & _). destruct Is as [|I0 Is']; [congruence|]. unfold indexPutAdvance. cbn [map].
  change (tshape (tensor_of sh F)) with sh. change (tnumel (tensor_of ish I0)) with (numel ish).
  change (tensor_of ish I0 :: map (tensor_of ish) Is') with (map (tensor_of ish) (I0 :: Is')). rewrite map_length.
  replace (length sh <? length (I0 :: Is')) with false by (symmetry; apply Nat.ltb_ge; lia). cbv zeta.
  rewrite stride_last by (simpl in *; lia). destruct HV as [[E R]|[E [EN ED]]]; rewrite E.
  - apply (put_run sh ish I0 Is' P F (fun _ => rd (tdata val) 0) V HP). intros p _. apply R.
  - rewrite EN. unfold adv_shape at 1. rewrite numel_app, Nat.mul_comm, Nat.eqb_refl.
    apply (put_run sh ish I0 Is' P F (fun p => rd (tdata val) p) V HP). intros p Hp. rewrite ED. apply rd_of; auto.
Qed.
