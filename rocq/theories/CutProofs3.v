From Coq Require Import ZArith List Bool Arith Lia.
From Verif Require Import ShapeModel ShapeSpec ShapeProofs TensorModel TensorSpec TensorLemmas BcastModel BufModel BufProofs PermProofs PermProofs2 CutModel CutSpec CutProofs CutProofs2.
Import ListNotations.

Lemma holds_agree {A} (s : sten A) sh F G : holds s sh F -> agree sh F G -> holds s sh G.
Proof. intros [H1 H2] HA. split; auto. rewrite H2. f_equal. apply tensor_of_ext. auto. Qed.
Lemma nth_map_fst {A} (ps : list (nat * A)) i p : nth_error ps i = Some p -> nth i (map fst ps) 0 = fst p.
Proof. revert i. induction ps as [|q ps IH]; intros [|i] H; simpl in *; try discriminate; [injection H as ->; auto|auto]. Qed.
Lemma split_of_concat {A} esz sh (ps : list (nat * (list nat -> A))) dim d : (1 <= esz)%Z -> ps <> [] -> dim_is (length sh) dim d ->
  exists t rs, concat (map (fun p => tensor_of (piece_shape sh d (fst p)) (snd p)) ps) dim = Ok t
  /\ splitSections esz (mkS (map Z.of_nat (tshape t)) 0 (tdata t)) (map Z.of_nat (map fst ps)) dim = Ok rs
  /\ map contents rs = map (fun p => Some (tensor_of (piece_shape sh d (fst p)) (snd p))) ps.
Proof.
  intros He Hne Hd. destruct (concat_parts sh ps dim d Hne Hd) as (G & E & HG). pose proof Hd as [Hlt _].
  set (sh' := piece_shape sh d (list_sum (map fst ps))) in *.
  assert (L' : length sh' = length sh) by apply set_nth_length.
  destruct (splitSections_correct esz (mkS (map Z.of_nat sh') 0 (tdata (tensor_of sh' G))) sh' G dim d (map fst ps)) as (rs & E2 & HP); auto.
  - apply fresh_holds.
  - rewrite L'. auto.
  - unfold sh', piece_shape. rewrite nth_set_nth, Nat.eqb_refl, (proj2 (Nat.ltb_lt _ _) Hlt). auto.
  - exists (tensor_of sh' G), rs. split; auto. split; auto. destruct HP as [L HP]. rewrite map_length in L.
    apply nth_error_ext'. intro i. rewrite !nth_error_map. destruct (nth_error ps i) as [p|] eqn:Ep.
    + destruct (nth_error rs i) as [r|] eqn:Er; [|apply nth_error_None in Er; assert (i < length ps) by (apply nth_error_Some; congruence); lia].
      cbn [option_map]. f_equal. specialize (HP i r Er). rewrite (nth_map_fst _ _ _ Ep) in HP.
      assert (ES : piece_shape sh' d (fst p) = piece_shape sh d (fst p)).
      { unfold sh', piece_shape. destruct (list_split_at sh d Hlt) as (a & x & b & -> & <-). rewrite !set_nth_mid. auto. }
      rewrite ES in HP. destruct p as [l F]. cbn [fst snd] in *. destruct (holds_agree _ _ _ F HP (HG i l F Ep)) as [_ HC]. exact HC.
    + apply nth_error_None in Ep. rewrite (proj2 (nth_error_None _ _)) by lia. auto.
Qed.
Lemma vstack_correct {A} sh (ps : list (nat * (list nat -> A))) : ps <> [] -> 2 <= length sh ->
  exists G, vstack (map (fun p => tensor_of (piece_shape sh 0 (fst p)) (snd p)) ps) = Ok (tensor_of (piece_shape sh 0 (list_sum (map fst ps))) G)
  /\ forall i l F, nth_error ps i = Some (l, F) -> agree (piece_shape sh 0 l) (piece 0 (start_of (map fst ps) i) G) F.
Proof.
  intros Hne L. destruct (concat_parts sh ps 0 0 Hne) as (G & E & HG); [split; [lia|left; auto]|]. exists G. split; auto. rewrite <- E.
  destruct ps as [|p ps]; [congruence|]. unfold vstack. cbn [map tshape tensor_of]. unfold piece_shape at 1. rewrite set_nth_length.
  destruct (Nat.eqb_spec (length sh) 1); [lia|]. auto.
Qed.
Lemma hstack_correct {A} sh (ps : list (nat * (list nat -> A))) d : ps <> [] -> length sh = 1 /\ d = 0 \/ 2 <= length sh /\ d = 1 ->
  exists G, hstack (map (fun p => tensor_of (piece_shape sh d (fst p)) (snd p)) ps) = Ok (tensor_of (piece_shape sh d (list_sum (map fst ps))) G)
  /\ forall i l F, nth_error ps i = Some (l, F) -> agree (piece_shape sh d l) (piece d (start_of (map fst ps) i) G) F.
Proof.
  intros Hne L. destruct (concat_parts sh ps (Z.of_nat d) d Hne) as (G & E & HG); [split; [lia|left; auto]|]. exists G. split; auto. rewrite <- E.
  destruct ps as [|p ps]; [congruence|]. unfold hstack. cbn [map tshape tensor_of]. unfold piece_shape at 1. rewrite set_nth_length.
  destruct L as [[L ->]|[L ->]]; destruct (Nat.eqb_spec (length sh) 1); try lia; auto.
Qed.
Lemma vstack_vectors {A} n (Fs : list (list nat -> A)) : Fs <> [] ->
  exists G, vstack (map (tensor_of [n]) Fs) = Ok (tensor_of [length Fs; n] G)
  /\ forall i F, nth_error Fs i = Some F -> forall j, j < n -> G [i; j] = F [j].
Proof.
  intro Hne. destruct (stack_slices [n] Fs 0 0 Hne) as (G & E & HG); [split; [simpl; lia|left; auto]|]. exists G. split.
  - rewrite <- (E : _ = Ok (tensor_of [length Fs; n] G)). destruct Fs; [congruence|]. reflexivity.
  - intros i F Ei j Hj. apply (HG i F Ei [j]). constructor; auto.
Qed.
Lemma split_uneven {A} esz (s : sten A) sh F dim k n : holds s sh F -> dim_is (length sh) dim k ->
  (n <= 0)%Z \/ (Z.rem (Z.of_nat (nth k sh 0%nat)) n <> 0)%Z -> split esz s n dim = Fail.
Proof.
  intros H Hd Hn. unfold split. rewrite (holds_rank _ _ _ H). pose proof (holds_inv _ _ _ H) as (ES & _). rewrite ES.
  rewrite (proj1 (at_dim _ _ _ Hd)). destruct Hn as [Hn|Hn].
  - rewrite (proj2 (Z.leb_le _ _) Hn). auto.
  - rewrite (proj2 (Z.eqb_neq _ _) Hn). cbn [negb]. rewrite orb_true_r. auto.
Qed.
Lemma splitSections_bad {A} esz (s : sten A) sh F dim k secs : holds s sh F -> dim_is (length sh) dim k ->
  fold_right Z.add 0%Z secs <> Z.of_nat (nth k sh 0) -> splitSections esz s secs dim = Fail.
Proof.
  intros H Hd Hn. unfold splitSections. rewrite (holds_rank _ _ _ H). pose proof (holds_inv _ _ _ H) as (ES & _). rewrite ES.
  rewrite (proj1 (at_dim _ _ _ Hd)). rewrite fold_symmetric by (intros; lia). rewrite (proj2 (Z.eqb_neq _ _) Hn). auto.
Qed.
Lemma chunk_bad {A} esz (s : sten A) sh F dim n : holds s sh F -> (n <= 0)%Z \/ (forall k, ~ dim_is (length sh) dim k) -> chunk esz s n dim = Fail.
Proof.
  intros H Hn. unfold chunk. rewrite (holds_rank _ _ _ H). destruct (axis _ _) as [d|] eqn:E; auto. apply axis_some in E.
  destruct Hn as [Hn|Hn]; [rewrite (proj2 (Z.leb_le _ _) Hn); auto|destruct (Hn d E)].
Qed.
