(** Row normalisation. *)
From Coq Require Import ZArith List Bool Arith Lia Reals Lra.
From Verif Require Import ShapeModel ShapeSpec ShapeProofs TensorModel TensorSpec TensorLemmas BcastModel BufModel CutSpec ReduceModel ReduceSpec LineModel LineProofs SoftmaxModel SoftmaxProofs SoftmaxProofs2 NormModel NormSpec.
Import ListNotations.
Open Scope R_scope.
Local Notation Rsum := (sum (K := Rring)).

Lemma last_split (sh : list nat) : sh <> [] -> sh = removelast sh ++ [last sh 0%nat].
Proof. apply app_removelast_last. Qed.
Lemma last_nth (sh : list nat) : sh <> [] -> last sh 0%nat = nth (length sh - 1) sh 0%nat.
Proof.
  intro H. induction sh as [|x [|y r] IH]; [congruence|auto|]. change (last (x :: y :: r) 0%nat) with (last (y :: r) 0%nat). rewrite IH by discriminate.
  cbn [length]. replace (S (S (length r)) - 1)%nat with (S (S (length r) - 1)) by lia. auto.
Qed.
Lemma coord_last idx j : idx <> [] -> with_coord true (length idx - 1) idx j = removelast idx ++ [j].
Proof.
  intro H. rewrite with_coord_split by (destruct idx; [congruence|simpl; lia]).
  rewrite skipn_all2 by (destruct idx; [congruence|simpl; lia]). f_equal. rewrite removelast_firstn_len. f_equal. lia.
Qed.
Lemma valid_nonnil sh idx : sh <> [] -> valid sh idx -> idx <> [].
Proof. intros H V ->. apply valid_length in V. destruct sh; [congruence|discriminate]. Qed.
Lemma line_row (F : list nat -> R) sh idx n : sh <> [] -> valid sh idx -> line F true (length sh - 1) n idx = map F (row_of n idx).
Proof.
  intros H V. unfold line, row_of. rewrite map_map. apply map_ext. intro j. f_equal. rewrite <- (valid_length sh idx V). apply coord_last. eapply valid_nonnil; eauto.
Qed.
Lemma row_length n idx : length (row_of n idx) = n.
Proof. unfold row_of. rewrite map_length, seq_length. auto. Qed.
Lemma map_combine_seq {A B} (f : nat * A -> B) (g : nat -> A) n : map f (combine (seq 0 n) (map g (seq 0 n))) = map (fun j => f (j, g j)) (seq 0 n).
Proof. induction (seq 0 n) as [|x l IH]; simpl; auto. f_equal. auto. Qed.

Lemma normWith_ok row (g : list nat -> R -> R) sh F n : sh <> [] -> last sh 0%nat = n -> n <> 0%nat ->
  (forall idx, valid (set_nth sh (length sh - 1) 1%nat) idx ->
     row n (line F true (length sh - 1) n idx) = Some (map (fun j => g (with_coord true (length sh - 1) idx j) (F (with_coord true (length sh - 1) idx j))) (seq 0 n))) ->
  normWith row (tensor_of sh F) [n] = Ok (tensor_of sh (fun idx => g idx (F idx))).
Proof.
  intros Hs Hn Hz Hrow. unfold normWith. simpl tshape. destruct sh as [|s0 sh0] eqn:Esh; [congruence|]. rewrite <- Esh in *. clear Esh s0 sh0. rewrite Hn.
  destruct (Nat.eqb_spec n 0); [lia|]. rewrite Nat.eqb_refl. set (k := (length sh - 1)%nat) in *.
  assert (Hk : (k < length sh)%nat) by (unfold k; destruct sh; [congruence|simpl; lia]).
  assert (En : nth k sh 0%nat = n) by (rewrite <- Hn; symmetry; apply last_nth; auto).
  assert (Ei : innerSize sh k = 1%nat) by (unfold innerSize; rewrite skipn_all2 by lia; reflexivity).
  assert (Eo : (tnumel (tensor_of sh F) / n)%nat = outerSize sh k).
  { unfold tnumel, outerSize. simpl tshape. rewrite (split_at sh k Hk) at 1. rewrite numel_app, numel_cons, En.
    rewrite skipn_all2 by lia. change (numel []) with 1%nat. rewrite Nat.mul_1_r. apply Nat.div_mul. auto. }
  rewrite Eo.
  pose proof (lineKernel_ok 0 sh k n (fun o i => obind (readLine (tdata (tensor_of sh F)) n 1 o i) (row n))
    (fun idx => map (fun j => g (with_coord true k idx j) (F (with_coord true k idx j))) (seq 0 n)) Hk) as Q.
  assert (Es : set_nth sh k n = sh) by (rewrite <- En; apply set_nth_same). rewrite Ei, Es in Q. rewrite Q.
  - f_equal. apply tensor_of_ext. intros idx V. pose proof (coord_lt sh k idx V Hk) as Hc. rewrite En in Hc.
    rewrite (nth_indep _ 0 (g (with_coord true k idx 0) (F (with_coord true k idx 0)))) by (rewrite map_length, seq_length; auto).
    rewrite (map_nth (fun j => g (with_coord true k idx j) (F (with_coord true k idx j)))). rewrite seq_nth by auto. simpl plus. rewrite with_coord_self. auto.
  - intros idx j. apply map_ext. intro x. rewrite with_coord_twice. auto.
  - intros idx V. pose proof (readLine_ok sh k F idx 1 Hk V) as Rl. rewrite Ei, En in Rl. rewrite Rl. simpl. rewrite Hrow by auto. rewrite map_length, seq_length. auto.
Qed.
Lemma normWith_bad row sh F ns : sh <> [] -> last sh 0%nat <> 0%nat -> ns <> [last sh 0%nat] -> normWith row (tensor_of sh F) ns = Fail.
Proof.
  intros Hs Hz Hn. unfold normWith. simpl tshape. destruct sh as [|s0 sh0] eqn:Esh; [congruence|]. rewrite <- Esh in *. clear Esh s0 sh0.
  destruct (Nat.eqb_spec (last sh 0%nat) 0); [congruence|]. destruct ns as [|d [|]]; auto. destruct (Nat.eqb_spec d (last sh 0%nat)); auto. congruence.
Qed.
Lemma vector_rd n (w : option (list nat -> R)) j x : (j < n)%nat -> scaleBy (option_map tdata (vector_of n w)) j x = Some (scaled w j x).
Proof.
  intro Hj. destruct w as [w|]; auto. unfold vector_of; cbn [option_map]; unfold scaleBy, scaled.
  assert (V : valid [n] [j]) by (constructor; [auto|constructor]). pose proof (rd_of_idx [n] w [j] V) as Q.
  replace (ravel [n] [j]) with j in Q by (rewrite ravel_cons; simpl; change (numel []) with 1%nat; change (ravel [] []) with 0%nat; lia). rewrite Q. auto.
Qed.
Lemma vector_rd' n (w : option (list nat -> R)) j x : (j < n)%nat -> shiftBy (option_map tdata (vector_of n w)) j x = Some (shifted w j x).
Proof.
  intro Hj. destruct w as [w|]; auto. unfold vector_of; cbn [option_map]; unfold shiftBy, shifted.
  assert (V : valid [n] [j]) by (constructor; [auto|constructor]). pose proof (rd_of_idx [n] w [j] V) as Q.
  replace (ravel [n] [j]) with j in Q by (rewrite ravel_cons; simpl; change (numel []) with 1%nat; change (ravel [] []) with 0%nat; lia). rewrite Q. auto.
Qed.
Lemma last_app_one (a : list nat) j : last (a ++ [j]) 0%nat = j.
Proof. apply last_last. Qed.
Lemma row_twice n idx j : idx <> [] -> row_of n (removelast idx ++ [j]) = row_of n idx.
Proof. intro. unfold row_of. apply map_ext. intro. rewrite removelast_last. auto. Qed.
Lemma set_last_valid sh idx : sh <> [] -> valid (set_nth sh (length sh - 1) 1%nat) idx -> idx <> [] /\ length idx = length sh.
Proof. intros H V. apply valid_length in V. rewrite set_nth_length in V. split; auto. intros ->. destruct sh; [congruence|discriminate]. Qed.
Lemma line_row' (F : list nat -> R) idx k n : idx <> [] -> k = (length idx - 1)%nat -> line F true k n idx = map F (row_of n idx).
Proof. intros H ->. unfold line, row_of. rewrite map_map. apply map_ext. intro j. f_equal. apply coord_last; auto. Qed.

Lemma layerNorm_ok sh F w b eps n : sh <> [] -> last sh 0%nat = n -> n <> 0%nat ->
  layerNorm (tensor_of sh F) [n] (vector_of n w) (vector_of n b) eps
  = Ok (tensor_of sh (fun idx => let j := last idx 0%nat in
      shifted b j (scaled w j ((F idx - row_mean F n idx) / sqrt (row_var F n idx + eps))))).
Proof.
  intros Hs Hn Hz. unfold layerNorm.
  rewrite (normWith_ok _ (fun idx x => let j := last idx 0%nat in shifted b j (scaled w j ((x - row_mean F n idx) / sqrt (row_var F n idx + eps)))) sh F n); auto.
  intros idx V. destruct (set_last_valid sh idx Hs V) as [Hi Hl]. set (k := (length sh - 1)%nat).
  assert (Ek : k = (length idx - 1)%nat) by (unfold k; lia).
  unfold layerNormRow. rewrite (line_row' F idx k n Hi Ek).
  assert (Em : total (map F (row_of n idx)) / INR n = row_mean F n idx).
  { unfold row_mean, average. rewrite row_length, total_sum, sum_map. auto. }
  rewrite Em. rewrite (fold_plus (fun x => (x - row_mean F n idx) * (x - row_mean F n idx))). rewrite sum_map.
  assert (Ev : Rsum (fun i => (F i - row_mean F n idx) * (F i - row_mean F n idx)) (row_of n idx) / INR n = row_var F n idx).
  { unfold row_var, variance. rewrite row_length. auto. }
  rewrite Ev. unfold row_of at 1. rewrite map_map, map_combine_seq. rewrite (seqopt_map _ (fun j => 
     shifted b j (scaled w j ((F (removelast idx ++ [j]) - row_mean F n idx) / sqrt (row_var F n idx + eps))))).
  - f_equal. apply map_ext. intro j. rewrite Ek, coord_last by auto. cbv zeta. rewrite last_app_one. unfold row_mean, row_var. rewrite row_twice by auto. auto.
  - intros j Hj. apply in_seq in Hj. cbn [fst snd]. rewrite vector_rd by lia. simpl obind. rewrite vector_rd' by lia. f_equal. f_equal. f_equal. unfold Rdiv. rewrite Rmult_1_l. auto.
Qed.
Lemma rmsNorm_ok sh F w eps n : sh <> [] -> last sh 0%nat = n -> n <> 0%nat ->
  rmsNorm (tensor_of sh F) [n] (vector_of n w) eps
  = Ok (tensor_of sh (fun idx => scaled w (last idx 0%nat) (F idx / sqrt (row_mean_square F n idx + eps)))).
Proof.
  intros Hs Hn Hz. unfold rmsNorm.
  rewrite (normWith_ok _ (fun idx x => scaled w (last idx 0%nat) (x / sqrt (row_mean_square F n idx + eps))) sh F n); auto.
  intros idx V. destruct (set_last_valid sh idx Hs V) as [Hi Hl]. set (k := (length sh - 1)%nat).
  assert (Ek : k = (length idx - 1)%nat) by (unfold k; lia).
  unfold rmsNormRow. rewrite (line_row' F idx k n Hi Ek).
  rewrite (fold_plus (fun x => x * x)). rewrite sum_map.
  assert (Ev : Rsum (fun i => F i * F i) (row_of n idx) / INR n = row_mean_square F n idx).
  { unfold row_mean_square, average. rewrite row_length. auto. }
  rewrite Ev. unfold row_of at 1. rewrite map_map, map_combine_seq. rewrite (seqopt_map _ (fun j => 
     scaled w j (F (removelast idx ++ [j]) / sqrt (row_mean_square F n idx + eps)))).
  - f_equal. apply map_ext. intro j. rewrite Ek, coord_last by auto. rewrite last_app_one. unfold row_mean_square. rewrite row_twice by auto. auto.
  - intros j Hj. apply in_seq in Hj. cbn [fst snd]. rewrite vector_rd by lia. f_equal. f_equal. unfold Rdiv. rewrite Rmult_1_l. auto.
Qed.

(** * Statistics of the result *)
Section Stats.
  Context {I : Type}.
  Lemma Rsum_plus (f g : I -> R) l : Rsum (fun i => f i + g i) l = Rsum f l + Rsum g l.
  Proof. exact (sum_add (K := Rring) f g l). Qed.
  Lemma Rsum_const (c : R) (l : list I) : Rsum (fun _ => c) l = INR (length l) * c.
  Proof. induction l as [|x l IH]; [unfold sum; simpl; ring|]. rewrite sum_cons. cbn [length]. rewrite S_INR, IH. match goal with |- ?a = ?b => change (@eq R a b) end. change (@add Rring) with Rplus. ring. Qed.
  Lemma average_scal (c : R) f (l : list I) : average (fun i => c * f i) l = c * average f l.
  Proof. unfold average. rewrite Rsum_scal. unfold Rdiv. ring. Qed.
  Lemma average_ext f g (l : list I) : (forall i, In i l -> f i = g i) -> average f l = average g l.
  Proof. intro H. unfold average. rewrite (Rsum_ext f g); auto. Qed.
  Lemma average_centered f (l : list I) : l <> [] -> average (fun i => f i - average f l) l = 0.
  Proof.
    intro H. unfold average at 1. rewrite (Rsum_ext _ (fun i => f i + (- average f l))) by (intros; ring). rewrite Rsum_plus, Rsum_const. unfold average.
    assert (INR (length l) <> 0) by (apply not_0_INR; destruct l; [congruence|discriminate]). field. auto.
  Qed.
  Lemma Rsum_nonneg (f : I -> R) l : (forall i, In i l -> 0 <= f i) -> 0 <= Rsum f l.
  Proof.
    induction l as [|x l IH]; intro H; [right; reflexivity|]. rewrite sum_cons. change (@add Rring) with Rplus.
    pose proof (H x (or_introl eq_refl)). assert (0 <= Rsum f l) by (apply IH; intros; apply H; simpl; auto). lra.
  Qed.
  Lemma average_sq_nonneg (f : I -> R) l : l <> [] -> 0 <= average (fun i => f i * f i) l.
  Proof.
    intro H. unfold average. apply Rmult_le_pos.
    - apply Rsum_nonneg. intros. apply Rle_0_sqr.
    - apply Rlt_le, Rinv_0_lt_compat. apply lt_0_INR. destruct l; [congruence|simpl; lia].
  Qed.
  Lemma variance_average (f : I -> R) l : variance false f l = average (fun i => (f i - average f l) * (f i - average f l)) l.
  Proof. reflexivity. Qed.
  (** [y = (f - mean) / sqrt (var + eps)]. *)
  Lemma normalised_stats (f : I -> R) l eps : l <> [] -> 0 < eps ->
    let y := fun i => (f i - average f l) / sqrt (variance false f l + eps) in
    average y l = 0 /\ variance false y l = variance false f l / (variance false f l + eps).
  Proof.
    intros Hl He y. set (v := variance false f l).
    assert (Hv : 0 <= v) by (unfold v; rewrite variance_average; apply (average_sq_nonneg (fun i => f i - average f l)); auto).
    assert (Hs : 0 < sqrt (v + eps)) by (apply sqrt_lt_R0; lra).
    assert (Ey : average y l = 0).
    { rewrite (average_ext y (fun i => / sqrt (v + eps) * (f i - average f l))) by (intros; unfold y; fold v; field; lra).
      rewrite average_scal, average_centered by auto. ring. }
    split; auto. rewrite variance_average, Ey.
    rewrite (average_ext _ (fun i => / (v + eps) * ((f i - average f l) * (f i - average f l)))).
    - rewrite average_scal, <- variance_average. fold v. field. lra.
    - intros i _. unfold y. fold v. rewrite Rminus_0_r.
      replace (/ (v + eps)) with (/ (sqrt (v + eps) * sqrt (v + eps))) by (rewrite sqrt_sqrt; lra). field. lra.
  Qed.
  Lemma rms_stats (f : I -> R) l eps : l <> [] -> 0 < eps ->
    let m := average (fun i => f i * f i) l in
    let y := fun i => f i / sqrt (m + eps) in
    average (fun i => y i * y i) l = m / (m + eps).
  Proof.
    intros Hl He m y. assert (Hm : 0 <= m) by (apply average_sq_nonneg; auto).
    assert (Hs : 0 < sqrt (m + eps)) by (apply sqrt_lt_R0; lra).
    rewrite (average_ext _ (fun i => / (m + eps) * (f i * f i))).
    - rewrite average_scal. fold m. field. lra.
    - intros i _. unfold y. replace (/ (m + eps)) with (/ (sqrt (m + eps) * sqrt (m + eps))) by (rewrite sqrt_sqrt; lra). field. lra.
  Qed.
End Stats.
(** Along the row through a valid index the row statistics are the same. *)
Lemma row_in n idx i : idx <> [] -> In i (row_of n idx) -> row_of n i = row_of n idx.
Proof. intros H Hi. unfold row_of in Hi. apply in_map_iff in Hi. destruct Hi as (j & <- & _). apply row_twice. auto. Qed.
Lemma row_nonnil n idx : n <> 0%nat -> row_of n idx <> [].
Proof. intros H E. apply (f_equal (@length _)) in E. rewrite row_length in E. simpl in E. lia. Qed.
