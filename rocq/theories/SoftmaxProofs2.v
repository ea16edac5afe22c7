(** The backward rules of softmax and log-softmax are gradients. *)
From Coq Require Import ZArith List Bool Arith Lia Reals Lra Permutation FinFun.
From Verif Require Import ShapeModel ShapeSpec ShapeProofs TensorModel TensorSpec TensorLemmas BcastModel BufModel BufProofs CutSpec ReduceModel ReduceSpec LineModel LineProofs SoftmaxModel SoftmaxSpec SoftmaxProofs GradSpec GradProofs.
Import ListNotations.
Open Scope R_scope.
Local Notation Rsum := (sum (K := Rring)).

Lemma combine_line (Y H : list nat -> R) k n idx : combine (line Y true k n idx) (line H true k n idx) = line (fun i => (Y i, H i)) true k n idx.
Proof. unfold line. induction (seq 0 n) as [|j l IH]; simpl; auto. f_equal. auto. Qed.
Lemma softmaxBackWith_ok f (g : list (R * R) -> R * R -> R) sh Y H dim k : dim_is (length sh) dim k ->
  (forall idx, valid (set_nth sh k 1%nat) idx -> let l := line (fun i => (Y i, H i)) true k (nth k sh 0%nat) idx in f l = Some (map (g l) l)) ->
  softmaxBackWith f (tensor_of sh H) (tensor_of sh Y) dim = Ok (tensor_of sh (fun idx => g (line (fun i => (Y i, H i)) true k (nth k sh 0%nat) idx) (Y idx, H idx))).
Proof.
  intros [Hk Hd] Hf. unfold softmaxBackWith. simpl tshape. destruct (list_eq_dec Nat.eq_dec sh sh) as [_|N]; [|destruct (N eq_refl)].
  replace (axis (length sh) dim) with (Some k) by (symmetry; apply axis_some; auto).
  set (n := nth k sh 0%nat) in *. set (P := fun i => (Y i, H i)).
  pose proof (lineKernel_ok 0 sh k n (fun o i => obind (readLine (tdata (tensor_of sh Y)) n (innerSize sh k) o i) (fun ys =>
                    obind (readLine (tdata (tensor_of sh H)) n (innerSize sh k) o i) (fun gs => f (combine ys gs))))
    (fun idx => map (g (line P true k n idx)) (line P true k n idx)) Hk) as Q.
  replace (set_nth sh k n) with sh in Q by (symmetry; apply set_nth_same).
  rewrite Q.
  - f_equal. apply tensor_of_ext. intros idx V. rewrite nth_map_line by (apply coord_lt; auto). rewrite with_coord_self. auto.
  - intros idx j. rewrite line_twice. auto.
  - intros idx V. unfold n at 1 3. rewrite !(readLine_ok sh k _ idx 1) by auto. simpl. fold n. rewrite combine_line. rewrite (Hf idx V). split; auto.
    unfold P. rewrite map_length, line_length. auto.
Qed.
Lemma fold_plus {I} (f : I -> R) l : fold_left (fun s p => s + f p) l 0 = Rsum f l.
Proof.
  change (fold_left (fun acc i => add (c := Rring) acc (f i)) l (zero (c := Rring)) = Rsum f l).
  rewrite (fold_left_sum (K := Rring) f). apply (add_0_l Rring).
Qed.
Lemma softmaxBackward_ok sh Y H dim k : dim_is (length sh) dim k ->
  softmaxBackward (tensor_of sh H) (tensor_of sh Y) dim
  = Ok (tensor_of sh (fun idx => Y idx * (H idx - line_sum (fun i => Y i * H i) k (nth k sh 0%nat) idx))).
Proof.
  intro Hd. unfold softmaxBackward.
  rewrite (softmaxBackWith_ok _ (fun l p => fst p * (snd p - Rsum (fun p => fst p * snd p) l)) sh Y H dim k Hd).
  - f_equal. apply tensor_of_ext. intros idx V. simpl. f_equal. f_equal. unfold line, line_sum. rewrite sum_map. auto.
  - intros idx V l. unfold softmaxBackLine. rewrite fold_plus. auto.
Qed.
Lemma logSoftmaxBackward_ok M sh Y H dim k : dim_is (length sh) dim k -> (forall idx, valid sh idx -> Y idx <= M) ->
  logSoftmaxBackward M (tensor_of sh H) (tensor_of sh Y) dim
  = Ok (tensor_of sh (fun idx => H idx - exp (Y idx) * line_sum H k (nth k sh 0%nat) idx)).
Proof.
  intros Hd HY. unfold logSoftmaxBackward.
  rewrite (softmaxBackWith_ok _ (fun l p => snd p - exp (fst p) * Rsum snd l) sh Y H dim k Hd).
  - f_equal. apply tensor_of_ext. intros idx V. simpl. f_equal. f_equal. unfold line, line_sum. rewrite sum_map. auto.
  - intros idx V l. unfold logSoftmaxBackLine. rewrite fold_plus. apply seqopt_map. intros p Hp.
    unfold l, line in Hp. apply in_map_iff in Hp. destruct Hp as (j & <- & Hj). apply in_seq in Hj. cbn [fst snd].
    assert (Y (with_coord true k idx j) <= M) by (apply HY; eapply valid_at; [exact V|apply Hd|lia]).
    unfold expf. destruct (Rle_dec (Y (with_coord true k idx j)) M); [auto|lra].
Qed.
(** A sum over the line through [i], as a sum over all elements. *)
Definition on_line (k : nat) (i idx : list nat) : bool := idx_eqb (with_coord true k idx 0) (with_coord true k i 0).
Lemma on_line_coord k i j : on_line k i (with_coord true k i j) = true.
Proof. unfold on_line. apply idx_eqb_true. apply with_coord_twice. Qed.
Lemma on_line_eq k i idx : on_line k i idx = true -> idx = with_coord true k i (nth k idx 0%nat).
Proof.
  unfold on_line. intro E. apply idx_eqb_true in E. rewrite <- (with_coord_twice k i 0). rewrite <- E. rewrite with_coord_twice, with_coord_self. auto.
Qed.
Lemma sum_on_line sh k i (f : list nat -> R) : valid sh i -> (k < length sh)%nat ->
  Rsum (fun idx => if on_line k i idx then f idx else 0) (indices sh) = line_sum f k (nth k sh 0%nat) i.
Proof.
  intros V Hk. pose proof (valid_length _ _ V) as L.
  change 0 with (zero (c := Rring)). rewrite <- (sum_filter (K := Rring)). unfold line_sum. rewrite <- (sum_map (K := Rring) f (with_coord true k i)).
  apply (sum_perm (K := Rring)). apply NoDup_Permutation.
  - apply NoDup_filter, indices_nodup.
  - apply FinFun.Injective_map_NoDup; [|apply seq_NoDup]. intros x y E. rewrite <- (with_coord_nth k i x), <- (with_coord_nth k i y) by lia. congruence.
  - intro idx. rewrite filter_In, in_map_iff. split.
    + intros [Hi Ho]. apply indices_in in Hi. exists (nth k idx 0%nat). split; [symmetry; apply on_line_eq; auto|]. apply in_seq. pose proof (coord_lt sh k idx Hi Hk). lia.
    + intros (j & <- & Hj). apply in_seq in Hj. split; [|apply on_line_coord]. apply indices_in. apply valid_coord; auto. lia.
Qed.

(** * Derivatives *)
Section Deriv.
  Context (F : list nat -> R) (sh : list nat) (k : nat) (i : list nat) (Vi : valid sh i) (Hk : (k < length sh)%nat).
  Local Notation n := (nth k sh 0%nat).
  Local Notation S0 := (line_sum (fun j => exp (F j)) k n i).
  Lemma S0_pos : 0 < S0.
  Proof. apply line_sum_pos; auto. intro. apply exp_pos. Qed.
  Lemma put_d idx : derivable_pt_lim (fun x => put F i x idx) (F i) (if idx_eqb idx i then 1 else 0).
  Proof.
    destruct (idx_eqb idx i) eqn:E.
    - apply idx_eqb_true in E. subst. apply (dlim_ext _ (fun x => x)); [intro; apply put_same|apply dlim_id].
    - apply (dlim_ext _ (fun _ => F idx)); [intro; apply put_other|apply dlim_cst]. intros ->. assert (idx_eqb i i = true) by (apply idx_eqb_true; auto). congruence.
  Qed.
  Lemma put_id idx : put F i (F i) idx = F idx.
  Proof. unfold put. destruct (list_eq_dec Nat.eq_dec idx i); congruence. Qed.
  Lemma exp_d idx : derivable_pt_lim (fun x => exp (put F i x idx)) (F i) (if idx_eqb idx i then exp (F i) else 0).
  Proof.
    apply dlim_val with (exp (put F i (F i) idx) * (if idx_eqb idx i then 1 else 0)).
    - rewrite put_id. destruct (idx_eqb idx i) eqn:E; [apply idx_eqb_true in E; subst|]; ring.
    - apply (derivable_pt_lim_comp (fun x => put F i x idx) exp); [apply put_d|apply derivable_pt_lim_exp].
  Qed.
  Lemma line_delta (c : R) : line_sum (fun idx => if idx_eqb idx i then c else 0) k n i = c.
  Proof.
    rewrite <- (sum_on_line sh k i) by auto.
    rewrite (Rsum_ext _ (fun idx => if idx_eqb idx i then c else 0)).
    - change 0 with (zero (c := Rring)). rewrite (sum_single (K := Rring) idx_eqb idx_eqb_true (fun _ => c) i); auto; [apply indices_nodup|apply indices_in; auto].
    - intros idx _. destruct (on_line k i idx) eqn:E1; auto. destruct (idx_eqb idx i) eqn:E2; auto. apply idx_eqb_true in E2. subst.
      rewrite <- (with_coord_self k i) in E1 at 2. rewrite on_line_coord in E1. discriminate.
  Qed.
  Lemma sum_d idx : on_line k i idx = true ->
    derivable_pt_lim (fun x => line_sum (fun j => exp (put F i x j)) k n idx) (F i) (exp (F i)).
  Proof.
    intro E. apply on_line_eq in E. rewrite E. clear E.
    apply (dlim_ext _ (fun x => line_sum (fun j => exp (put F i x j)) k n i)); [intro; apply line_sum_coord|].
    apply dlim_val with (line_sum (fun idx => if idx_eqb idx i then exp (F i) else 0) k n i); [apply line_delta|].
    unfold line_sum. apply (dlim_sum (fun j x => exp (put F i x (with_coord true k i j))) (fun j => if idx_eqb (with_coord true k i j) i then exp (F i) else 0)).
    intros j _. apply exp_d.
  Qed.
  Lemma off_line idx x j : on_line k i idx = false -> put F i x (with_coord true k idx j) = F (with_coord true k idx j).
  Proof.
    intro E. apply put_other. intros E2. rewrite <- E2 in E. unfold on_line in E. rewrite with_coord_twice in E.
    assert (idx_eqb (with_coord true k idx 0) (with_coord true k idx 0) = true) by (apply idx_eqb_true; auto). congruence.
  Qed.
  Lemma off_sum idx x : on_line k i idx = false -> line_sum (fun j => exp (put F i x j)) k n idx = line_sum (fun j => exp (F j)) k n idx.
  Proof. intro E. apply Rsum_ext. intros j _. rewrite off_line; auto. Qed.
  Lemma off_at idx x : on_line k i idx = false -> put F i x idx = F idx.
  Proof. intro E. pose proof (off_line idx x (nth k idx 0%nat) E) as Q. rewrite with_coord_self in Q. auto. Qed.
  Lemma on_sum idx (G : list nat -> R) : on_line k i idx = true -> line_sum G k n idx = line_sum G k n i.
  Proof. intro E. apply on_line_eq in E. rewrite E. apply line_sum_coord. Qed.

  Lemma softmax_d idx : derivable_pt_lim (fun x => softmax_at (put F i x) k n idx) (F i)
    (if on_line k i idx then softmax_at F k n i * ((if idx_eqb idx i then 1 else 0) - softmax_at F k n idx) else 0).
  Proof.
    destruct (on_line k i idx) eqn:E.
    - apply dlim_val with (((if idx_eqb idx i then exp (F i) else 0) * line_sum (fun j => exp (put F i (F i) j)) k n idx
        - exp (F i) * exp (put F i (F i) idx)) / Rsqr (line_sum (fun j => exp (put F i (F i) j)) k n idx)).
      + assert (Q : line_sum (fun j => exp (put F i (F i) j)) k n idx = S0).
        { rewrite (on_sum idx _ E). apply Rsum_ext. intros j _. rewrite put_id. auto. }
        rewrite Q, put_id. unfold softmax_at. rewrite (on_sum idx _ E). pose proof S0_pos. unfold Rsqr. destruct (idx_eqb idx i); field; lra.
      + unfold softmax_at. apply (derivable_pt_lim_div (fun x => exp (put F i x idx)) (fun x => line_sum (fun j => exp (put F i x j)) k n idx)).
        * apply exp_d.
        * apply sum_d; auto.
        * rewrite (on_sum idx _ E). replace (line_sum (fun j => exp (put F i (F i) j)) k n i) with S0 by (apply Rsum_ext; intros; rewrite put_id; auto).
          pose proof S0_pos. lra.
    - apply (dlim_ext _ (fun _ => softmax_at F k n idx)); [|apply dlim_cst]. intro x. unfold softmax_at. rewrite off_sum, off_at by auto. auto.
  Qed.
  Lemma logsoftmax_d idx : valid sh idx -> derivable_pt_lim (fun x => ln (softmax_at (put F i x) k n idx)) (F i)
    (if on_line k i idx then (if idx_eqb idx i then 1 else 0) - softmax_at F k n i else 0).
  Proof.
    intro V. destruct (on_line k i idx) eqn:E.
    - apply dlim_val with (/ softmax_at (put F i (F i)) k n idx * (softmax_at F k n i * ((if idx_eqb idx i then 1 else 0) - softmax_at F k n idx))).
      + assert (Q : softmax_at (put F i (F i)) k n idx = softmax_at F k n idx).
        { unfold softmax_at. rewrite put_id. f_equal. apply Rsum_ext. intros j _. rewrite put_id. auto. }
        rewrite Q. pose proof (softmax_at_pos F sh k idx V Hk). destruct (idx_eqb idx i) eqn:E2.
        * apply idx_eqb_true in E2. subst. field. lra.
        * field. lra.
      + apply (derivable_pt_lim_comp (fun x => softmax_at (put F i x) k n idx) ln).
        * pose proof (softmax_d idx) as D. rewrite E in D. exact D.
        * apply derivable_pt_lim_ln. apply softmax_at_pos; auto.
    - apply (dlim_ext _ (fun _ => ln (softmax_at F k n idx))); [|apply dlim_cst]. intro x. unfold softmax_at. rewrite off_sum, off_at by auto. auto.
  Qed.
  (** Summed with weights. *)
  Lemma line_sum_plus (f g : list nat -> R) : line_sum (fun j => f j + g j) k n i = line_sum f k n i + line_sum g k n i.
  Proof. exact (sum_add (K := Rring) (fun j => f (with_coord true k i j)) (fun j => g (with_coord true k i j)) (seq 0 n)). Qed.
  Lemma line_sum_scal c (f : list nat -> R) : line_sum (fun j => c * f j) k n i = c * line_sum f k n i.
  Proof. exact (Rsum_scal c (fun j => f (with_coord true k i j)) (seq 0 n)). Qed.
  Lemma line_sum_ext (f g : list nat -> R) : (forall j, f j = g j) -> line_sum f k n i = line_sum g k n i.
  Proof. intro E. apply Rsum_ext. auto. Qed.
  Lemma line_delta_w (H : list nat -> R) : line_sum (fun idx => H idx * (if idx_eqb idx i then 1 else 0)) k n i = H i.
  Proof.
    rewrite <- (line_delta (H i)). apply line_sum_ext. intro idx. destruct (idx_eqb idx i) eqn:E; [apply idx_eqb_true in E; subst|]; ring.
  Qed.
  Lemma softmax_vjp (H : list nat -> R) :
    Rsum (fun idx => H idx * (if on_line k i idx then softmax_at F k n i * ((if idx_eqb idx i then 1 else 0) - softmax_at F k n idx) else 0)) (indices sh)
    = softmax_at F k n i * (H i - line_sum (fun j => softmax_at F k n j * H j) k n i).
  Proof.
    rewrite (Rsum_ext _ (fun idx => if on_line k i idx then H idx * (softmax_at F k n i * ((if idx_eqb idx i then 1 else 0) - softmax_at F k n idx)) else 0)).
    2:{ intros idx _. destruct (on_line k i idx); ring. }
    rewrite sum_on_line by auto. rewrite <- (line_delta_w H).
    rewrite (line_sum_ext _ (fun idx => softmax_at F k n i * (H idx * (if idx_eqb idx i then 1 else 0)) + (- softmax_at F k n i) * (softmax_at F k n idx * H idx))) by (intro; ring).
    rewrite line_sum_plus, !line_sum_scal. match goal with |- ?a = ?b => change (@eq R a b) end. ring.
  Qed.
  Lemma logsoftmax_vjp (H : list nat -> R) :
    Rsum (fun idx => H idx * (if on_line k i idx then (if idx_eqb idx i then 1 else 0) - softmax_at F k n i else 0)) (indices sh)
    = H i - softmax_at F k n i * line_sum H k n i.
  Proof.
    rewrite (Rsum_ext _ (fun idx => if on_line k i idx then H idx * ((if idx_eqb idx i then 1 else 0) - softmax_at F k n i) else 0)).
    2:{ intros idx _. destruct (on_line k i idx); ring. }
    rewrite sum_on_line by auto. rewrite <- (line_delta_w H).
    rewrite (line_sum_ext _ (fun idx => H idx * (if idx_eqb idx i then 1 else 0) + (- softmax_at F k n i) * H idx)) by (intro; ring).
    rewrite line_sum_plus, !line_sum_scal. match goal with |- ?a = ?b => change (@eq R a b) end. ring.
  Qed.
End Deriv.

Lemma softmax_grad lo M sh F H dim k : dim_is (length sh) dim k -> 0 <= M ->
  is_gradient (fun t => softmax lo M t dim) sh F (tensor_of sh H) (softmaxGrad lo M (tensor_of sh F) dim (tensor_of sh H)).
Proof.
  intros Hd HM. unfold softmaxGrad. rewrite (softmax_ok lo M sh F dim k Hd HM), (softmaxBackward_ok sh _ H dim k Hd).
  eexists _, _. split; [reflexivity|]. split; [reflexivity|]. split; [left; reflexivity|]. intros i Vi.
  apply (dlim_ext _ (fun x => Rsum (fun o => H o * softmax_at (put F i x) k (nth k sh 0%nat) o) (indices sh))).
  - intro x. rewrite (softmax_ok lo M sh _ dim k Hd HM). apply (weigh_of sh H).
  - rewrite <- (softmax_vjp F sh k i Vi (proj1 Hd) H).
    apply (dlim_sum (fun o x => H o * softmax_at (put F i x) k (nth k sh 0%nat) o)). intros o _. apply dlim_scal. apply softmax_d; auto. apply Hd.
Qed.
Lemma ln_softmax_le F sh k idx : valid sh idx -> (k < length sh)%nat -> ln (softmax_at F k (nth k sh 0%nat) idx) <= 0.
Proof.
  intros V Hk. pose proof (softmax_at_pos F sh k idx V Hk) as P. pose proof (softmax_at_sum F sh k idx V Hk) as Q.
  assert (softmax_at F k (nth k sh 0%nat) idx <= 1).
  { rewrite <- Q. unfold line_sum. rewrite <- (with_coord_self k idx) at 1.
    assert (Hin : In (nth k idx 0%nat) (seq 0 (nth k sh 0%nat))) by (apply in_seq; pose proof (coord_lt sh k idx V Hk); lia).
    assert (HP : forall j, In j (seq 0 (nth k sh 0%nat)) -> 0 <= softmax_at F k (nth k sh 0%nat) (with_coord true k idx j)).
    { intros j Hj. apply in_seq in Hj. apply Rlt_le, softmax_at_pos; auto. apply valid_coord; auto. lia. }
    revert Hin HP. generalize (nth k idx 0%nat). generalize (seq 0 (nth k sh 0%nat)). intros l j. induction l as [|x l IH]; intros Hin HP; [destruct Hin|].
    rewrite sum_cons. change (@add Rring) with Rplus. pose proof (HP x (or_introl eq_refl)) as Px.
    assert (0 <= Rsum (fun j => softmax_at F k (nth k sh 0%nat) (with_coord true k idx j)) l).
    { clear -HP. induction l as [|y l IH]; [right; reflexivity|]. rewrite sum_cons. change (@add Rring) with Rplus.
      pose proof (HP y (or_intror (or_introl eq_refl))).
      assert (0 <= Rsum (fun j => softmax_at F k (nth k sh 0%nat) (with_coord true k idx j)) l) by (apply IH; intros j [->|Hj]; apply HP; simpl; auto). lra. }
    destruct Hin as [->|Hin]; [lra|]. assert (softmax_at F k (nth k sh 0%nat) (with_coord true k idx j) <= Rsum (fun j => softmax_at F k (nth k sh 0%nat) (with_coord true k idx j)) l) by (apply IH; auto; intros; apply HP; simpl; auto). lra. }
  rewrite <- ln_1. destruct (Rle_lt_or_eq_dec _ _ H) as [L|E]; [apply Rlt_le, ln_increasing; auto|rewrite E; lra].
Qed.
Lemma logSoftmax_grad lo M sh F H dim k : dim_is (length sh) dim k -> 0 <= M ->
  is_gradient (fun t => logSoftmax lo M t dim) sh F (tensor_of sh H) (logSoftmaxGrad lo M (tensor_of sh F) dim (tensor_of sh H)).
Proof.
  intros Hd HM. unfold logSoftmaxGrad. rewrite (logSoftmax_ok lo M sh F dim k Hd HM), (logSoftmaxBackward_ok M sh _ H dim k Hd).
  2:{ intros idx V. pose proof (ln_softmax_le F sh k idx V (proj1 Hd)). lra. }
  eexists _, _. split; [reflexivity|]. split; [reflexivity|]. split; [left; reflexivity|]. intros i Vi.
  apply (dlim_ext _ (fun x => Rsum (fun o => H o * ln (softmax_at (put F i x) k (nth k sh 0%nat) o)) (indices sh))).
  - intro x. rewrite (logSoftmax_ok lo M sh _ dim k Hd HM). apply (weigh_of sh H).
  - rewrite exp_ln by (apply softmax_at_pos; auto; apply Hd). rewrite <- (logsoftmax_vjp F sh k i Vi (proj1 Hd) H).
    apply (dlim_sum (fun o x => H o * ln (softmax_at (put F i x) k (nth k sh 0%nat) o))). intros o Ho. apply indices_in in Ho. apply dlim_scal. apply logsoftmax_d; auto. apply Hd.
Qed.
Lemma softmaxBack_bad M sh1 sh2 Y H dim : (sh1 <> sh2 \/ forall k, ~ dim_is (length sh2) dim k) ->
  softmaxBackward (tensor_of sh1 H) (tensor_of sh2 Y) dim = Fail /\ logSoftmaxBackward M (tensor_of sh1 H) (tensor_of sh2 Y) dim = Fail.
Proof.
  intro D. unfold softmaxBackward, logSoftmaxBackward, softmaxBackWith. simpl tshape. destruct (list_eq_dec Nat.eq_dec sh2 sh1) as [->|]; auto.
  destruct D as [D|D]; [congruence|]. destruct (axis (length sh1) dim) as [k|] eqn:E; auto. apply axis_some in E. destruct (D k). exact E.
Qed.
(** The exponentials of a line include 1, so their sum neither vanishes nor
    exceeds the number of elements. *)
Lemma total_range (es : list R) : (forall e, In e es -> 0 < e <= 1) -> 0 <= total es <= INR (length es) /\ forall e, In e es -> e <= total es.
Proof.
  rewrite total_sum. induction es as [|x es IH]; intro H.
  - simpl. change (Rsum (fun x => x) []) with 0. split; [lra|intros ? []].
  - cbn [length]. rewrite sum_cons, S_INR. change (@add Rring) with Rplus. destruct IH as [[A C] D]; [intros; apply H; simpl; auto|].
    pose proof (H x (or_introl eq_refl)). split; [lra|]. intros e [->|He]; [lra|]. pose proof (D e He). lra.
Qed.
Lemma expLine_range lo M l : 0 <= M -> (forall v, In v l -> lo <= v) -> l <> [] ->
  exists es, expLine M (scanMax lo l) l = Some es /\ (forall e, In e es -> 0 < e <= 1) /\ 1 <= total es <= INR (length l).
Proof.
  intros HM Hlo Hl. rewrite expLine_ok; [|auto|apply scanMax_ge]. eexists. split; [reflexivity|].
  assert (P : forall e, In e (map (fun v => exp (v - scanMax lo l)) l) -> 0 < e <= 1).
  { intros e He. apply in_map_iff in He. destruct He as (v & <- & Hv). split; [apply exp_pos|].
    pose proof (proj2 (scanMax_ge l lo) v Hv). rewrite <- exp_0. destruct (Rle_lt_or_eq_dec (v - scanMax lo l) 0) as [L|E]; [lra| |].
    - apply Rlt_le, exp_increasing; auto.
    - rewrite E. lra. }
  split; auto. destruct (total_range _ P) as [[_ A] D]. rewrite map_length in A. split; auto.
  apply D. apply in_map_iff. exists (scanMax lo l). split; [rewrite Rminus_diag_eq; [apply exp_0|auto]|].
  destruct (scanMax_in l lo) as [E|E]; auto. destruct l as [|x l]; [congruence|].
  pose proof (Hlo x (or_introl eq_refl)). pose proof (proj2 (scanMax_ge (x :: l) lo) x (or_introl eq_refl)). 
  replace (scanMax lo (x :: l)) with x by lra. left; auto.
Qed.
