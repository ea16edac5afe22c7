(** Values of softmax and log-softmax. *)
From Coq Require Import ZArith List Bool Arith Lia Reals Lra.
From Verif Require Import ShapeModel ShapeSpec ShapeProofs TensorModel TensorSpec TensorLemmas BcastModel BufModel BufProofs CutSpec ReduceModel ReduceSpec LineModel LineProofs SoftmaxModel SoftmaxSpec.
Import ListNotations.
Open Scope R_scope.
Local Notation Rsum := (sum (K := Rring)).

Lemma scanMax_ge l : forall m, m <= scanMax m l /\ forall v, In v l -> v <= scanMax m l.
Proof.
  induction l as [|x l IH]; intro m; simpl; [split; [lra|intros ? []]|]. unfold scanMax in *. simpl.
  destruct (Rlt_dec m x) as [H|H]; [destruct (IH x) as [A C]|destruct (IH m) as [A C]]; (split; [lra|]); intros v [->|Hv]; auto; lra.
Qed.
Lemma scanMax_in l : forall m, scanMax m l = m \/ In (scanMax m l) l.
Proof.
  induction l as [|x l IH]; intro m; simpl; auto. unfold scanMax in *. simpl.
  destruct (Rlt_dec m x) as [H|H]; [destruct (IH x) as [A|A]|destruct (IH m) as [A|A]]; rewrite ?A; auto.
Qed.
Lemma expLine_ok M mx l : 0 <= M -> (forall v, In v l -> v <= mx) -> expLine M mx l = Some (map (fun v => exp (v - mx)) l).
Proof.
  intros HM H. apply seqopt_map. intros v Hv. unfold expf. specialize (H v Hv). destruct (Rle_dec (v - mx) M); auto. lra.
Qed.
Lemma total_sum (l : list R) : total l = Rsum (fun x => x) l.
Proof.
  unfold total. change (fold_left Rplus l 0) with (fold_left (fun acc (i : R) => add (c := Rring) acc i) l (zero (c := Rring))).
  rewrite (fold_left_sum (K := Rring) (fun x : R => x)). apply (add_0_l Rring).
Qed.
Lemma Rsum_pos {I} (f : I -> R) l : l <> [] -> (forall i, In i l -> 0 < f i) -> 0 < Rsum f l.
Proof.
  induction l as [|x l IH]; intros Hn H; [congruence|]. rewrite sum_cons. change (@add Rring) with Rplus.
  pose proof (H x (or_introl eq_refl)). destruct l as [|y l]; [change (Rsum f []) with 0; lra|].
  assert (0 < Rsum f (y :: l)) by (apply IH; [discriminate|intros; apply H; simpl; auto]). lra.
Qed.
Lemma Rsum_ext {I} (f g : I -> R) l : (forall i, In i l -> f i = g i) -> Rsum f l = Rsum g l.
Proof. exact (sum_ext (K := Rring) f g l). Qed.
Lemma Rsum_scal {I} c (f : I -> R) l : Rsum (fun i => c * f i) l = c * Rsum f l.
Proof. exact (sum_mul_l (K := Rring) c f l). Qed.
Lemma Rsum_scal_r {I} c (f : I -> R) l : Rsum (fun i => f i * c) l = Rsum f l * c.
Proof. exact (sum_mul_r (K := Rring) c f l). Qed.

(** One line. *)
Lemma softmaxLine_ok lo M l : 0 <= M ->
  softmaxLine lo M l = Some (map (fun v => exp v / Rsum exp l) l).
Proof.
  intros HM. unfold softmaxLine. rewrite expLine_ok; [|auto|apply scanMax_ge]. simpl. f_equal.
  rewrite map_map. apply map_ext_in. intros v Hv. rewrite total_sum, sum_map. set (mx := scanMax lo l).
  rewrite (Rsum_ext _ (fun v => exp (- mx) * exp v)).
  2:{ intros w _. unfold Rminus. rewrite exp_plus. ring. }
  rewrite Rsum_scal. unfold Rminus. rewrite exp_plus.
  assert (0 < Rsum exp l) by (apply Rsum_pos; [intros ->; destruct Hv|intros; apply exp_pos]).
  pose proof (exp_pos (- mx)). field. split; lra.
Qed.
Lemma logSoftmaxLine_ok lo M l : 0 <= M ->
  logSoftmaxLine lo M l = Some (map (fun v => ln (exp v / Rsum exp l)) l).
Proof.
  intros HM. unfold logSoftmaxLine. rewrite expLine_ok; [|auto|apply scanMax_ge]. simpl. f_equal.
  apply map_ext_in. intros v Hv. rewrite total_sum, sum_map. set (mx := scanMax lo l).
  rewrite (Rsum_ext _ (fun v => exp (- mx) * exp v)).
  2:{ intros w _. unfold Rminus. rewrite exp_plus. ring. }
  rewrite Rsum_scal. assert (HS : 0 < Rsum exp l) by (apply Rsum_pos; [intros ->; destruct Hv|intros; apply exp_pos]).
  rewrite ln_mult; [|apply exp_pos|auto]. rewrite ln_exp.
  unfold Rdiv. rewrite ln_mult; [|apply exp_pos|apply Rinv_0_lt_compat; auto]. rewrite ln_exp, ln_Rinv by auto. lra.
Qed.

(** The whole tensor. *)
Lemma with_coord_self k idx : with_coord true k idx (nth k idx 0%nat) = idx.
Proof. unfold with_coord. revert k. induction idx as [|x l IH]; intros [|k]; simpl; auto. f_equal. apply IH. Qed.
Lemma with_coord_twice k idx i j : with_coord true k (with_coord true k idx i) j = with_coord true k idx j.
Proof. unfold with_coord. revert k. induction idx as [|x l IH]; intros [|k]; simpl; auto. f_equal. apply IH. Qed.
Lemma with_coord_nth k idx j : (k < length idx)%nat -> nth k (with_coord true k idx j) 0%nat = j.
Proof. unfold with_coord. revert k. induction idx as [|x l IH]; intros [|k] H; simpl in *; auto; try lia. apply IH. lia. Qed.
Lemma with_coord_length k idx j : length (with_coord true k idx j) = length idx.
Proof. apply set_nth_length. Qed.
Lemma set_nth_same {A} (l : list A) k (d : A) : set_nth l k (nth k l d) = l.
Proof. revert k. induction l as [|x l IH]; intros [|k]; simpl; auto. f_equal. apply IH. Qed.
Lemma line_twice {A} (F : list nat -> A) k n idx j : line F true k n (with_coord true k idx j) = line F true k n idx.
Proof. unfold line. apply map_ext. intro i. rewrite with_coord_twice. auto. Qed.
Lemma line_length {A} (F : list nat -> A) k n idx : length (line F true k n idx) = n.
Proof. unfold line. rewrite map_length, seq_length. auto. Qed.
Lemma valid_coord sh k idx j : valid sh idx -> (k < length sh)%nat -> (j < nth k sh 0)%nat -> valid sh (with_coord true k idx j).
Proof. intros V Hk Hj. apply (valid_at sh k idx j (nth k sh 0%nat)); auto. rewrite set_nth_same. auto. Qed.
Lemma coord_lt sh k idx : valid sh idx -> (k < length sh)%nat -> (nth k idx 0 < nth k sh 0)%nat.
Proof.
  intros V. revert k. induction V as [|i d idx sh H V IH]; intros [|k] Hk; simpl in *; try lia; auto. apply IH. lia.
Qed.
Lemma nth_map_line {A C} (F : list nat -> A) (f : A -> C) k n idx j d : (j < n)%nat -> nth j (map f (line F true k n idx)) d = f (F (with_coord true k idx j)).
Proof.
  intro Hj. unfold line. rewrite map_map. rewrite (nth_indep _ d (f (F (with_coord true k idx 0)))) by (rewrite map_length, seq_length; auto).
  rewrite (map_nth (fun j => f (F (with_coord true k idx j)))). rewrite seq_nth; auto.
Qed.
Lemma softmaxWith_ok {A B} (d : B) (f : list A -> option (list B)) (g : list A -> A -> B) sh F dim k : dim_is (length sh) dim k ->
  (forall idx, valid (set_nth sh k 1%nat) idx -> f (line F true k (nth k sh 0%nat) idx) = Some (map (g (line F true k (nth k sh 0%nat) idx)) (line F true k (nth k sh 0%nat) idx))) ->
  softmaxWith f (tensor_of sh F) dim = Ok (tensor_of sh (fun idx => g (line F true k (nth k sh 0%nat) idx) (F idx))).
Proof.
  intros [Hk Hd] Hf. unfold softmaxWith. simpl tshape. replace (axis (length sh) dim) with (Some k) by (symmetry; apply axis_some; auto).
  set (n := nth k sh 0%nat) in *.
  pose proof (lineKernel_ok d sh k n (fun o i => obind (readLine (tdata (tensor_of sh F)) n (innerSize sh k) o i) f)
    (fun idx => map (g (line F true k n idx)) (line F true k n idx)) Hk) as Q.
  replace (set_nth sh k n) with sh in Q by (symmetry; apply set_nth_same).
  rewrite Q.
  - f_equal. apply tensor_of_ext. intros idx V. rewrite nth_map_line by (apply coord_lt; auto). rewrite with_coord_self. auto.
  - intros idx j. rewrite line_twice. auto.
  - intros idx V. unfold n at 1. rewrite (readLine_ok sh k F idx 1) by auto. simpl. fold n. rewrite Hf by auto. split; auto.
    rewrite map_length, line_length. auto.
Qed.
Lemma line_exp (F : list nat -> R) k n idx : Rsum exp (line F true k n idx) = line_sum (fun i => exp (F i)) k n idx.
Proof. unfold line, line_sum. rewrite sum_map. auto. Qed.
Lemma softmax_ok lo M sh F dim k : dim_is (length sh) dim k -> 0 <= M ->
  softmax lo M (tensor_of sh F) dim = Ok (tensor_of sh (softmax_at F k (nth k sh 0%nat))).
Proof.
  intros Hd HM. unfold softmax. rewrite (softmaxWith_ok 0 _ (fun l v => exp v / Rsum exp l) sh F dim k Hd).
  - f_equal. apply tensor_of_ext. intros idx V. unfold softmax_at. rewrite line_exp. auto.
  - intros idx V. apply softmaxLine_ok; auto.
Qed.
Lemma logSoftmax_ok lo M sh F dim k : dim_is (length sh) dim k -> 0 <= M ->
  logSoftmax lo M (tensor_of sh F) dim = Ok (tensor_of sh (fun idx => ln (softmax_at F k (nth k sh 0%nat) idx))).
Proof.
  intros Hd HM. unfold logSoftmax. rewrite (softmaxWith_ok 0 _ (fun l v => ln (exp v / Rsum exp l)) sh F dim k Hd).
  - f_equal. apply tensor_of_ext. intros idx V. unfold softmax_at. rewrite line_exp. auto.
  - intros idx V. apply logSoftmaxLine_ok; auto.
Qed.
Lemma softmax_bad lo M sh F dim : (forall k, ~ dim_is (length sh) dim k) ->
  softmax lo M (tensor_of sh F) dim = Fail /\ logSoftmax lo M (tensor_of sh F) dim = Fail.
Proof.
  intro H. unfold softmax, logSoftmax, softmaxWith. simpl tshape. destruct (axis (length sh) dim) as [k|] eqn:E; auto.
  apply axis_some in E. destruct (H k). exact E.
Qed.

(** Consequences. *)
Lemma line_sum_pos (G : list nat -> R) sh k idx : (forall i, 0 < G i) -> valid sh idx -> (k < length sh)%nat -> 0 < line_sum G k (nth k sh 0%nat) idx.
Proof.
  intros HG V Hk. apply Rsum_pos; auto. pose proof (coord_lt sh k idx V Hk). destruct (nth k sh 0%nat); [lia|]. discriminate.
Qed.
Lemma line_sum_coord G k n idx j : line_sum G k n (with_coord true k idx j) = line_sum G k n idx.
Proof. unfold line_sum. apply Rsum_ext. intros i _. rewrite with_coord_twice. auto. Qed.
Lemma softmax_at_pos F sh k idx : valid sh idx -> (k < length sh)%nat -> 0 < softmax_at F k (nth k sh 0%nat) idx.
Proof.
  intros V Hk. unfold softmax_at. apply Rdiv_lt_0_compat; [apply exp_pos|]. apply line_sum_pos; auto. intro. apply exp_pos.
Qed.
Lemma softmax_at_sum F sh k idx : valid sh idx -> (k < length sh)%nat -> line_sum (softmax_at F k (nth k sh 0%nat)) k (nth k sh 0%nat) idx = 1.
Proof.
  intros V Hk. set (n := nth k sh 0%nat). set (S0 := line_sum (fun i => exp (F i)) k n idx).
  assert (0 < S0) by (apply line_sum_pos; auto; intro; apply exp_pos).
  unfold line_sum. rewrite (Rsum_ext _ (fun j => exp (F (with_coord true k idx j)) * / S0)).
  - rewrite Rsum_scal_r. fold (line_sum (fun i => exp (F i)) k n idx). fold S0. field. lra.
  - intros j _. unfold softmax_at. rewrite line_sum_coord. auto.
Qed.
Lemma softmax_at_shift F c k n idx : constant_along k c -> softmax_at (fun i => F i + c i) k n idx = softmax_at F k n idx.
Proof.
  intro Hc. unfold softmax_at. unfold line_sum. rewrite (Rsum_ext _ (fun j => exp (F (with_coord true k idx j)) * exp (c idx))).
  - rewrite Rsum_scal_r. rewrite exp_plus. set (Sx := Rsum _ _). destruct (Req_dec Sx 0) as [->|Hn].
    + rewrite Rmult_0_l. unfold Rdiv. rewrite Rinv_0. ring.
    + pose proof (exp_pos (c idx)). field. lra.
  - intros j _. rewrite exp_plus, Hc. auto.
Qed.
Lemma softmax_at_order F sh k idx j : valid sh idx -> (k < length sh)%nat -> 
  let idx' := with_coord true k idx j in
  softmax_at F k (nth k sh 0%nat) idx < softmax_at F k (nth k sh 0%nat) idx' <-> F idx < F idx'.
Proof.
  intros V Hk idx'. unfold softmax_at. unfold idx'. rewrite line_sum_coord. set (Sx := line_sum _ _ _ _).
  assert (0 < / Sx) by (apply Rinv_0_lt_compat, line_sum_pos; auto; intro; apply exp_pos).
  unfold Rdiv. split; intro H1.
  - apply Rmult_lt_reg_r in H1; auto. apply exp_lt_inv; auto.
  - apply Rmult_lt_compat_r; auto. apply exp_increasing; auto.
Qed.
