(** The functions of one tensor satisfy their law. *)
From Coq Require Import ZArith List Bool Arith Lia Reals Lra.
From Verif Require Import ShapeModel ShapeSpec ShapeProofs TensorModel TensorSpec TensorLemmas BcastModel BcastSpec BcastProofs BcastProofs2 BufModel CutModel CutSpec ReduceModel ReduceSpec ReduceProofs PermProofs2
  LinalgModel LinalgSpec LinalgProofs LinalgProofs2 LinalgProofs4 GradModel GradSpec GradProofs GradProofs2 LineModel LineProofs SoftmaxModel SoftmaxSpec SoftmaxProofs SoftmaxProofs2 DropModel DropProofs NetModel NetSpec NetProofs NetLaw.
Import ListNotations.
Local Notation Rsum := (sum (K := Rring)).
Local Open Scope R_scope.

Lemma law_sin : forall lo M sh r, law lo M OSin [(sh, r)] sh.
Proof.
  intros. apply (law_elem lo M OSin sh r (fun _ => opSin) (fun _ x => cos x)).
  - intros F. apply unaryR_of.
  - intros F G Y. cbn [backRule inp nth]. unfold sinBackward. rewrite unaryBackward_of. f_equal. apply tensor_of_ext. intros o _. unfold opSinBackwardP1. ring.
  - intros ins out H. discriminate H.
  - intros. apply d_sin.
Qed.
Lemma law_cos : forall lo M sh r, law lo M OCos [(sh, r)] sh.
Proof.
  intros. apply (law_elem lo M OCos sh r (fun _ => opCos) (fun _ x => - sin x)).
  - intros F. apply unaryR_of.
  - intros F G Y. cbn [backRule inp nth]. unfold cosBackward. rewrite unaryBackward_of. f_equal. apply tensor_of_ext. intros o _. unfold opCosBackwardP1. ring.
  - intros ins out H. discriminate H.
  - intros. apply d_cos.
Qed.
Lemma law_relu : forall lo M sh r, positive sh -> law lo M ORelu [(sh, r)] sh.
Proof.
  intros lo M sh r P. apply (law_elem lo M ORelu sh r (fun _ x => opClampMin x 0) (fun _ x => if Rlt_dec x 0 then 0 else 1)).
  - intros F. apply relu_forward_of. auto.
  - intros F G Y. cbn [backRule inp nth]. rewrite relu_backward_of by auto. f_equal. apply tensor_of_ext. intros o _. destruct (Rlt_dec (F o) 0); ring.
  - intros ins out H. discriminate H.
  - intros X o HX V. apply d_relu. apply HX. auto.
Qed.
Lemma law_dropout : forall lo M sh r p draws, positive sh -> length draws = numel sh -> law lo M (ODropout p true draws) [(sh, r)] sh.
Proof.
  intros lo M sh r p draws P HL. apply (law_elem lo M _ sh r (fun o x => if nth (ravel sh o) draws false then x / (1 - p) else 0) (fun o _ => if nth (ravel sh o) draws false then / (1 - p) else 0)).
  - intros F. cbn [forward]. unfold dropoutForward. cbn [negb]. change (tshape (tensor_of sh F)) with sh. rewrite masked_draws by auto. reflexivity.
  - intros F G Y. cbn [backRule inp nth]. unfold dropoutForward. cbn [negb]. change (tshape (tensor_of sh F)) with sh. rewrite masked_draws by auto. cbn [rbind snd app dropoutBackward negb].
    rewrite masked_draws by auto. cbn [rbind fst]. f_equal. apply tensor_of_ext. intros o _. destruct (nth _ _ _); unfold Rdiv; ring.
  - intros ins out H. discriminate H.
  - intros X o _ V. destruct (nth (ravel sh o) draws false); [|apply dlim_cst]. apply (dlim_ext _ (fun x => / (1 - p) * x)); [intros; unfold Rdiv; ring|].
    eapply dlim_val; [|apply dlim_scal, dlim_id]. ring.
Qed.
Lemma law_no_dropout : forall lo M sh r p draws, law lo M (ODropout p false draws) [(sh, r)] sh.
Proof.
  intros lo M sh r p draws. apply (law_elem lo M _ sh r (fun _ x => x) (fun _ _ => 1)).
  - intros F. reflexivity.
  - intros F G Y. cbn [backRule inp nth]. unfold dropoutForward. cbn [negb rbind snd dropoutBackward fst]. f_equal. apply tensor_of_ext. intros o _. ring.
  - auto.
  - intros. apply dlim_id.
Qed.

(** * Functions of one tensor *)
Lemma law_one : forall lo M op sh osh r (value : tens -> tens) (dot : tens -> tens -> tens) (back : tens -> tens -> tens), (forall G, first op G) ->
  (forall F, forward lo M op [tensor_of sh F] = Ok (tensor_of osh (value F))) ->
  (forall F G, backRule M op [tensor_of sh F] (tensor_of osh (value F)) 0 (tensor_of osh G) = Ok (tensor_of sh (back F G))) ->
  (forall ins out, passesGrad op ins out 0 = false) ->
  (forall F G D, Rsum (fun o => G o * dot F D o) (indices osh) = Rsum (fun i => back F G i * D i) (indices sh)) ->
  (forall (C : R -> tens) x0 D, (forall i, valid sh i -> derivable_pt_lim (fun x => C x i) x0 (D i)) -> forall o, valid osh o -> derivable_pt_lim (fun x => value (C x) o) x0 (dot (C x0) D o)) ->
  law lo M op [(sh, r)] osh.
Proof.
  intros lo M op sh osh r value dot back H1 HF HB HP HI HD. exists (fun X => value (X 0%nat)), (fun X D => dot (X 0%nat) (D 0%nat)), (fun X G _ => back (X 0%nat) G). split; [|split].
  - intros X. apply HF.
  - intros X _. split.
    + intros [|[|k]] kd G E _ _; try discriminate. injection E as <-. apply HB.
    + intros [|[|k]] kd E _ Hp; try discriminate. rewrite HP in Hp. discriminate.
    + intros G D. unfold pairs. cbn [length seq combine fst snd]. rewrite (sum_cons (K := Rring)), (sum_nil (K := Rring)). cbn [fst snd]. rewrite HI. rg.
  - intros C x0 D _ HC o V. apply (HD (fun x => C x 0%nat)); auto. intros i Vi. apply (HC 0%nat (sh, r)); auto.
Qed.
Lemma law_sum : forall lo M sh r, positive sh -> law lo M OSum [(sh, r)] [].
Proof.
  intros lo M sh r P. apply (law_one lo M OSum sh [] r (fun F _ => Rsum F (indices sh)) (fun _ D _ => Rsum D (indices sh)) (fun _ G _ => G [])).
  - intros; exact I.
  - intros F. apply (sumAll_correct (K := Rring)).
  - intros F G. cbn [backRule inp nth]. rewrite <- (sum_backward_of sh F (G [])) by auto. reflexivity.
  - auto.
  - intros F G D. cbn [indices]. rewrite (sum_cons (K := Rring)), (sum_nil (K := Rring)). rewrite (sum_mul_l (K := Rring)). rg.
  - intros C x0 D HC o _. apply (dlim_sum (fun i x => C x i) D). intros i Hi. apply HC. apply indices_in. auto.
Qed.
Lemma sum_reindex : forall sh rsh (f : tens), numel rsh = numel sh -> Rsum (fun o => f (revidx sh rsh o)) (indices rsh) = Rsum f (indices sh).
Proof.
  intros sh rsh f E. rewrite <- (indices_seq rsh), <- (indices_seq sh), !(sum_map (K := Rring)), E. apply (sum_ext (K := Rring)). intros n Hn. apply in_seq in Hn. unfold revidx. rewrite ravel_o2i by lia. auto.
Qed.
Lemma revidx_back : forall sh rsh i, numel rsh = numel sh -> valid sh i -> revidx sh rsh (revidx rsh sh i) = i.
Proof. intros sh rsh i E V. unfold revidx. pose proof (ravel_lt _ _ V). rewrite ravel_o2i by lia. apply o2i_ravel. auto. Qed.
Lemma law_reshape : forall lo M sh sh' r, numel sh' = numel sh -> law lo M (OReshape sh') [(sh, r)] sh'.
Proof.
  intros lo M sh sh' r E. apply (law_one lo M _ sh sh' r (fun F o => F (revidx sh sh' o)) (fun _ D o => D (revidx sh sh' o)) (fun _ G i => G (revidx sh' sh i))).
  - intros; exact I.
  - intros F. cbn [forward]. f_equal. rewrite viewAs_data by (auto using of_wf). apply reshape_of. auto.
  - intros F G. cbn [backRule inp nth]. f_equal. change (tshape (tensor_of sh F)) with sh. rewrite viewAs_data; [|apply of_wf|symmetry; exact E]. apply reshape_of. auto.
  - auto.
  - intros F G D. rewrite <- (sum_reindex sh sh' (fun i => G (revidx sh' sh i) * D i)) by auto. apply (sum_ext (K := Rring)). intros o Ho. apply indices_in in Ho. rewrite revidx_back by auto. auto.
  - intros C x0 D HC o V. apply HC. apply revidx_valid; auto.
Qed.

(** * Softmax *)
Lemma on_line_sym : forall k i j, on_line k i j = on_line k j i.
Proof. intros. unfold on_line. destruct (idx_eqb (with_coord true k j 0) (with_coord true k i 0)) eqn:E1, (idx_eqb (with_coord true k i 0) (with_coord true k j 0)) eqn:E2; auto.
  - apply idx_eqb_true in E1. rewrite E1 in E2. assert (idx_eqb (with_coord true k i 0) (with_coord true k i 0) = true) by (apply idx_eqb_true; auto). congruence.
  - apply idx_eqb_true in E2. rewrite E2 in E1. assert (idx_eqb (with_coord true k j 0) (with_coord true k j 0) = true) by (apply idx_eqb_true; auto). congruence.
Qed.
Lemma line_swap : forall sh k (A B : tens), (k < length sh)%nat ->
  Rsum (fun o => A o * line_sum B k (nth k sh 0%nat) o) (indices sh) = Rsum (fun o => B o * line_sum A k (nth k sh 0%nat) o) (indices sh).
Proof.
  intros sh k A B Hk.
  assert (Q : forall A B : tens, Rsum (fun o => A o * line_sum B k (nth k sh 0%nat) o) (indices sh) = Rsum (fun o => Rsum (fun i => if on_line k o i then A o * B i else 0) (indices sh)) (indices sh)).
  { intros A' B'. apply (sum_ext (K := Rring)). intros o Ho. apply indices_in in Ho. rewrite <- (sum_on_line sh k o) by auto. rewrite <- (sum_mul_l (K := Rring)). apply (sum_ext (K := Rring)). intros i _. destruct (on_line k o i); rg. }
  rewrite !Q. rewrite (sum_swap (K := Rring)). apply (sum_ext (K := Rring)). intros o _. apply (sum_ext (K := Rring)). intros i _. rewrite on_line_sym. destruct (on_line k o i); rg.
Qed.
Section Soft.
Variables (sh : list nat) (k : nat).
Hypothesis Hk : (k < length sh)%nat.
Local Notation n := (nth k sh 0%nat).
Local Notation S F := (softmax_at F k n).
Lemma line_valid : forall o j, valid sh o -> In j (seq 0 n) -> valid sh (with_coord true k o j).
Proof. intros o j V Hj. apply in_seq in Hj. apply valid_coord; auto. lia. Qed.
Lemma curve_sum : forall (C : R -> tens) x0 D o, (forall i, valid sh i -> derivable_pt_lim (fun x => C x i) x0 (D i)) -> valid sh o ->
  derivable_pt_lim (fun x => line_sum (fun i => exp (C x i)) k n o) x0 (line_sum (fun i => exp (C x0 i) * D i) k n o).
Proof.
  intros C x0 D o HC V. unfold line_sum. apply (dlim_sum (fun j x => exp (C x (with_coord true k o j))) (fun j => exp (C x0 (with_coord true k o j)) * D (with_coord true k o j))).
  intros j Hj. apply (derivable_pt_lim_comp (fun x => C x (with_coord true k o j)) exp); [apply HC; apply line_valid; auto|apply derivable_pt_lim_exp].
Qed.
Lemma soft_times : forall (F D : tens) o, valid sh o ->
  line_sum (fun i => S F i * D i) k n o = line_sum (fun i => exp (F i) * D i) k n o / line_sum (fun i => exp (F i)) k n o.
Proof.
  intros F D o V. unfold Rdiv. unfold line_sum at 1 2. rewrite <- (sum_mul_r (K := Rring)). apply (sum_ext (K := Rring)). intros j Hj. unfold softmax_at. rewrite line_sum_coord. unfold Rdiv. rg.
Qed.
Lemma curve_soft : forall (C : R -> tens) x0 D o, (forall i, valid sh i -> derivable_pt_lim (fun x => C x i) x0 (D i)) -> valid sh o ->
  derivable_pt_lim (fun x => S (C x) o) x0 (S (C x0) o * (D o - line_sum (fun i => S (C x0) i * D i) k n o)).
Proof.
  intros C x0 D o HC V. assert (P : 0 < line_sum (fun i => exp (C x0 i)) k n o) by (apply line_sum_pos; auto; intro; apply exp_pos).
  eapply dlim_val; [|apply (derivable_pt_lim_div (fun x => exp (C x o)) (fun x => line_sum (fun i => exp (C x i)) k n o) x0 (exp (C x0 o) * D o));
    [apply (derivable_pt_lim_comp (fun x => C x o) exp); [apply HC; auto|apply derivable_pt_lim_exp]|apply curve_sum; eauto|cbv beta; lra]].
  cbv beta. rewrite soft_times by auto. unfold softmax_at, Rsqr. field. lra.
Qed.
Lemma curve_log : forall (C : R -> tens) x0 D o, (forall i, valid sh i -> derivable_pt_lim (fun x => C x i) x0 (D i)) -> valid sh o ->
  derivable_pt_lim (fun x => ln (S (C x) o)) x0 (D o - line_sum (fun i => S (C x0) i * D i) k n o).
Proof.
  intros C x0 D o HC V. pose proof (softmax_at_pos (C x0) sh k o V Hk) as P.
  eapply dlim_val; [|apply (derivable_pt_lim_comp (fun x => S (C x) o) ln); [apply (curve_soft C x0 D o HC V)|apply derivable_pt_lim_ln; auto]]. cbv beta. field. lra.
Qed.
End Soft.
Lemma law_softmax : forall lo M sh r dim k, 0 <= M -> dim_is (length sh) dim k -> law lo M (OSoftmax dim) [(sh, r)] sh.
Proof.
  intros lo M sh r dim k HM Hd. pose proof (proj1 Hd) as Hk. set (n := nth k sh 0%nat).
  apply (law_one lo M _ sh sh r (fun F => softmax_at F k n) (fun F D o => softmax_at F k n o * (D o - line_sum (fun i => softmax_at F k n i * D i) k n o))
    (fun F G i => softmax_at F k n i * (G i - line_sum (fun j => softmax_at F k n j * G j) k n i))).
  - intros; exact I.
  - intros F. apply softmax_ok; auto.
  - intros F G. cbn [backRule]. apply softmaxBackward_ok. auto.
  - auto.
  - intros F G D. set (s := softmax_at F k n). pose proof (line_swap sh k (fun o => G o * s o) (fun i => s i * D i) Hk) as Q. fold n in Q.
    transitivity (Rsum (fun o => G o * s o * D o) (indices sh) - Rsum (fun o => G o * s o * line_sum (fun i => s i * D i) k n o) (indices sh)).
    + change Rminus with (fun a b : R => a + - b). cbv beta. replace (- Rsum (fun o => G o * s o * line_sum (fun i => s i * D i) k n o) (indices sh)) with (Rsum (fun o => - (1) * (G o * s o * line_sum (fun i => s i * D i) k n o)) (indices sh)) by (rewrite (sum_mul_l (K := Rring)); rg).
      rewrite <- (sum_add (K := Rring)). apply (sum_ext (K := Rring)). intros o _. rg.
    + rewrite Q. change Rminus with (fun a b : R => a + - b). cbv beta. match goal with |- _ + - ?a = _ => replace (- a) with (- (1) * a) by ring end. rewrite <- (sum_mul_l (K := Rring)). rewrite <- (sum_add (K := Rring)). apply (sum_ext (K := Rring)). intros o _.
      assert (E : line_sum (fun o => G o * s o) k n o = line_sum (fun j => s j * G j) k n o) by (apply (sum_ext (K := Rring)); intros; rg). rewrite E. rg.
  - intros C x0 D HC o V. apply curve_soft; auto.
Qed.
Lemma sum_nonneg : forall {I} (f : I -> R) l, (forall i, 0 <= f i) -> 0 <= Rsum f l.
Proof. intros I f l H. induction l as [|a l IH]; [apply Rle_refl|]. rewrite (sum_cons (K := Rring)). apply Rplus_le_le_0_compat; auto. Qed.
Lemma term_le : forall {I} (f : I -> R) l j, (forall i, 0 <= f i) -> In j l -> f j <= Rsum f l.
Proof.
  intros I f l j H. induction l as [|a l IH]; intros Hj; [destruct Hj|]. rewrite (sum_cons (K := Rring)). change (f j <= f a + Rsum f l). destruct Hj as [->|Hj].
  - rewrite <- (Rplus_0_r (f j)) at 1. apply Rplus_le_compat_l. apply sum_nonneg. auto.
  - apply Rle_trans with (Rsum f l); auto. rewrite <- (Rplus_0_l (Rsum f l)) at 1. apply Rplus_le_compat_r. auto.
Qed.
Lemma law_logsoftmax : forall lo M sh r dim k, 0 <= M -> dim_is (length sh) dim k -> law lo M (OLogSoftmax dim) [(sh, r)] sh.
Proof.
  intros lo M sh r dim k HM Hd. pose proof (proj1 Hd) as Hk. set (n := nth k sh 0%nat).
  apply (law_one lo M _ sh sh r (fun F o => ln (softmax_at F k n o)) (fun F D o => D o - line_sum (fun i => softmax_at F k n i * D i) k n o)
    (fun F G i => G i - softmax_at F k n i * line_sum G k n i)).
  - intros; exact I.
  - intros F. apply logSoftmax_ok; auto.
  - intros F G. cbn [backRule]. rewrite (logSoftmaxBackward_ok M sh _ G dim k Hd).
    + f_equal. apply tensor_of_ext. intros o V. rewrite exp_ln by (apply softmax_at_pos; auto). auto.
    + intros o V. pose proof (softmax_at_pos F sh k o V Hk) as P1. fold n in P1.
      assert (P2 : softmax_at F k n o <= 1).
      { rewrite <- (softmax_at_sum F sh k o V Hk). fold n. unfold line_sum. pose proof (coord_lt sh k o V Hk) as HC. fold n in HC. rewrite <- (with_coord_self k o) at 1.
        apply (term_le (fun j => softmax_at F k n (with_coord true k o j))); [|apply in_seq; lia]. intros j. unfold softmax_at. apply Rlt_le, Rdiv_lt_0_compat; [apply exp_pos|]. rewrite line_sum_coord. apply line_sum_pos; auto. intro; apply exp_pos. }
      assert (ln (softmax_at F k n o) <= 0); [|lra]. destruct P2 as [P2|P2]; [apply Rlt_le; rewrite <- ln_1; apply ln_increasing; auto|rewrite P2, ln_1; lra].
  - auto.
  - intros F G D. set (s := softmax_at F k n). pose proof (line_swap sh k G (fun i => s i * D i) Hk) as Q. fold n in Q.
    transitivity (Rsum (fun o => G o * D o) (indices sh) + - (1) * Rsum (fun o => G o * line_sum (fun i => s i * D i) k n o) (indices sh)).
    + rewrite <- (sum_mul_l (K := Rring)). rewrite <- (sum_add (K := Rring)). apply (sum_ext (K := Rring)). intros o _. rg.
    + rewrite Q. rewrite <- (sum_mul_l (K := Rring)). rewrite <- (sum_add (K := Rring)). apply (sum_ext (K := Rring)). intros o _. rg.
  - intros C x0 D HC o V. apply curve_log; auto.
Qed.
