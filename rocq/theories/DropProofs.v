(** Proofs about dropout. *)
From Coq Require Import ZArith List Bool Arith Lia Reals Lra.
From Verif Require Import ShapeModel ShapeSpec ShapeProofs TensorModel TensorSpec TensorLemmas BcastModel BcastSpec BcastProofs BcastProofs2 BufModel CutModel IndexProofs ReduceModel GradModel GradSpec GradProofs DropModel DropSpec.
Import ListNotations.
Open Scope R_scope.
Local Notation Rsum := (sum (K := Rring)).

(** ** Expectations *)
Lemma expected_S q n X : expected q (S n) X = q * expected q n (fun d => X (true :: d)) + (1 - q) * expected q n (fun d => X (false :: d)).
Proof.
  unfold expected. cbn [all_draws]. rewrite (sum_app (K := Rring)), !(sum_map (K := Rring)). change (@add Rring) with Rplus. f_equal.
  - rewrite <- (sum_mul_l (K := Rring) q). apply (sum_ext (K := Rring)). intros d _. cbn. apply Rmult_assoc.
  - rewrite <- (sum_mul_l (K := Rring) (1 - q)). apply (sum_ext (K := Rring)). intros d _. cbn. apply Rmult_assoc.
Qed.
Lemma all_draws_length n : forall d, In d (all_draws n) -> length d = n.
Proof.
  induction n as [|n IH]; intros d H; [destruct H as [<-|[]]; auto|]. cbn in H. apply in_app_iff in H.
  destruct H as [H|H]; apply in_map_iff in H; destruct H as (d' & <- & H); cbn; f_equal; auto.
Qed.
Lemma all_draws_in n : forall d, length d = n -> In d (all_draws n).
Proof.
  induction n as [|n IH]; intros d H; [destruct d; [left; auto|discriminate]|]. destruct d as [|b d]; [discriminate|]. injection H as H. cbn. apply in_app_iff.
  destruct b; [left|right]; apply in_map; auto.
Qed.
Lemma expected_ext q n X Y : (forall d, length d = n -> X d = Y d) -> expected q n X = expected q n Y.
Proof. intro H. apply (sum_ext (K := Rring)). intros d Hd. cbn. rewrite H; auto. apply all_draws_length; auto. Qed.
Lemma expected_const q n c : expected q n (fun _ => c) = c.
Proof.
  induction n as [|n IH]; [unfold expected; cbn [all_draws]; rewrite sum_cons, sum_nil; cbn; match goal with |- ?a = ?b => change (@eq R a b) end; lra|]. rewrite expected_S, IH. ring.
Qed.
(** A function of draw [k] alone. *)
Lemma expected_bit q (f : bool -> R) n : forall k, (k < n)%nat -> expected q n (fun d => f (nth k d false)) = q * f true + (1 - q) * f false.
Proof.
  induction n as [|n IH]; intros k Hk; [lia|]. rewrite expected_S. destruct k as [|k]; cbn [nth].
  - rewrite !expected_const. ring.
  - rewrite IH by lia. ring.
Qed.

(** ** The operation *)
Lemma bcast_self sh : is_broadcast [sh; sh] sh.
Proof. split; [cbn; lia|]. intros p Hp. split; [intros s [<-|[<-|[]]]; auto|right; exists sh; cbn; auto]. Qed.
Lemma mask_of sh M : bernoulli sh (map M (indices sh)) = tensor_of sh (fun i => ofBool (M i)).
Proof. unfold bernoulli, tensor_of. f_equal. rewrite firstn_all2 by (rewrite map_length, indices_length; auto). rewrite map_map. auto. Qed.
Lemma masked_of sh F M p : positive sh -> dropoutMasked (tensor_of sh F) (bernoulli sh (map M (indices sh))) p
  = Ok (tensor_of sh (fun i => if M i : bool then F i / p else 0)).
Proof.
  intro P. rewrite mask_of. unfold dropoutMasked. rewrite (binary_of _ sh F sh _ sh) by (auto; apply bcast_self). f_equal. apply tensor_of_ext. intros i V.
  rewrite !(bidx_same sh) by auto. unfold ofBool. destruct (M i); unfold Rdiv; ring.
Qed.
Lemma draws_map sh draws : length draws = numel sh -> draws = map (fun i => nth (ravel sh i) draws false) (indices sh).
Proof.
  intro H. pose proof (tensor_of_surj false (mkT sh draws)) as E. unfold twf in E. cbn in E. specialize (E H). injection E as E. exact E.
Qed.
Lemma masked_draws sh F draws p : positive sh -> length draws = numel sh -> dropoutMasked (tensor_of sh F) (bernoulli sh draws) p
  = Ok (tensor_of sh (fun i => if nth (ravel sh i) draws false then F i / p else 0)).
Proof. intros P H. rewrite (draws_map sh draws H) at 1. apply masked_of; auto. Qed.
Lemma forward_elem sh F p draws idx : positive sh -> length draws = numel sh -> valid sh idx ->
  elem (dropoutForward (tensor_of sh F) p true draws) idx = if nth (ravel sh idx) draws false then F idx / (1 - p) else 0.
Proof.
  intros P H V. unfold dropoutForward. cbn [negb]. change (tshape (tensor_of sh F)) with sh. rewrite masked_draws by auto. cbn [rbind elem].
  change (tshape (tensor_of sh ?G)) with sh. fold (ravel sh idx). set (G := fun i => _). change (tdata (tensor_of sh G)) with (map G (indices sh)).
  apply nth_error_nth. apply (rd_of_idx sh G idx V).
Qed.
Lemma forward_mean sh F p idx : positive sh -> 0 <= p < 1 -> valid sh idx ->
  expected (dropoutParam p) (numel sh) (fun d => elem (dropoutForward (tensor_of sh F) p true d) idx) = F idx.
Proof.
  intros P Hp V. rewrite (expected_ext _ _ _ (fun d => (fun b : bool => if b then F idx / (1 - p) else 0) (nth (ravel sh idx) d false))) by (intros; apply forward_elem; auto).
  unfold dropoutParam; rewrite (expected_bit (1 - p) (fun b : bool => if b then F idx / (1 - p) else 0)) by (apply ravel_lt; auto). field. lra.
Qed.
Lemma forward_zero sh F p idx : positive sh -> 0 <= p < 1 -> valid sh idx -> F idx <> 0 ->
  expected (dropoutParam p) (numel sh) (fun d => if Req_EM_T (elem (dropoutForward (tensor_of sh F) p true d) idx) 0 then 1 else 0) = p.
Proof.
  intros P Hp V HF. rewrite (expected_ext _ _ _ (fun d => (fun b : bool => if b then 0 else 1) (nth (ravel sh idx) d false))).
  - unfold dropoutParam; rewrite (expected_bit (1 - p) (fun b : bool => if b then 0 else 1)) by (apply ravel_lt; auto). ring.
  - intros d Hd. rewrite forward_elem by auto. destruct (nth _ _ _).
    + destruct (Req_EM_T _ _) as [E|]; auto. exfalso. apply HF. apply (Rmult_eq_reg_r (/ (1 - p))); [|apply Rinv_neq_0_compat; lra]. unfold Rdiv in E. lra.
    + destruct (Req_EM_T 0 0); congruence.
Qed.
(** [op::dropout]. *)
Lemma op_of sh F M p : dropoutOp (tensor_of sh F) p (map M (indices sh)) = Ok (tensor_of sh (fun i => if M i : bool then F i / p else 0)).
Proof.
  unfold dropoutOp, tensor_of. cbn [tshape tdata]. do 2 f_equal. induction (indices sh) as [|i l IH]; auto. cbn [map combine fst snd]. f_equal; auto.
  unfold ofBool. destruct (M i); unfold Rdiv; ring.
Qed.
Lemma op_zero sh F p idx : 0 < p < 1 -> valid sh idx -> F idx <> 0 ->
  expected (dropoutOpParam p) (numel sh) (fun d => if Req_EM_T (elem (rbind (dropoutOp (tensor_of sh F) p d) (fun t => Ok (t, tt))) idx) 0 then 1 else 0) = 1 - p.
Proof.
  intros Hp V HF. rewrite (expected_ext _ _ _ (fun d => (fun b : bool => if b then 0 else 1) (nth (ravel sh idx) d false))).
  - unfold dropoutOpParam. rewrite (expected_bit p (fun b : bool => if b then 0 else 1)) by (apply ravel_lt; auto). ring.
  - intros d Hd. pose proof (op_of sh F (fun i => nth (ravel sh i) d false) p) as Q. rewrite <- (draws_map sh d Hd) in Q. rewrite Q. cbn [rbind elem]. change (tshape (tensor_of sh ?G)) with sh. fold (ravel sh idx). set (G := fun i => _).
    rewrite (nth_error_nth (tdata (tensor_of sh G)) (ravel sh idx) 0 (rd_of_idx sh G idx V)). unfold G. destruct (nth _ _ _).
    + destruct (Req_EM_T _ _) as [E|]; auto. exfalso. apply HF. apply (Rmult_eq_reg_r (/ p)); [|apply Rinv_neq_0_compat; lra]. unfold Rdiv in E. lra.
    + destruct (Req_EM_T 0 0); congruence.
Qed.
Lemma dropout_grad sh F H p M : positive sh ->
  is_gradient (fun x => rbind (dropoutForward x p true (map M (indices sh))) (fun r => Ok (fst r))) sh F (tensor_of sh H)
    (Ok (tensor_of sh (fun i => if M i : bool then H i / (1 - p) else 0))).
Proof.
  intro P. eexists. eexists. split; [reflexivity|]. split; [reflexivity|]. split; [left; auto|]. intros i Hi.
  set (f := fun (o : list nat) (y : R) => if M o : bool then y / (1 - p) else 0).
  apply (dlim_ext _ (fun x => Rsum (fun o => H o * f o (put F i x ((fun o => o) o))) (indices sh))).
  - intro x. unfold dropoutForward. cbn [negb]. change (tshape (tensor_of sh ?G)) with sh. rewrite masked_of by auto. cbn [rbind fst]. apply weigh_of.
  - eapply dlim_val; [|apply (dlim_read sh F H (fun o => o) f (fun o => if M o : bool then / (1 - p) else 0) i)].
    + rewrite (sum_filter (K := Rring)). etransitivity; [apply (sum_single (K := Rring) same_idx same_idx_true (fun o => H o * (if M o : bool then / (1 - p) else 0)) i); [apply indices_nodup|apply indices_in; auto]|].
      match goal with |- ?a = ?b => change (@eq R a b) end. destruct (M i); unfold Rdiv; ring.
    + intros o _. unfold f. destruct (M o).
      * eapply dlim_val; [|apply (dlim_ext _ (fun y => / (1 - p) * y)); [intro; unfold Rdiv; ring|apply (derivable_pt_lim_scal id); apply derivable_pt_lim_id]]. ring.
      * apply (derivable_pt_lim_const 0).
Qed.
