(** C24: gradients of the element-wise functions. *)
From Coq Require Import ZArith List Bool Arith Lia Reals Lra.
From Verif Require Import ShapeModel ShapeSpec TensorModel TensorSpec TensorLemmas BcastModel BcastSpec BcastProofs ReduceModel ReduceProofs GradModel GradSpec GradProofs GradProofs2.
Import ListNotations.
Open Scope R_scope.

(** For all operand shapes that broadcast (no zero sizes) and all values. *)
Theorem mul_gradient : forall sh1 sh2 sh F G H, positive sh1 -> positive sh2 -> is_broadcast [sh1; sh2] sh ->
  let grad := tensor_of sh H in let a := tensor_of sh1 F in let b := tensor_of sh2 G in
  is_gradient (fun t => mulForward t b) sh1 F grad (fst (mulBackward a b grad))
  /\ is_gradient (fun t => mulForward a t) sh2 G grad (snd (mulBackward a b grad)).
Proof.
  intros sh1 sh2 sh F G H P1 P2 HB. cbv zeta. unfold mulBackward. cbn [fst snd]. rewrite (with_second sh1 sh2 sh), (with_first sh1 sh2 sh) by auto. split.
  - apply (grad_first sh1 sh2 sh P1 P2 HB F G H opMul (fun o => G (bidx sh2 o))); [intros; apply d_mul1|reflexivity].
  - apply (grad_second sh1 sh2 sh P1 P2 HB F G H opMul (fun o => F (bidx sh1 o))); [intros; apply d_mul2|reflexivity].
Qed.
Theorem div_gradient : forall sh1 sh2 sh F G H, positive sh1 -> positive sh2 -> is_broadcast [sh1; sh2] sh -> (forall j, G j <> 0) ->
  let grad := tensor_of sh H in let a := tensor_of sh1 F in let b := tensor_of sh2 G in
  is_gradient (fun t => divForward t b) sh1 F grad (fst (divBackward a b grad))
  /\ is_gradient (fun t => divForward a t) sh2 G grad (snd (divBackward a b grad)).
Proof.
  intros sh1 sh2 sh F G H P1 P2 HB HG. cbv zeta. unfold divBackward. cbn [fst snd]. rewrite (with_second sh1 sh2 sh), (with_both sh1 sh2 sh) by auto. split.
  - apply (grad_first sh1 sh2 sh P1 P2 HB F G H opDiv (fun o => 1 / G (bidx sh2 o))); [intros; apply d_div1|intros; unfold opDiv; field; auto].
  - apply (grad_second sh1 sh2 sh P1 P2 HB F G H opDiv (fun o => - F (bidx sh1 o) / (G (bidx sh2 o) * G (bidx sh2 o)))); [intros; apply d_div2; auto|intros; unfold opDivBackwardP2; field; auto].
Qed.
(** Where pow is differentiable in the base: positive base; non-zero base and
    integer exponent; any base and positive integer exponent. *)
Theorem pow_gradient_base : forall sh1 sh2 sh F G H, positive sh1 -> positive sh2 -> is_broadcast [sh1; sh2] sh ->
  (forall o, valid sh o -> 0 < F (bidx sh1 o) \/ exists n, G (bidx sh2 o) = IZR n /\ (F (bidx sh1 o) <> 0 \/ (0 < n)%Z)) ->
  let grad := tensor_of sh H in let a := tensor_of sh1 F in let b := tensor_of sh2 G in
  is_gradient (fun t => powForward t b) sh1 F grad (fst (powBackward a b grad)).
Proof.
  intros sh1 sh2 sh F G H P1 P2 HB HD. cbv zeta. unfold powBackward. cbn [fst snd]. rewrite (with_both sh1 sh2 sh) by auto.
  apply (grad_first sh1 sh2 sh P1 P2 HB F G H opPow (fun o => G (bidx sh2 o) * stdpow (F (bidx sh1 o)) (G (bidx sh2 o) - 1))); [intros; apply d_pow1; auto|intros; unfold opPowBackwardP1; ring].
Qed.
(** And in the exponent: positive base. *)
Theorem pow_gradient_exponent : forall sh1 sh2 sh F G H, positive sh1 -> positive sh2 -> is_broadcast [sh1; sh2] sh -> (forall j, 0 < F j) ->
  let grad := tensor_of sh H in let a := tensor_of sh1 F in let b := tensor_of sh2 G in
  is_gradient (fun t => powForward a t) sh2 G grad (snd (powBackward a b grad)).
Proof.
  intros sh1 sh2 sh F G H P1 P2 HB HF. cbv zeta. unfold powBackward. cbn [fst snd]. rewrite (with_both sh1 sh2 sh) by auto.
  apply (grad_second sh1 sh2 sh P1 P2 HB F G H opPow (fun o => stdpow (F (bidx sh1 o)) (G (bidx sh2 o)) * ln (F (bidx sh1 o)))); [intros; apply d_pow2; auto|intros; unfold opPowBackwardP2; ring].
Qed.
(** The kernel's pow is the mathematical one: repeated multiplication for
    integer exponents, exp(b ln a) for positive bases. *)
Theorem pow_is_power : (forall a n, stdpow a (IZR n) = powerRZ a n) /\ (forall a b, 0 < a -> stdpow a b = exp (b * ln a)).
Proof. split; [apply stdpow_int|intros a b H; rewrite stdpow_pos by auto; reflexivity]. Qed.
Theorem sin_cos_gradient : forall sh F H,
  is_gradient sinForward sh F (tensor_of sh H) (sinBackward (tensor_of sh F) (tensor_of sh H))
  /\ is_gradient cosForward sh F (tensor_of sh H) (cosBackward (tensor_of sh F) (tensor_of sh H)).
Proof.
  intros sh F H. unfold sinBackward, cosBackward. rewrite !unaryBackward_of. split.
  - apply (grad_unary _ opSin sh F H (fun o => cos (F o))); [intros; apply unaryR_of|intros; apply d_sin|intros; unfold opSinBackwardP1; ring].
  - apply (grad_unary _ opCos sh F H (fun o => - sin (F o))); [intros; apply unaryR_of|intros; apply d_cos|intros; unfold opCosBackwardP1; ring].
Qed.
Theorem relu_gradient : forall sh F H, positive sh -> (forall i, F i <> 0) ->
  is_gradient reluForward sh F (tensor_of sh H) (reluBackward (tensor_of sh F) (tensor_of sh H)).
Proof.
  intros sh F H HP HF. rewrite relu_backward_of by auto.
  apply (grad_unary _ (fun x => opClampMin x 0) sh F H (fun o => if Rlt_dec (F o) 0 then 0 else 1)); [intros; apply relu_forward_of; auto|intros; apply d_relu; auto|].
  intros o _. destruct (Rlt_dec (F o) 0); ring.
Qed.
Theorem sum_gradient : forall sh F h, positive sh ->
  is_gradient sumForward sh F (tensor_of [] (fun _ => h)) (sumBackward (tensor_of sh F) (tensor_of [] (fun _ => h))).
Proof.
  intros sh F h HP. rewrite sum_backward_of by auto. exists (tensor_of sh (fun _ => h)), (fun _ => h). split; auto. split; auto. split; [left; auto|]. intros i Hi.
  apply (dlim_ext _ (fun x => sum (K := Rring) (fun o => h * (fun x => x) (put F i x o)) (indices sh))).
  - intros x. assert (E : sumForward (tensor_of sh (put F i x)) = Ok (tensor_of [] (fun _ => sum (K := Rring) (put F i x) (indices sh)))) by (apply (sumAll_correct (K := Rring) sh (put F i x))). rewrite E. cbn. cbv beta. rewrite (sum_mul_l (K := Rring) h (put F i x)). change (@mul Rring) with Rmult. ring.
  - apply (dlim_val _ _ (sum (K := Rring) (fun o => h * 1) (filter (fun o => same_idx o i) (indices sh)))).
    + rewrite (sum_filter (K := Rring) (fun o => same_idx o i) (fun o => h * 1)).
      rewrite (sum_single (K := Rring) same_idx IndexProofs.same_idx_true (fun o => h * 1) i); [ring|apply ShapeProofs.indices_nodup|apply ShapeProofs.indices_in; auto].
    + apply (dlim_read sh F (fun _ => h) (fun o => o) (fun _ x => x) (fun _ => 1) i). intros. apply dlim_id.
Qed.
(** add and sub: the first operand always, the second only for alpha = 1.
    Missing: other values of alpha, for which the rules are wrong. *)
Theorem add_gradient_partial : forall alpha sh1 sh2 sh F G H, positive sh1 -> positive sh2 -> is_broadcast [sh1; sh2] sh ->
  let grad := tensor_of sh H in let a := tensor_of sh1 F in let b := tensor_of sh2 G in
  is_gradient (fun t => addForward alpha t b) sh1 F grad (fst (addBackward a b grad))
  /\ (alpha = 1 -> is_gradient (fun t => addForward alpha a t) sh2 G grad (snd (addBackward a b grad))).
Proof.
  intros alpha sh1 sh2 sh F G H P1 P2 HB. cbv zeta. unfold addBackward. cbn [fst snd]. split.
  - apply (grad_first sh1 sh2 sh P1 P2 HB F G H (opAdd alpha) (fun o => 1)); [intros; apply d_add1|intros; ring].
  - intros ->. apply (grad_second sh1 sh2 sh P1 P2 HB F G H (opAdd 1) (fun o => 1)); [intros; apply d_add2|intros; ring].
Qed.
Theorem sub_gradient_partial : forall alpha sh1 sh2 sh F G H, positive sh1 -> positive sh2 -> is_broadcast [sh1; sh2] sh ->
  let grad := tensor_of sh H in let a := tensor_of sh1 F in let b := tensor_of sh2 G in
  is_gradient (fun t => subForward alpha t b) sh1 F grad (fst (subBackward a b grad))
  /\ (alpha = 1 -> is_gradient (fun t => subForward alpha a t) sh2 G grad (snd (subBackward a b grad))).
Proof.
  intros alpha sh1 sh2 sh F G H P1 P2 HB. cbv zeta. unfold subBackward. cbn [fst snd]. rewrite unaryR_of. split.
  - apply (grad_first sh1 sh2 sh P1 P2 HB F G H (opSub alpha) (fun o => 1)); [intros; apply d_sub1|intros; ring].
  - intros ->. apply (grad_second sh1 sh2 sh P1 P2 HB F G H (opSub 1) (fun o => -1)); [intros; apply (dlim_val _ _ (-(1))); [lra|apply d_sub2]|intros; ring].
Qed.
(** a + 2 b on scalars: the gradient of b should be 2 and is 1. *)
Theorem add_alpha_refuted :
  ~ is_gradient (fun t => addForward 2 (tensor_of [] (fun _ => 0)) t) [] (fun _ => 0) (tensor_of [] (fun _ => 1))
      (snd (addBackward (tensor_of [] (fun _ => 0)) (tensor_of [] (fun _ => 0)) (tensor_of [] (fun _ => 1)))).
Proof.
  intros (r & D & E & ED & _ & HD). assert (HV : valid [] []) by constructor. specialize (HD [] HV). assert (E1 : r = tensor_of [] (fun _ => 1)) by (cbn in E; injection E as <-; reflexivity).
  subst r. cbn in ED. injection ED as ED. rewrite <- ED in HD. clear E ED.
  assert (D2 : derivable_pt_lim (fun x => weigh (tdata (tensor_of [] (fun _ => 1))) (addForward 2 (tensor_of [] (fun _ => 0)) (tensor_of [] (put (fun _ => 0) [] x)))) 0 2).
  { apply (dlim_ext _ (fun x => 2 * x)); [intros y; cbn; unfold opAdd; ring|]. apply (dlim_val _ _ (2 * 1)); [ring|]. apply dlim_scal, dlim_id. }
  assert (1 = 2) by (eapply uniqueness_limite; eauto). lra.
Qed.

(** The hypotheses are met, e.g. by a (2,3) times a (3,1,1) operand. *)
Example ex_shapes : positive [2;3]%nat /\ positive [3;1;1]%nat /\ is_broadcast [[2;3]; [3;1;1]]%nat [3;2;3]%nat.
Proof.
  split; [repeat constructor|]. split; [repeat constructor|]. apply broadcastShape_iff; [repeat constructor|reflexivity].
Qed.
Print Assumptions mul_gradient.
Print Assumptions pow_gradient_base.
