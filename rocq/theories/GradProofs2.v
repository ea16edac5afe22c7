From Coq Require Import ZArith List Bool Arith Lia Reals Lra.
From Verif Require Import ShapeModel ShapeSpec ShapeProofs TensorModel TensorSpec TensorLemmas BcastModel BcastSpec BcastProofs BcastProofs2 IndexProofs ReduceModel ReduceProofs GradModel GradSpec GradProofs.
Import ListNotations.
Open Scope R_scope.

Lemma d_add1 : forall alpha b a, derivable_pt_lim (fun x => opAdd alpha x b) a 1.
Proof. intros. unfold opAdd. apply (dlim_val _ _ (1 + 0)); [lra|]. apply (derivable_pt_lim_plus (fun x => x) (fun _ => alpha * b)); [apply dlim_id|apply dlim_cst]. Qed.
Lemma d_add2 : forall alpha a b, derivable_pt_lim (fun x => opAdd alpha a x) b alpha.
Proof. intros. unfold opAdd. apply (dlim_val _ _ (0 + alpha * 1)); [lra|]. apply (derivable_pt_lim_plus (fun _ => a) (fun x => alpha * x)); [apply dlim_cst|apply dlim_scal, dlim_id]. Qed.
Lemma d_sub1 : forall alpha b a, derivable_pt_lim (fun x => opSub alpha x b) a 1.
Proof. intros. unfold opSub. apply (dlim_val _ _ (1 - 0)); [lra|]. apply (derivable_pt_lim_minus (fun x => x) (fun _ => alpha * b)); [apply dlim_id|apply dlim_cst]. Qed.
Lemma d_sub2 : forall alpha a b, derivable_pt_lim (fun x => opSub alpha a x) b (- alpha).
Proof. intros. unfold opSub. apply (dlim_val _ _ (0 - alpha * 1)); [lra|]. apply (derivable_pt_lim_minus (fun _ => a) (fun x => alpha * x)); [apply dlim_cst|apply dlim_scal, dlim_id]. Qed.
Lemma d_mul1 : forall b a, derivable_pt_lim (fun x => opMul x b) a b.
Proof. intros. unfold opMul. apply (dlim_ext _ (fun x => b * x)); [intros; ring|]. apply (dlim_val _ _ (b * 1)); [lra|]. apply dlim_scal, dlim_id. Qed.
Lemma d_mul2 : forall a b, derivable_pt_lim (fun x => opMul a x) b a.
Proof. intros. unfold opMul. apply (dlim_val _ _ (a * 1)); [lra|]. apply dlim_scal, dlim_id. Qed.
Lemma d_div1 : forall b a, derivable_pt_lim (fun x => opDiv x b) a (1 / b).
Proof. intros. unfold opDiv. apply (dlim_ext _ (fun x => / b * x)); [intros; unfold Rdiv; ring|]. apply (dlim_val _ _ (/ b * 1)); [unfold Rdiv; ring|]. apply dlim_scal, dlim_id. Qed.
Lemma d_div2 : forall a b, b <> 0 -> derivable_pt_lim (fun x => opDiv a x) b (- a / (b * b)).
Proof.
  intros a b Hb. unfold opDiv. pose proof (derivable_pt_lim_div (fun _ => a) (fun x => x) b 0 1 (dlim_cst a b) (dlim_id b) Hb) as D.
  apply (dlim_val _ _ ((0 * b - 1 * a) / Rsqr b)); [unfold Rsqr; field; auto|]. exact D.
Qed.
Lemma d_sin : forall a, derivable_pt_lim opSin a (cos a).
Proof. intros. apply derivable_pt_lim_sin. Qed.
Lemma d_cos : forall a, derivable_pt_lim opCos a (- sin a).
Proof. intros. apply derivable_pt_lim_cos. Qed.

(** * pow *)
Lemma Int_part_IZR : forall n, Int_part (IZR n) = n.
Proof.
  intros n. assert (H := base_Int_part (IZR n)). destruct H as [H1 H2]. apply le_IZR in H1.
  assert (n < Int_part (IZR n) + 1)%Z; [|lia]. apply lt_IZR. rewrite plus_IZR. lra.
Qed.
Lemma stdpow_int : forall a n, stdpow a (IZR n) = powerRZ a n.
Proof.
  intros a n. unfold stdpow. destruct (Rlt_dec 0 a); [symmetry; apply powerRZ_Rpower; auto|]. rewrite Int_part_IZR. destruct (Req_EM_T (IZR n) (IZR n)); congruence.
Qed.
Lemma d_pow_nat : forall k a, derivable_pt_lim (fun x => x ^ k) a (INR k * a ^ pred k).
Proof. intros. apply derivable_pt_lim_pow. Qed.
Lemma d_powerRZ : forall n a, a <> 0 \/ (0 < n)%Z -> derivable_pt_lim (fun x => powerRZ x n) a (IZR n * powerRZ a (n - 1)).
Proof.
  intros n a Ha. destruct n as [|p|p].
  - cbn [powerRZ]. apply (dlim_val _ _ 0); [ring|]. apply dlim_cst.
  - cbn [powerRZ]. apply (dlim_val _ _ (INR (Pos.to_nat p) * a ^ pred (Pos.to_nat p))); [|apply d_pow_nat].
    rewrite INR_IZR_INZ. rewrite positive_nat_Z. f_equal. replace (Z.pos p - 1)%Z with (Z.of_nat (pred (Pos.to_nat p))) by lia. apply pow_powerRZ.
  - destruct Ha as [Ha|Ha]; [|lia]. cbn [powerRZ]. set (k := Pos.to_nat p). assert (Hk : (0 < k)%nat) by (unfold k; lia). assert (Hn : a ^ k <> 0) by (apply pow_nonzero; auto).
    assert (D : derivable_pt_lim (fun x => / x ^ k) a ((0 * a ^ k - INR k * a ^ pred k * 1) / Rsqr (a ^ k))).
    { apply (dlim_ext _ ((fun _ => 1) / (fun x => x ^ k))%F); [intros y; unfold div_fct, Rdiv; ring|].
      apply derivable_pt_lim_div; auto; [apply dlim_cst|apply d_pow_nat]. }
    eapply dlim_val; [|exact D]. replace (Z.neg p - 1)%Z with (- Z.of_nat (S k))%Z by (unfold k; lia). rewrite powerRZ_neg'. rewrite <- pow_powerRZ.
    replace (IZR (Z.neg p)) with (- INR k) by (unfold k; rewrite INR_IZR_INZ, positive_nat_Z, <- opp_IZR; auto).
    unfold Rsqr. destruct k as [|k]; [lia|]. cbn [pred pow] in *. field. split; auto. intros E. apply Hn. rewrite E. ring.
Qed.
Lemma d_Rpower1 : forall a b, 0 < a -> derivable_pt_lim (fun x => Rpower x b) a (b * Rpower a (b - 1)).
Proof. intros. apply derivable_pt_lim_power. auto. Qed.
Lemma stdpow_pos : forall a b, 0 < a -> stdpow a b = Rpower a b.
Proof. intros a b H. unfold stdpow. destruct (Rlt_dec 0 a); [auto|contradiction]. Qed.
(** The base: positive; or not zero and an integer exponent; or any base and a
    positive integer exponent. *)
Lemma d_pow1 : forall a b, (0 < a \/ exists n, b = IZR n /\ (a <> 0 \/ (0 < n)%Z)) -> derivable_pt_lim (fun x => opPow x b) a (b * stdpow a (b - 1)).
Proof.
  intros a b [Ha|(n & -> & Hn)].
  - rewrite stdpow_pos by auto. apply (dlim_loc _ (fun x => Rpower x b) a _ a Ha); [|apply d_Rpower1; auto].
    intros h Hh. unfold opPow. apply stdpow_pos. apply Rabs_def2 in Hh. lra.
  - apply (dlim_ext _ (fun x => powerRZ x n)); [intros y; apply stdpow_int|]. rewrite <- minus_IZR, stdpow_int. apply d_powerRZ. auto.
Qed.
Lemma d_pow2 : forall a b, 0 < a -> derivable_pt_lim (fun x => opPow a x) b (stdpow a b * ln a).
Proof.
  intros a b Ha. apply (dlim_ext _ (fun x => exp (x * ln a))); [intros y; unfold opPow; rewrite stdpow_pos by auto; reflexivity|]. rewrite stdpow_pos by auto. unfold Rpower.
  apply (derivable_pt_lim_comp (fun x => x * ln a) exp).
  - apply (dlim_ext _ (fun x => ln a * x)); [intros; ring|]. apply (dlim_val _ _ (ln a * 1)); [ring|]. apply dlim_scal, dlim_id.
  - apply derivable_pt_lim_exp.
Qed.
(** * relu *)
Lemma d_relu : forall a, a <> 0 -> derivable_pt_lim (fun x => opClampMin x 0) a (if Rlt_dec a 0 then 0 else 1).
Proof.
  intros a Ha. destruct (Rlt_dec a 0) as [H|H].
  - apply (dlim_loc _ (fun _ => 0) a 0 (- a)); [lra| |apply dlim_cst]. intros h Hh. apply Rabs_def2 in Hh. unfold opClampMin. destruct (Rlt_dec (a + h) 0); lra.
  - apply (dlim_loc _ (fun x => x) a 1 a); [lra| |apply dlim_id]. intros h Hh. apply Rabs_def2 in Hh. unfold opClampMin. destruct (Rlt_dec (a + h) 0); lra.
Qed.

Lemma scalar_of : forall x : R, mkT [] [x] = tensor_of [] (fun _ => x).
Proof. reflexivity. Qed.
Lemma bcast_scalar : forall sh, is_broadcast [sh; []] sh.
Proof.
  intros sh. split; [cbn; lia|]. intros p Hp. split; [|right; exists sh; cbn; auto]. intros s [<-|[<-|[]]]; auto. left. unfold from_right. destruct p; auto.
Qed.
Lemma relu_forward_of : forall sh F, positive sh -> reluForward (tensor_of sh F) = Ok (tensor_of sh (fun o => opClampMin (F o) 0)).
Proof.
  intros sh F HP. unfold reluForward. rewrite scalar_of. rewrite (binary_of opClampMin sh F [] (fun _ => 0) sh); auto using bcast_scalar; [|constructor].
  f_equal. apply tensor_of_ext. intros o Ho. rewrite bidx_same by auto. auto.
Qed.
Lemma relu_backward_of : forall sh F H, positive sh -> reluBackward (tensor_of sh F) (tensor_of sh H) = Ok (tensor_of sh (fun o => if Rlt_dec (F o) 0 then 0 else H o)).
Proof.
  intros sh F H HP. unfold reluBackward. rewrite scalar_of.
  assert (E : elementwise (fun l => opLt (nth 0 l 0) (nth 1 l 0)) [tensor_of sh F; tensor_of [] (fun _ => 0)] = Ok (tensor_of sh (fun o => opLt (F (bidx sh o)) 0))).
  { apply (elementwise_correct (fun l => opLt (nth 0 l 0) (nth 1 l 0)) [(sh, F); ([], fun _ => 0)] sh); [repeat constructor; auto|].
    apply broadcastShape_iff; [repeat constructor; auto|apply bcast_scalar]. }
  rewrite E. unfold fillMasked. cbn [tshape tensor_of]. unfold list_eqb. destruct (list_eq_dec Nat.eq_dec sh sh); [|congruence].
  change (tnumel {| tshape := sh; tdata := map H (indices sh) |}) with (numel sh). fold (tensor_of sh H). fold (tensor_of sh (fun o => opLt (F (bidx sh o)) 0)).
  rewrite (tab_tensor sh _ (fun o => if Rlt_dec (F o) 0 then 0 else H o)); auto. intros o Ho.
  rewrite rd_of_idx by auto. cbn [obind]. rewrite bidx_same by auto. unfold opLt. destruct (Rlt_dec (F o) 0); auto. apply rd_of_idx. auto.
Qed.
(** * sum *)
Lemma sum_backward_of : forall sh F h, positive sh -> sumBackward (tensor_of sh F) (tensor_of [] (fun _ => h)) = Ok (tensor_of sh (fun _ => h)).
Proof.
  intros sh F h HP. unfold sumBackward. assert (E : mkT (tshape (tensor_of sh F)) (repeat 1 (tnumel (tensor_of sh F))) = tensor_of sh (fun _ => 1)).
  { unfold tensor_of. cbn [tshape]. f_equal. unfold tnumel. cbn [tshape]. rewrite <- indices_length. generalize (indices sh). intros l. induction l; cbn; congruence. }
  rewrite E.
  rewrite (binary_of opMul [] (fun _ => h) sh (fun _ => 1) sh); auto; [|constructor|].
  - f_equal. apply tensor_of_ext. intros o Ho. unfold opMul. ring.
  - destruct (bcast_scalar sh) as [H1 H2]. split; [cbn in *; lia|]. intros p Hp. destruct (H2 p Hp) as [H3 H4]. split; [|right; exists sh; cbn; auto].
    intros s Hs. apply H3. cbn in *. tauto.
Qed.
