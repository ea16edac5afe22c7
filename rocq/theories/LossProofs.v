(** Proofs about the losses. *)
From Coq Require Import ZArith List Bool Arith Lia Reals Lra.
From Verif Require Import ShapeModel ShapeSpec ShapeProofs TensorModel TensorSpec TensorLemmas BcastModel BcastSpec BcastProofs BcastProofs2 BufModel CutModel CutSpec IndexModel IndexSpec IndexProofs ReduceModel ReduceSpec ReduceProofs ReduceProofs2 GradModel GradSpec GradProofs AdvModel AdvSpec AdvProofs FillModel FillProps LossModel LossSpec.
Import ListNotations.
Open Scope R_scope.
Local Notation Rsum := (sum (K := Rring)).

Lemma reduceLoss_of red sh L : numel sh <> 0%nat -> reduceLoss red (tensor_of sh L) = Ok (reduced_loss red sh L).
Proof.
  intro Hn. destruct red; cbn [reduceLoss reduced_loss]; auto.
  - rewrite meanAll_correct by auto. cbn [rbind]. rewrite (sumAll_correct (K := Rring)). f_equal. apply tensor_of_ext. intros idx _. cbn [indices]. rewrite sum_cons, sum_nil. apply Rplus_0_r.
  - apply (sumAll_correct (K := Rring)).
Qed.
Lemma divBy_of r sh F : divBy r (tensor_of sh F) = tensor_of sh (fun o => F o / r).
Proof. unfold divBy, tensor_of. cbn [tshape tdata]. f_equal. rewrite map_map. auto. Qed.
Lemma scaleBy_of r sh F : scaleBy r (tensor_of sh F) = tensor_of sh (fun o => F o * r).
Proof. unfold scaleBy, tensor_of. cbn [tshape tdata]. f_equal. rewrite map_map. auto. Qed.
Lemma positive_numel sh : positive sh -> numel sh <> 0%nat.
Proof. induction 1; [discriminate|]. rewrite numel_cons. nia. Qed.

(** The weights the terms get. *)
Definition term_weight (red : reduction) (n : nat) (H : list nat -> R) (o : list nat) : R :=
  match red with NONE => H o | SUM => H [] | MEAN => H [] / INR n end.
Lemma weigh_loss red sh L H : numel sh <> 0%nat ->
  weigh (tdata (loss_grad red sh H)) (Ok (reduced_loss red sh L)) = Rsum (fun o => term_weight red (numel sh) H o * L o) (indices sh).
Proof.
  intro Hn. assert (P : INR (numel sh) <> 0) by (apply not_0_INR; auto). destruct red; cbn [loss_grad reduced_loss term_weight].
  - apply weigh_of.
  - cbn. unfold average. rewrite indices_length. rewrite Rplus_0_r.
    rewrite (sum_mul_l (K := Rring) (H [] / INR (numel sh)) L). match goal with |- ?a = ?b => change (@eq R a b) end. change (@mul Rring) with Rmult. field. auto.
  - cbn. rewrite Rplus_0_r. rewrite (sum_mul_l (K := Rring) (H []) L). reflexivity.
Qed.

Lemma broadcast_positive2 sh1 sh2 sh : positive sh1 -> positive sh2 -> is_broadcast [sh1; sh2] sh -> numel sh <> 0%nat.
Proof.
  intros P1 P2 HB. apply positive_numel. apply (is_broadcast_positive [sh1; sh2]); auto.
Qed.
Lemma mse_any_of sh1 sh2 sh F G red : positive sh1 -> positive sh2 -> is_broadcast [sh1; sh2] sh ->
  mseLoss (tensor_of sh1 F) (tensor_of sh2 G) red = Ok (reduced_loss red sh (fun o => (F (bidx sh1 o) - G (bidx sh2 o)) ^ 2)).
Proof.
  intros P1 P2 HB. unfold mseLoss. rewrite (binary_of _ sh1 F sh2 G sh) by auto. cbn [rbind].
  rewrite <- (reduceLoss_of red sh) by (apply (broadcast_positive2 sh1 sh2); auto). f_equal. apply tensor_of_ext. intros o Ho. ring.
Qed.

Section Mse.
  Context (sh tsh : list nat) (P1 : positive sh) (P2 : positive tsh) (HB : is_broadcast [sh; tsh] sh).
  Lemma mse_forward_of F G red : mseLoss (tensor_of sh F) (tensor_of tsh G) red
    = Ok (reduced_loss red sh (fun o => (F o - G (bidx tsh o)) * (F o - G (bidx tsh o)))).
  Proof.
    unfold mseLoss. rewrite (binary_of _ sh F tsh G sh) by auto. cbn [rbind].
    rewrite <- (reduceLoss_of red sh) by (apply positive_numel; auto). f_equal. apply tensor_of_ext. intros o Ho. rewrite (bidx_same sh) by auto. auto.
  Qed.
  Lemma mse_backward_of F G H red : mseBackward (loss_grad red sh H) (tensor_of sh F) (tensor_of tsh G) red
    = Ok (tensor_of sh (fun o => 2 * (F o - G (bidx tsh o)) * term_weight red (numel sh) H o)).
  Proof.
    unfold mseBackward. assert (HB3 : is_broadcast [sh; tsh; sh] sh).
    { apply (broadcast_more [sh; tsh]); auto; [intros s [<-|[<-|[<-|[]]]]; cbn; auto|cbn; auto]. }
    assert (Pn : positive []) by constructor.
    assert (HBn : is_broadcast [sh; tsh; []] sh).
    { destruct HB as [HL HP]. split.
      - rewrite HL. cbn. lia.
      - intros p Hp. specialize (HP p Hp). destruct HP as [Q1 Q2]. split.
        + intros s [<-|[<-|[<-|[]]]]; [apply Q1; cbn; auto|apply Q1; cbn; auto|left; destruct p; reflexivity].
        + destruct Q2 as [Q2|Q2]; [left; auto|right]. destruct Q2 as (s & Hs & E). exists s. split; auto. cbn in *. tauto. }
    destruct red; cbn [loss_grad].
    - rewrite (ternary_of _ sh F tsh G sh H sh) by auto. cbn [rbind]. f_equal. apply tensor_of_ext. intros o Ho. rewrite !(bidx_same sh) by auto. auto.
    - rewrite (ternary_of _ sh F tsh G [] (fun _ => H []) sh) by auto. cbn [rbind]. rewrite divBy_of. f_equal. apply tensor_of_ext. intros o Ho. rewrite !(bidx_same sh) by auto.
      cbn [term_weight]. unfold tnumel. cbn [tshape tensor_of]. unfold Rdiv. ring.
    - rewrite (ternary_of _ sh F tsh G [] (fun _ => H []) sh) by auto. cbn [rbind]. f_equal. apply tensor_of_ext. intros o Ho. rewrite !(bidx_same sh) by auto. auto.
  Qed.
  Lemma mse_grad F G H red : is_gradient (fun t => mseLoss t (tensor_of tsh G) red) sh F (loss_grad red sh H)
    (mseBackward (loss_grad red sh H) (tensor_of sh F) (tensor_of tsh G) red).
  Proof.
    rewrite mse_backward_of. eexists. eexists. split; [reflexivity|]. split; [reflexivity|]. split; [left; auto|]. intros i Hi.
    apply (dlim_ext _ (fun x => Rsum (fun o => term_weight red (numel sh) H o * (fun o y => (y - G (bidx tsh o)) * (y - G (bidx tsh o))) o (put F i x o)) (indices sh))).
    - intro x. rewrite mse_forward_of. rewrite weigh_loss by (apply positive_numel; auto). auto.
    - eapply dlim_val; [|apply (dlim_read sh F (term_weight red (numel sh) H) (fun o => o) (fun o y => (y - G (bidx tsh o)) * (y - G (bidx tsh o))) (fun o => 2 * (F o - G (bidx tsh o))) i)].
      + rewrite (sum_filter (K := Rring)). etransitivity; [apply (sum_single (K := Rring) same_idx same_idx_true (fun o => term_weight red (numel sh) H o * (2 * (F o - G (bidx tsh o)))) i); [apply indices_nodup|apply indices_in; auto]|].
        match goal with |- ?a = ?b => change (@eq R a b) end. ring.
      + intros o _. cbv beta. eapply dlim_val; [|apply (derivable_pt_lim_mult (id - fct_cte (G (bidx tsh o)))%F (id - fct_cte (G (bidx tsh o)))%F); apply derivable_pt_lim_minus; (apply derivable_pt_lim_id || apply derivable_pt_lim_const)].
        cbv beta. unfold minus_fct, fct_cte, id. ring.
  Qed.
End Mse.

(** ** Negative log likelihood *)
Definition picks_class (B C : nat) (t : list nat -> Z) (T : nat -> nat) : Prop := forall b, (b < B)%nat -> dim_is C (t [b]) (T b).
Lemma nll_positions B C rest t T : picks_class B C t T ->
  names_positions (B :: C :: rest) [B] [fun j => Z.of_nat (nth 0 j 0%nat); t] (fun j => [nth 0 j 0%nat; T (nth 0 j 0%nat)]).
Proof.
  intro H. split; [discriminate|]. split; [cbn; lia|]. intros j V. inversion V as [|b d j' sh' Hb V']; subst. inversion V'; subst.
  split; [reflexivity|]. split; [cbn; lia|]. cbn [map length nth]. intros [|[|k]] Hk; cbn [nth]; try lia.
  - split; auto.
  - apply H; auto.
Qed.
Lemma nll_forward_of B C rest F t T red : picks_class B C t T -> (numel (B :: rest) <> 0)%nat ->
  nllLoss (tensor_of (B :: C :: rest) F) (tensor_of [B] t) red
  = Ok (reduced_loss red (B :: rest) (fun o => - F (nth 0 o 0%nat :: T (nth 0 o 0%nat) :: skipn 1 o))).
Proof.
  intros HT Hn. unfold nllLoss. cbn [tshape tensor_of length Nat.eqb negb]. rewrite arange_count. cbn [rbind].
  change (mkT (B :: C :: rest) (map F (indices (B :: C :: rest)))) with (tensor_of (B :: C :: rest) F).
  change (mkT [B] (map t (indices [B]))) with (tensor_of [B] t).
  change [tensor_of [B] (fun i => Z.of_nat (nth 0 i 0%nat)); tensor_of [B] t] with (map (tensor_of [B]) [fun i => Z.of_nat (nth 0 i 0%nat); t]).
  rewrite (indexAdvance_ok _ _ _ _ _ (nll_positions B C rest t T HT)). cbn [rbind]. rewrite scaleBy_of. unfold adv_shape. cbn [length skipn app].
  rewrite <- (reduceLoss_of red) by auto. f_equal. apply tensor_of_ext. intros o V. unfold adv_source. inversion V as [|b d j' sh' Hb V']; subst. cbn [length firstn skipn nth app]. ring.
Qed.
Lemma nll_backward_of B C F t T red grad : picks_class B C t T ->
  nllBackward grad (tensor_of [B; C] F) (tensor_of [B] t) red
  = Ok (tensor_of [B; C] (fun o => if (T (nth 0 o 0) =? nth 1 o 0)%nat then match red with MEAN => - (1) / INR B | _ => - (1) end else 0)).
Proof.
  intros HT. unfold nllBackward. cbn [tshape tensor_of length Nat.eqb negb]. rewrite arange_count. cbn [rbind].
  change (mkT [B] (map t (indices [B]))) with (tensor_of [B] t).
  change [tensor_of [B] (fun i => Z.of_nat (nth 0 i 0%nat)); tensor_of [B] t] with (map (tensor_of [B]) [fun i => Z.of_nat (nth 0 i 0%nat); t]).
  replace (mkT [B; C] (repeat 0 (tnumel (tensor_of [B; C] F)))) with (tensor_of [B; C] (fun _ => 0)).
  2: { unfold tensor_of, tnumel. cbn [tshape]. f_equal. rewrite <- (indices_length [B; C]). generalize (indices [B; C]). clear. induction l; cbn; congruence. }
  change (mkT [] [-1]) with (tensor_of [] (fun _ => -1)).
  rewrite (indexPut_shape _ _ _ _ _ _ (fun _ => -1) (nll_positions B C [] t T HT)) by (left; split; auto). cbn [rbind].
  assert (W : forall o, valid [B; C] o -> after_writes (indices (adv_shape [B; C] [B] (length [fun j => Z.of_nat (nth 0 j 0%nat); t])))
      (adv_source [B] (fun j => [nth 0 j 0%nat; T (nth 0 j 0%nat)])) (fun _ => -1) (fun _ => 0) o = if (T (nth 0 o 0) =? nth 1 o 0)%nat then -1 else 0).
  { intros o V. inversion V as [|b ? r ? Hb V1]; subst. inversion V1 as [|c ? r' ? Hc V2]; subst. inversion V2; subst. cbn [nth].
    unfold after_writes. change (adv_shape [B; C] [B] (length [fun j => Z.of_nat (nth 0 j 0%nat); t])) with [B].
    destruct (find _ _) as [e|] eqn:E.
    - apply find_some in E. destruct E as [E1 E2]. apply in_rev, indices_in in E1. apply same_idx_true in E2. inversion E1 as [|b' ? ? ? Hb' V3]; subst. inversion V3; subst.
      cbn in E2. injection E2 as <- <-. rewrite Nat.eqb_refl. auto.
    - destruct (Nat.eqb_spec (T b) c) as [Ec|]; auto. exfalso. subst c.
      assert (Q : In [b] (rev (indices [B]))) by (apply in_rev; rewrite rev_involutive; apply indices_in; repeat constructor; auto).
      apply (find_none _ _ E) in Q. cbv beta in Q. rewrite (proj2 (same_idx_true _ _)) in Q; [discriminate Q|]. reflexivity. }
  destruct red; cbn [reduceLoss]; rewrite ?divBy_of; f_equal; apply tensor_of_ext; intros o V; rewrite W by auto; destruct (_ =? _)%nat; try lra; unfold Rdiv; ring.
Qed.
(** The true derivative, for every incoming gradient. *)
Lemma nll_deriv B C F t T red H b c : picks_class B C t T -> (b < B)%nat -> (c < C)%nat ->
  derivable_pt_lim (fun x => weigh (tdata (loss_grad red [B] H)) (nllLoss (tensor_of [B; C] (put F [b; c] x)) (tensor_of [B] t) red)) (F [b; c])
    (if (T b =? c)%nat then - term_weight red B H [b] else 0).
Proof.
  intros HT Hb Hc. assert (NB : (numel [B] <> 0)%nat) by (cbn; lia). assert (NE : numel [B] = B) by (cbn; lia). set (i := [b; c]).
  apply (dlim_ext _ (fun x => Rsum (fun o => term_weight red B H o * (fun _ y => - y) o (put F i x ((fun o => [nth 0 o 0%nat; T (nth 0 o 0%nat)]) o))) (indices [B]))).
  - intro x. rewrite (nll_forward_of B C [] _ t T) by auto. rewrite weigh_loss by auto. rewrite NE. apply (sum_ext (K := Rring)). intros o Ho. apply indices_in in Ho. inversion Ho as [|b' ? r ? Hb' V1]; subst. inversion V1; subst. reflexivity.
  - eapply dlim_val; [|apply (dlim_read [B] F (term_weight red B H) (fun o => [nth 0 o 0%nat; T (nth 0 o 0%nat)]) (fun _ y => - y) (fun _ => -1) i)].
    + rewrite (sum_filter (K := Rring)).
      transitivity (Rsum (fun o => if same_idx o [b] then (if (T b =? c)%nat then term_weight red B H o * -1 else 0) else 0) (indices [B])).
      * apply (sum_ext (K := Rring)). intros o Ho. apply indices_in in Ho. inversion Ho as [|b' ? r ? Hb' V3]; subst. inversion V3; subst. cbn [nth]. unfold i.
        destruct (same_idx [b'; T b'] [b; c]) eqn:E1; destruct (same_idx [b'] [b]) eqn:E2; auto.
        -- apply same_idx_true in E1. injection E1 as Eb Ec. subst b' c. rewrite Nat.eqb_refl. auto.
        -- apply same_idx_true in E1. injection E1 as Eb Ec. subst b' c. rewrite (proj2 (same_idx_true [b] [b]) eq_refl) in E2. discriminate.
        -- apply same_idx_true in E2. injection E2 as Eb. subst b'. destruct (Nat.eqb_spec (T b) c) as [Ec|]; auto. subst c. rewrite (proj2 (same_idx_true _ _) eq_refl) in E1. discriminate.
      * etransitivity; [apply (sum_single (K := Rring) same_idx same_idx_true (fun o => if (T b =? c)%nat then term_weight red B H o * -1 else 0) [b]); [apply indices_nodup|apply indices_in; repeat constructor; auto]|].
        cbv beta. destruct (T b =? c)%nat; auto. match goal with |- ?a = ?b => change (@eq R a b) end. ring.
    + intros o _. cbv beta. eapply dlim_val; [|apply (derivable_pt_lim_opp id); apply derivable_pt_lim_id]. lra.
Qed.
Lemma nll_grad_iff B C F t T red H : picks_class B C t T -> (0 < B)%nat ->
  is_gradient (fun x => nllLoss x (tensor_of [B] t) red) [B; C] F (loss_grad red [B] H)
    (nllBackward (loss_grad red [B] H) (tensor_of [B; C] F) (tensor_of [B] t) red)
  <-> match red with NONE => forall b, (b < B)%nat -> H [b] = 1 | _ => H [] = 1 end.
Proof.
  intros HT HB. assert (HI : INR B <> 0) by (apply not_0_INR; lia). rewrite (nll_backward_of B C F t T) by auto. split.
  - intros (r & D & E & ED & _ & HD). injection E as <-. cbn [tdata tensor_of] in ED.
    assert (Q : forall b, (b < B)%nat -> - term_weight red B H [b] = match red with MEAN => - (1) / INR B | _ => - (1) end).
    { intros b Hb. destruct (HT b Hb) as [HC _]. assert (V : valid [B; C] [b; T b]) by (repeat constructor; auto).
      pose proof (uniqueness_limite _ _ _ _ (HD _ V) (nll_deriv B C F t T red H b (T b) HT Hb HC)) as U. rewrite Nat.eqb_refl in U. rewrite <- U.
      pose proof (ext_in_map ED [b; T b] (proj2 (indices_in _ _) V)) as W. cbn [nth] in W. rewrite Nat.eqb_refl in W. rewrite <- W. destruct red; auto. }
    destruct red; cbn [term_weight] in Q.
    + intros b Hb. specialize (Q b Hb). lra.
    + specialize (Q 0%nat HB). apply (Rmult_eq_reg_r (/ INR B)); [|apply Rinv_neq_0_compat; auto]. unfold Rdiv in Q. lra.
    + specialize (Q 0%nat HB). lra.
  - intros HH. eexists. eexists. split; [reflexivity|]. split; [reflexivity|]. split; [left; auto|]. intros i Hi.
    inversion Hi as [|b ? r ? Hb V1]; subst. inversion V1 as [|c ? r' ? Hc V2]; subst. inversion V2; subst. cbn [nth].
    eapply dlim_val; [|apply (nll_deriv B C F t T red H b c HT Hb Hc)]. destruct (T b =? c)%nat; auto.
    destruct red; cbn [term_weight]; rewrite ?HH by auto; try lra.
Qed.
