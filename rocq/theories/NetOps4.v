(** Convolutions and losses. *)
From Coq Require Import ZArith List Bool Arith Lia Reals Lra.
From Verif Require Import ShapeModel ShapeSpec ShapeProofs TensorModel TensorSpec TensorLemmas BcastModel BcastSpec BcastProofs BcastProofs2 BufModel CutModel CutSpec ReduceModel ReduceSpec ReduceProofs
  IndexProofs LinalgModel LinalgSpec LinalgProofs LinalgProofs2 LinalgProofs3 LinalgProofs4 LinalgProps LinearModel LinearProofs GradModel GradSpec GradProofs GradProofs2
  LossModel LossSpec LossProofs NetModel NetSpec NetProofs NetLaw NetOps NetOps2 NetOps3.
Import ListNotations.
Local Notation Rsum := (sum (K := Rring)).
Local Open Scope R_scope.
Section Conv.
Variables (lo M : R) (n c h w oc kh kw : nat) (stride padding : dim2).
Let oh := positions h kh (dh stride) (dh padding).
Let ow := positions w kw (dw stride) (dw padding).
Let img := [n; c; h; w].
Let wsh := [oc; c; kh; kw].
Let osh := [n; oc; oh; ow].
Let rows := (n * (oh * ow))%nat.
Hypothesis HW : windows h w (D2 kh kw) stride padding.
Hypothesis Hoc : oc <> 0%nat.
Let back (o : list nat) : list nat := revidx [rows; oc] osh o.
Definition cf (X W : tens) : tens := fun o => outF (K := Rring) n c h w oc kh kw stride padding X W (revidx [(n * (positions h kh (dh stride) (dh padding) * positions w kw (dw stride) (dw padding)))%nat; oc] [n; oc; positions h kh (dh stride) (dh padding); positions w kw (dw stride) (dw padding)] o).
Let cgx (W G : tens) : tens := dInput (K := Rring) n c h w oc kh kw stride padding W G.
Let cgw (X G : tens) : tens := dWeight (K := Rring) n c h w oc kh kw stride padding X G.
Let cgb (G : tens) : tens := dBias (K := Rring) n h w oc kh kw stride padding G.
Let bi (o : list nat) : list nat := [nth 1 (back o) 0%nat].
Lemma cf_forward : forall X W, forward lo M (OConv stride padding) [tensor_of img X; tensor_of wsh W] = Ok (tensor_of osh (cf X W)).
Proof.
  intros X W. cbn [forward]. pose proof (conv_of (K := Rring) n c h w oc kh kw stride padding HW Hoc X W None (or_introl eq_refl)) as E. cbn [option_map] in E.
  unfold img, wsh. etransitivity; [exact E|]. f_equal. apply tensor_of_ext. intros idx _. cbn [biasF]. unfold cf. rg.
Qed.
Lemma cf_forward3 : n <> 0%nat -> forall X W B, forward lo M (OConv stride padding) [tensor_of img X; tensor_of wsh W; tensor_of [oc] B] = Ok (tensor_of osh (fun o => cf X W o + B (bi o))).
Proof.
  intros Hn X W B. cbn [forward]. assert (HR : rows <> 0%nat) by (unfold rows, oh, ow, positions; apply Nat.neq_mul_0; split; auto; apply Nat.neq_mul_0; split; rewrite Nat.add_1_r; discriminate).
  pose proof (conv_of (K := Rring) n c h w oc kh kw stride padding HW Hoc X W (Some B) (or_intror HR)) as E. cbn [option_map] in E.
  unfold img, wsh. etransitivity; [exact E|]. reflexivity.
Qed.
Lemma of_curve : forall (C0 C1 : R -> tens) x0 D0 D1, (forall i, derivable_pt_lim (fun x => C0 x i) x0 (D0 i)) -> (forall i, derivable_pt_lim (fun x => C1 x i) x0 (D1 i)) ->
  forall o, derivable_pt_lim (fun x => outF (K := Rring) n c h w oc kh kw stride padding (C0 x) (C1 x) o) x0
    (outF (K := Rring) n c h w oc kh kw stride padding D0 (C1 x0) o + outF (K := Rring) n c h w oc kh kw stride padding (C0 x0) D1 o).
Proof.
  intros C0 C1 x0 D0 D1 H0 H1 o.
  assert (Z : derivable_pt_lim (fun _ => 0) x0 (0 + 0)) by (eapply dlim_val; [|apply dlim_cst]; ring).
  destruct o as [|i [|j [|? ?]]]; try exact Z. unfold outF. cbn [on2]. unfold product.
  set (src := fun p => source h w stride padding (untarget n c h w (D2 kh kw) stride padding [i; p])).
  set (at' := fun p => revidx [oc; c; kh; kw] [oc; (c * kh * kw)%nat] [j; p]).
  eapply dlim_val; [|apply (dlim_sum (fun p x => fetch (K := Rring) (C0 x) (src p) * C1 x (at' p)) (fun p => fetch (K := Rring) D0 (src p) * C1 x0 (at' p) + fetch (K := Rring) (C0 x0) (src p) * D1 (at' p)))].
  - apply (sum_add (K := Rring)).
  - intros p _. apply dlim_prod; auto. unfold fetch. destruct (src p); auto. apply dlim_cst.
Qed.
Lemma inner_comm' : forall sh (F G : tens), Rsum (fun o => G o * F o) (indices sh) = inner (K := Rring) sh F G.
Proof. intros. apply (sum_ext (K := Rring)). intros; rg. Qed.
Lemma cf_input : forall X W G, Rsum (fun o => G o * cf X W o) (indices osh) = Rsum (fun i => cgx W G i * X i) (indices img).
Proof.
  intros X W G. rewrite !inner_comm'. pose proof (out_inner (K := Rring) n h w oc kh kw stride padding (outF (K := Rring) n c h w oc kh kw stride padding X W) G) as E.
  unfold cf, osh, oh, ow. etransitivity; [exact E|]. apply (grad_input (K := Rring) n c h w oc kh kw stride padding).
Qed.
Lemma cf_weight : forall X W G, Rsum (fun o => G o * cf X W o) (indices osh) = Rsum (fun i => cgw X G i * W i) (indices wsh).
Proof.
  intros X W G. rewrite !inner_comm'. pose proof (out_inner (K := Rring) n h w oc kh kw stride padding (outF (K := Rring) n c h w oc kh kw stride padding X W) G) as E.
  unfold cf, osh, oh, ow. etransitivity; [exact E|]. apply (grad_weight (K := Rring) n c h w oc kh kw stride padding).
Qed.
Lemma cf_bias : forall B G, Rsum (fun o => G o * B (bi o)) (indices osh) = Rsum (fun i => cgb G i * B i) (indices [oc]).
Proof.
  intros B G. rewrite !inner_comm'.
  pose proof (out_inner (K := Rring) n h w oc kh kw stride padding (fun idx => B [nth 1 idx 0%nat]) G) as E. unfold bi, back, rows, osh, oh, ow. etransitivity; [exact E|]. clear E.
  pose proof (grad_bias (K := Rring) n c h w oc kh kw stride padding (fun _ => 0) (fun _ => 0) B G) as E. cbn [biasF] in E.
  unfold inner at 1 in E. rewrite (sum_ext (K := Rring) _ (fun i => @add Rring
     (@mul Rring (outF (K := Rring) n c h w oc kh kw stride padding (fun _ => 0) (fun _ => 0) i) (G (revidx [n; oc; positions h kh (dh stride) (dh padding); positions w kw (dw stride) (dw padding)] [(n * (positions h kh (dh stride) (dh padding) * positions w kw (dw stride) (dw padding)))%nat; oc] i)))
     (@mul Rring (B [nth 1 i 0%nat]) (G (revidx [n; oc; positions h kh (dh stride) (dh padding); positions w kw (dw stride) (dw padding)] [(n * (positions h kh (dh stride) (dh padding) * positions w kw (dw stride) (dw padding)))%nat; oc] i))))) in E by (intros; rg).
  rewrite (sum_add (K := Rring)) in E. apply Rplus_eq_reg_l in E. exact E.
Qed.
Lemma law_conv2 : forall r1 r2, law lo M (OConv stride padding) [(img, r1); (wsh, r2)] osh.
Proof.
  intros. apply (law_two lo M _ img wsh osh r1 r2 cf cgx cgw); intros; try exact I; auto.
  - apply cf_forward.
  - apply of_curve; auto.
  - apply cf_input.
  - apply cf_weight.
  - cbn [backRule inp nth]. unfold img, wsh, osh, oh, ow. etransitivity; [apply (f_equal (fun r => rbind r _) (backward_exact (K := Rring) n c h w oc kh kw stride padding HW Hoc X W G))|reflexivity].
  - cbn [backRule inp nth]. unfold img, wsh, osh, oh, ow. etransitivity; [apply (f_equal (fun r => rbind r _) (backward_exact (K := Rring) n c h w oc kh kw stride padding HW Hoc X W G))|reflexivity].
Qed.
Lemma law_conv3 : forall r1 r2 r3, n <> 0%nat -> law lo M (OConv stride padding) [(img, r1); (wsh, r2); ([oc], r3)] osh.
Proof.
  intros r1 r2 r3 Hn. apply (law_three lo M _ img wsh [oc] osh r1 r2 r3 cf cgx cgw cgb bi); intros; try exact I; auto.
  - apply cf_forward.
  - apply of_curve; auto.
  - apply cf_input.
  - apply cf_weight.
  - apply cf_forward3. auto.
  - unfold bi, back. assert (E : numel osh = numel [rows; oc]) by (unfold osh, rows; rewrite !numel_cons, numel_nil; ring).
    pose proof (revidx_valid [rows; oc] osh o E H) as V. apply valid2 in V. destruct V as (i & j & -> & Hi & Hj). repeat constructor. auto.
  - apply cf_bias.
  - cbn [backRule inp nth]. unfold img, wsh, osh, oh, ow. etransitivity; [apply (f_equal (fun r => rbind r _) (backward_exact (K := Rring) n c h w oc kh kw stride padding HW Hoc X W G))|reflexivity].
  - cbn [backRule inp nth]. unfold img, wsh, osh, oh, ow. etransitivity; [apply (f_equal (fun r => rbind r _) (backward_exact (K := Rring) n c h w oc kh kw stride padding HW Hoc X W G))|reflexivity].
  - cbn [backRule inp nth]. unfold img, wsh, osh, oh, ow. etransitivity; [apply (f_equal (fun r => rbind r _) (backward_exact (K := Rring) n c h w oc kh kw stride padding HW Hoc X W G))|reflexivity].
Qed.
End Conv.

(** * Losses *)
Definition red_shape (red : reduction) (sh : list nat) : list nat := match red with NONE => sh | _ => [] end.
Definition red_val (red : reduction) (sh : list nat) (L : tens) : tens := fun o =>
  match red with NONE => L o | MEAN => Rsum L (indices sh) / INR (numel sh) | SUM => Rsum L (indices sh) end.
Lemma red_loss : forall red sh L, reduced_loss red sh L = tensor_of (red_shape red sh) (red_val red sh L).
Proof. intros red sh L. destruct red; auto. cbn. unfold average. rewrite indices_length. auto. Qed.
Lemma red_pair : forall red sh G L, numel sh <> 0%nat ->
  Rsum (fun o => G o * red_val red sh L o) (indices (red_shape red sh)) = Rsum (fun o => term_weight red (numel sh) G o * L o) (indices sh).
Proof.
  intros red sh G L Hn. assert (P : INR (numel sh) <> 0) by (apply not_0_INR; auto). destruct red; cbn [red_shape red_val term_weight indices]; auto.
  - rewrite (sum_cons (K := Rring)), (sum_nil (K := Rring)). etransitivity; [|symmetry; apply (sum_mul_l (K := Rring) (G [] / INR (numel sh)) L)]. unfold Rdiv. rg.
  - rewrite (sum_cons (K := Rring)), (sum_nil (K := Rring)). etransitivity; [|symmetry; apply (sum_mul_l (K := Rring) (G []) L)]. rg.
Qed.
Lemma red_curve : forall red sh (L : R -> tens) x0 D, (forall o, valid sh o -> derivable_pt_lim (fun x => L x o) x0 (D o)) ->
  forall o, valid (red_shape red sh) o -> derivable_pt_lim (fun x => red_val red sh (L x) o) x0 (red_val red sh D o).
Proof.
  intros red sh L x0 D H o V. assert (S : derivable_pt_lim (fun x => Rsum (L x) (indices sh)) x0 (Rsum D (indices sh))).
  { apply (dlim_sum (fun i x => L x i) D). intros i Hi. apply H. apply indices_in. auto. }
  destruct red; cbn [red_val]; auto. unfold Rdiv.
  apply (dlim_ext _ (fun x => / INR (numel sh) * Rsum (L x) (indices sh))); [intros; apply Rmult_comm|]. eapply dlim_val; [|apply dlim_scal; exact S]. apply Rmult_comm.
Qed.
Lemma loss_grad_of : forall red sh G, loss_grad red sh G = tensor_of (red_shape red sh) G.
Proof. intros red sh G. destruct red; reflexivity. Qed.

Lemma law_mse : forall lo M sh tsh r red, positive sh -> positive tsh -> is_broadcast [sh; tsh] sh -> law lo M (OMse red) [(sh, r); (tsh, false)] (match red with NONE => sh | _ => [] end).
Proof.
  intros lo M sh tsh r red P1 P2 HB. change (match red with NONE => sh | _ => [] end) with (red_shape red sh). assert (Hn : numel sh <> 0%nat) by (apply positive_numel; auto).
  assert (T2 : bto tsh sh) by (apply (is_broadcast_bto [sh; tsh]); cbn; auto).
  set (e := fun (X : nat -> tens) o => X 0%nat o - X 1%nat (bidx tsh o)).
  exists (fun X => red_val red sh (fun o => e X o * e X o)), (fun X D => red_val red sh (fun o => 2 * e X o * e D o)),
    (fun X G k => match k with 0%nat => fun o => 2 * e X o * term_weight red (numel sh) G o | _ => reduced_grad (K := Rring) tsh sh (fun o => - (2 * e X o * term_weight red (numel sh) G o)) end).
  split; [|split].
  - intros X. cbn [args length seq combine map fst snd]. cbn [forward]. rewrite (mse_forward_of sh tsh P1 P2 HB). rewrite red_loss. reflexivity.
  - intros X _. split.
    + intros [|[|[|k]]] kd G E R _; try discriminate; injection E as <-; [|discriminate]. cbn [args length seq combine map fst snd backRule inp nth].
      rewrite <- loss_grad_of. rewrite (mse_backward_of sh tsh P1 P2 HB). reflexivity.
    + intros k kd _ _ Hp. discriminate Hp.
    + intros G D. rewrite red_pair by auto. unfold pairs. cbn [length seq combine fst snd]. rewrite !(sum_cons (K := Rring)), (sum_nil (K := Rring)). cbn [fst snd].
      pose proof (reduce_adjoint (K := Rring) tsh sh (fun o => - (2 * e X o * term_weight red (numel sh) G o)) (D 1%nat) T2) as A2.
      rewrite (sum_ext (K := Rring) (fun i => reduced_grad (K := Rring) tsh sh _ i * D 1%nat i) (fun i => @mul Rring (D 1%nat i) (reduced_grad (K := Rring) tsh sh (fun o => - (2 * e X o * term_weight red (numel sh) G o)) i))) by (intros; rg).
      rewrite <- A2. match goal with |- _ = add ?a (add ?b zero) => transitivity (@add Rring a b); [|rg] end. rewrite <- (sum_add (K := Rring)). apply (sum_ext (K := Rring)). intros o _.
      set (t := term_weight red (numel sh) G o). unfold e at 2. rg.
  - intros C x0 D _ HC o V. apply (red_curve red sh (fun x o => e (C x) o * e (C x) o)); auto. intros q Vq.
    assert (E : derivable_pt_lim (fun x => e (C x) q) x0 (e D q)).
    { apply (derivable_pt_lim_minus (fun x => C x 0%nat q) (fun x => C x 1%nat (bidx tsh q))); [apply (HC 0%nat (sh, r)); auto|apply (HC 1%nat (tsh, false)); auto]. apply (bidx_valid tsh sh); auto. }
    eapply dlim_val; [|apply (dlim_prod _ _ _ _ _ E E)]. cbv beta. ring.
Qed.

Definition class (C : nat) (z : Z) : nat := if (z <? 0)%Z then Z.to_nat (z + Z.of_nat C) else Z.to_nat z.
Lemma class_is : forall C z, (exists T, dim_is C z T) -> dim_is C z (class C z).
Proof. intros C z (T & [H1 H2]). unfold dim_is, class. destruct (Z.ltb_spec z 0); lia. Qed.
Lemma law_nll : forall lo M B C r t red, B <> 0%nat -> (forall b, (b < B)%nat -> exists T, dim_is C (t [b]) T) -> red <> NONE ->
  law lo M (ONll (tensor_of [B] t) red) [([B; C], r)] [].
Proof.
  intros lo M B C r t red HB HT HR. set (T := fun b => class C (t [b])). assert (PT : picks_class B C t T) by (intros b Hb; apply class_is; auto).
  assert (E0 : red_shape red [B] = []) by (destruct red; auto; congruence). assert (NE : numel [B] = B) by (rewrite numel_cons, numel_nil; lia).
  set (src := fun o : list nat => [nth 0 o 0%nat; T (nth 0 o 0%nat)]).
  exists (fun X => red_val red [B] (fun o => - X 0%nat (src o))), (fun X D => red_val red [B] (fun o => - D 0%nat (src o))),
    (fun X G _ o => if (T (nth 0 o 0) =? nth 1 o 0)%nat then - term_weight red B G [] else 0).
  assert (Vs : forall o, valid [B] o -> valid [B; C] (src o)).
  { intros o V. inversion V as [|b ? r' ? Hb V1]; subst. inversion V1; subst. unfold src. cbn [nth]. repeat constructor; auto. apply PT. auto. }
  split; [|split].
  - intros X. cbn [args length seq combine map fst snd]. cbn [forward]. rewrite (nll_forward_of B C [] _ t T) by (auto; rewrite NE; auto). rewrite red_loss, E0. f_equal. apply tensor_of_ext. intros o _.
    unfold red_val. assert (ES : Rsum (fun o => - X 0%nat (nth 0 o 0%nat :: T (nth 0 o 0%nat) :: skipn 1 o)) (indices [B]) = Rsum (fun o => - X 0%nat (src o)) (indices [B])).
    { apply (sum_ext (K := Rring)). intros q Hq. apply indices_in in Hq. inversion Hq as [|b ? r' ? Hb V1]; subst. inversion V1; subst. reflexivity. }
    rewrite ES. destruct red; auto; congruence.
  - intros X _. split.
    + intros [|[|k]] kd G E _ HG; try discriminate. injection E as <-. cbn [args length seq combine map fst snd backRule inp nth]. rewrite (nll_backward_of B C _ t T) by auto.
      f_equal. apply tensor_of_ext. intros o _. destruct (_ =? _)%nat; auto. change (G [] = 1) in HG. destruct red; cbn [term_weight]; rewrite ?HG; try congruence. unfold Rdiv. ring.
    + intros k kd _ _ Hp. discriminate Hp.
    + intros G D. rewrite <- E0 at 1. rewrite red_pair by (rewrite NE; auto). rewrite NE. unfold pairs. cbn [length seq combine fst snd]. rewrite !(sum_cons (K := Rring)), (sum_nil (K := Rring)). cbn [fst snd].
      match goal with |- _ = add ?a zero => transitivity a; [|rg] end. rewrite sum2, indices_1, (sum_map (K := Rring)). apply (sum_ext (K := Rring)). intros b Hb. apply in_seq in Hb. cbn [nth].
      assert (EW : term_weight red B G [b] = term_weight red B G []) by (destruct red; auto; congruence). rewrite EW. unfold src. cbn [nth].
      rewrite (sum_ext (K := Rring) _ (fun j => if j =? T b then @mul Rring (- term_weight red B G []) (D 0%nat [b; j]) else @zero Rring)).
      * symmetry. etransitivity; [apply (sum_single (K := Rring) Nat.eqb Nat.eqb_eq (fun j => @mul Rring (- term_weight red B G []) (D 0%nat [b; j]))); [apply seq_NoDup|]|rg].
        destruct (PT b) as [HC _]; [lia|]. apply in_seq. lia.
      * intros j _. rewrite (Nat.eqb_sym (T b)). destruct (j =? T b)%nat; rg.
  - intros Cv x0 D _ HC o V. apply (red_curve red [B] (fun x o => - Cv x 0%nat (src o))); [|rewrite E0; auto]. intros q Vq. apply (derivable_pt_lim_opp (fun x => Cv x 0%nat (src q))). apply (HC 0%nat ([B; C], r)); auto.
Qed.

Lemma every_law : forall lo M op ks sh, 0 <= M -> accepts op ks sh -> law lo M op ks sh.
Proof.
  intros lo M op ks sh HM H. destruct H.
  - apply law_sin.
  - apply law_cos.
  - apply law_relu; auto.
  - apply law_sum; auto.
  - apply law_reshape; auto.
  - eapply law_softmax; eauto.
  - eapply law_logsoftmax; eauto.
  - apply law_dropout; auto.
  - apply law_no_dropout.
  - destruct H as [<-|[<-|[<-|[<-|[]]]]]; [apply law_add|apply law_sub|apply law_mul|apply law_div]; auto.
  - apply law_linear2; auto.
  - apply law_linear3; auto.
  - apply law_conv2; auto.
  - apply law_conv3; auto.
  - apply law_mse; auto.
  - apply law_nll; auto.
Qed.
