(** Linear layers and convolutions. *)
From Coq Require Import ZArith List Bool Arith Lia Reals Lra.
From Verif Require Import ShapeModel ShapeSpec ShapeProofs TensorModel TensorSpec TensorLemmas BcastModel BcastSpec BcastProofs BcastProofs2 BufModel CutModel CutSpec ReduceModel ReduceSpec ReduceProofs
  LinalgModel LinalgSpec IndexProofs LinalgProofs LinalgProofs2 LinalgProofs3 LinalgProofs4 LinalgProps LinearModel LinearProofs GradModel GradSpec GradProofs GradProofs2 NetModel NetSpec NetProofs NetLaw.
Import ListNotations.
Local Notation Rsum := (sum (K := Rring)).
Local Open Scope R_scope.

Definition clip (sh : list nat) (F : tens) : tens := fun i => if existsb (idx_eqb i) (indices sh) then F i else 0.
Lemma clip_in : forall sh i, existsb (idx_eqb i) (indices sh) = true <-> valid sh i.
Proof.
  intros. rewrite existsb_exists. split.
  - intros (j & Hj & E). apply idx_eqb_true in E. subst. apply indices_in. auto.
  - intros V. exists i. split; [apply indices_in; auto|apply idx_eqb_true; auto].
Qed.
Lemma clip_same : forall sh F i, valid sh i -> clip sh F i = F i.
Proof. intros sh F i V. unfold clip. rewrite (proj2 (clip_in sh i) V). auto. Qed.
Lemma clip_tensor : forall sh F, tensor_of sh (clip sh F) = tensor_of sh F.
Proof. intros. apply tensor_of_ext. intros i V. apply clip_same. auto. Qed.
Lemma clip_curve : forall sh (C : R -> tens) x0 D, (forall i, valid sh i -> derivable_pt_lim (fun x => C x i) x0 (D i)) ->
  forall i, derivable_pt_lim (fun x => clip sh (C x) i) x0 (clip sh D i).
Proof.
  intros sh C x0 D H i. unfold clip. destruct (existsb (idx_eqb i) (indices sh)) eqn:E; [apply H; apply clip_in; auto|apply dlim_cst].
Qed.
Lemma of_inj : forall sh (F G : tens), tensor_of sh F = tensor_of sh G -> forall i, valid sh i -> F i = G i.
Proof. intros sh F G E i V. rewrite <- (elt_of sh F i V), <- (elt_of sh G i V), E. auto. Qed.
Lemma dlim_prod : forall f g x a b, derivable_pt_lim f x a -> derivable_pt_lim g x b -> derivable_pt_lim (fun t => f t * g t) x (a * g x + f x * b).
Proof. intros f g x a b H1 H2. exact (derivable_pt_lim_mult f g x a b H1 H2). Qed.
Lemma dlim_plus : forall f g x a b, derivable_pt_lim f x a -> derivable_pt_lim g x b -> derivable_pt_lim (fun t => f t + g t) x (a + b).
Proof. intros f g x a b H1 H2. exact (derivable_pt_lim_plus f g x a b H1 H2). Qed.

Section Bilinear.
Variables (lo M : R) (op : nop) (s0 s1 s2 osh : list nat) (r0 r1 r2 : bool).
Variable f : tens -> tens -> tens.
Variables gx gw : tens -> tens -> tens.
Variable gb : tens -> tens.
Variable bi : list nat -> list nat.
Hypothesis H1 : forall G, first op G.
Hypothesis HP : forall ins out k, passesGrad op ins out k = false.
Hypothesis F2 : forall X W, forward lo M op [tensor_of s0 X; tensor_of s1 W] = Ok (tensor_of osh (f X W)).
Hypothesis HD : forall (C0 C1 : R -> tens) x0 D0 D1, (forall i, derivable_pt_lim (fun x => C0 x i) x0 (D0 i)) -> (forall i, derivable_pt_lim (fun x => C1 x i) x0 (D1 i)) ->
  forall o, derivable_pt_lim (fun x => f (C0 x) (C1 x) o) x0 (f D0 (C1 x0) o + f (C0 x0) D1 o).
Hypothesis A0 : forall X W G, Rsum (fun o => G o * f X W o) (indices osh) = Rsum (fun i => gx W G i * X i) (indices s0).
Hypothesis A1 : forall X W G, Rsum (fun o => G o * f X W o) (indices osh) = Rsum (fun i => gw X G i * W i) (indices s1).

Lemma f_clip : forall X W o, valid osh o -> f (clip s0 X) (clip s1 W) o = f X W o.
Proof.
  intros X W. apply of_inj. pose proof (F2 X W) as E. rewrite <- (clip_tensor s0 X), <- (clip_tensor s1 W), F2 in E. injection E as E.
  unfold tensor_of. f_equal. exact E.
Qed.
Lemma f_curve : forall (C0 C1 : R -> tens) x0 D0 D1, (forall i, valid s0 i -> derivable_pt_lim (fun x => C0 x i) x0 (D0 i)) -> (forall i, valid s1 i -> derivable_pt_lim (fun x => C1 x i) x0 (D1 i)) ->
  forall o, valid osh o -> derivable_pt_lim (fun x => f (C0 x) (C1 x) o) x0 (f D0 (C1 x0) o + f (C0 x0) D1 o).
Proof.
  intros C0 C1 x0 D0 D1 HC0 HC1 o V. apply (dlim_ext _ (fun x => f (clip s0 (C0 x)) (clip s1 (C1 x)) o)); [intros; symmetry; apply f_clip; auto|].
  eapply dlim_val; [|apply HD; [apply clip_curve; exact HC0|apply clip_curve; exact HC1]]. cbv beta. rewrite !f_clip by auto. auto.
Qed.
Lemma law_two :
  (forall X W Y G, backRule M op [tensor_of s0 X; tensor_of s1 W] (tensor_of osh Y) 0 (tensor_of osh G) = Ok (tensor_of s0 (gx W G))) ->
  (forall X W Y G, backRule M op [tensor_of s0 X; tensor_of s1 W] (tensor_of osh Y) 1 (tensor_of osh G) = Ok (tensor_of s1 (gw X G))) ->
  law lo M op [(s0, r0); (s1, r1)] osh.
Proof.
  intros B0 B1. exists (fun X => f (X 0%nat) (X 1%nat)), (fun X D o => f (D 0%nat) (X 1%nat) o + f (X 0%nat) (D 1%nat) o),
    (fun X G k => match k with 0%nat => gx (X 1%nat) G | _ => gw (X 0%nat) G end). split; [|split].
  - intros X. apply F2.
  - intros X _. split.
    + intros [|[|[|k]]] kd G E _ _; try discriminate; injection E as <-; [apply B0|apply B1].
    + intros k kd _ _ Hp. rewrite HP in Hp. discriminate.
    + intros G D. unfold pairs. cbn [length seq combine fst snd]. rewrite !(sum_cons (K := Rring)), (sum_nil (K := Rring)). cbn [fst snd].
      rewrite <- A0, <- A1. rewrite (sum_ext (K := Rring) _ (fun o => @add Rring (G o * f (D 0%nat) (X 1%nat) o) (G o * f (X 0%nat) (D 1%nat) o))) by (intros; rg).
      rewrite (sum_add (K := Rring)). rg.
  - intros C x0 D _ HC o V. apply (f_curve (fun x => C x 0%nat) (fun x => C x 1%nat)); auto.
    + intros i Vi. apply (HC 0%nat (s0, r0)); auto.
    + intros i Vi. apply (HC 1%nat (s1, r1)); auto.
Qed.
Hypothesis F3 : forall X W B, forward lo M op [tensor_of s0 X; tensor_of s1 W; tensor_of s2 B] = Ok (tensor_of osh (fun o => f X W o + B (bi o))).
Hypothesis Vb : forall o, valid osh o -> valid s2 (bi o).
Hypothesis A2 : forall B G, Rsum (fun o => G o * B (bi o)) (indices osh) = Rsum (fun i => gb G i * B i) (indices s2).
Lemma law_three :
  (forall X W B Y G, backRule M op [tensor_of s0 X; tensor_of s1 W; tensor_of s2 B] (tensor_of osh Y) 0 (tensor_of osh G) = Ok (tensor_of s0 (gx W G))) ->
  (forall X W B Y G, backRule M op [tensor_of s0 X; tensor_of s1 W; tensor_of s2 B] (tensor_of osh Y) 1 (tensor_of osh G) = Ok (tensor_of s1 (gw X G))) ->
  (forall X W B Y G, backRule M op [tensor_of s0 X; tensor_of s1 W; tensor_of s2 B] (tensor_of osh Y) 2 (tensor_of osh G) = Ok (tensor_of s2 (gb G))) ->
  law lo M op [(s0, r0); (s1, r1); (s2, r2)] osh.
Proof.
  intros B0 B1 B2. exists (fun X o => f (X 0%nat) (X 1%nat) o + X 2%nat (bi o)), (fun X D o => f (D 0%nat) (X 1%nat) o + f (X 0%nat) (D 1%nat) o + D 2%nat (bi o)),
    (fun X G k => match k with 0%nat => gx (X 1%nat) G | 1%nat => gw (X 0%nat) G | _ => gb G end). split; [|split].
  - intros X. apply F3.
  - intros X _. split.
    + intros [|[|[|[|k]]]] kd G E _ _; try discriminate; injection E as <-; [apply B0|apply B1|apply B2].
    + intros k kd _ _ Hp. rewrite HP in Hp. discriminate.
    + intros G D. unfold pairs. cbn [length seq combine fst snd]. rewrite !(sum_cons (K := Rring)), (sum_nil (K := Rring)). cbn [fst snd].
      rewrite <- A0, <- A1, <- A2. rewrite (sum_ext (K := Rring) _ (fun o => @add Rring (G o * f (D 0%nat) (X 1%nat) o) (@add Rring (G o * f (X 0%nat) (D 1%nat) o) (G o * D 2%nat (bi o))))) by (intros; rg).
      rewrite !(sum_add (K := Rring)). rg.
  - intros C x0 D _ HC o V. apply dlim_plus.
    + apply (f_curve (fun x => C x 0%nat) (fun x => C x 1%nat)); auto.
      * intros i Vi. apply (HC 0%nat (s0, r0)); auto.
      * intros i Vi. apply (HC 1%nat (s1, r1)); auto.
    + apply (HC 2%nat (s2, r2)); auto.
Qed.
End Bilinear.

(** * Linear layers *)
Section Linear.
Variables (lo M : R) (m k n : nat).
Hypothesis Hm : m <> 0%nat.
Hypothesis Hk : k <> 0%nat.
Hypothesis Hn : n <> 0%nat.
Definition lf (X W : tens) : tens := on2 0 (product (K := Rring) (fun i p => X [i; p]) (fun p j => W [j; p]) k).
Definition lgx (W G : tens) : tens := on2 0 (product (K := Rring) (fun i p => G [i; p]) (fun p j => W [p; j]) n).
Definition lgw (X G : tens) : tens := on2 0 (product (K := Rring) (fun i p => G [p; i]) (fun p j => X [p; j]) m).
Definition lgb (G : tens) : tens := fun idx => Rsum (fun i => G [i; nth 0 idx 0%nat]) (seq 0 m).
Lemma sum2 : forall a b (F : tens), Rsum F (indices [a; b]) = Rsum (fun i => Rsum (fun j => F [i; j]) (seq 0 b)) (seq 0 a).
Proof. intros a b F. rewrite <- (sum_2 (K := Rring)). apply (sum_ext (K := Rring)). intros idx Hi. apply indices_in, valid2 in Hi. destruct Hi as (i & j & -> & _). reflexivity. Qed.
Lemma lf_forward : forall X W, forward lo M OLinear [tensor_of [m; k] X; tensor_of [n; k] W] = Ok (tensor_of [m; n] (lf X W)).
Proof. intros X W. cbn [forward]. unfold linear. pose proof (matmul_2d (K := Rring) false true m k n X W) as E. cbn [at_] in E. etransitivity; [apply (f_equal (fun r => rbind r _) E)|reflexivity]. Qed.
Lemma lf_curve : forall (C0 C1 : R -> tens) x0 D0 D1, (forall i, derivable_pt_lim (fun x => C0 x i) x0 (D0 i)) -> (forall i, derivable_pt_lim (fun x => C1 x i) x0 (D1 i)) ->
  forall o, derivable_pt_lim (fun x => lf (C0 x) (C1 x) o) x0 (lf D0 (C1 x0) o + lf (C0 x0) D1 o).
Proof.
  intros C0 C1 x0 D0 D1 H0 H1 o.
  assert (Z : derivable_pt_lim (fun _ => 0) x0 (0 + 0)) by (eapply dlim_val; [|apply dlim_cst]; ring).
  destruct o as [|i [|j [|? ?]]]; try exact Z. cbn [lf on2]. unfold product.
  eapply dlim_val; [|apply (dlim_sum (fun p x => C0 x [i; p] * C1 x [j; p]) (fun p => D0 [i; p] * C1 x0 [j; p] + C0 x0 [i; p] * D1 [j; p]))].
  - apply (sum_add (K := Rring)).
  - intros p _. apply dlim_prod; auto.
Qed.
Lemma lf_input : forall X W G, Rsum (fun o => G o * lf X W o) (indices [m; n]) = Rsum (fun i => lgx W G i * X i) (indices [m; k]).
Proof.
  intros X W G. rewrite !sum2. apply (sum_ext (K := Rring)). intros i _. cbn [lf lgx on2]. unfold product.
  transitivity (Rsum (fun j => Rsum (fun p => G [i; j] * W [j; p] * X [i; p]) (seq 0 k)) (seq 0 n)).
  - apply (sum_ext (K := Rring)). intros j _. rewrite <- (sum_mul_l (K := Rring)). apply (sum_ext (K := Rring)). intros p _. rg.
  - rewrite (sum_swap (K := Rring)). apply (sum_ext (K := Rring)). intros p _. rewrite <- (sum_mul_r (K := Rring)). reflexivity.
Qed.
Lemma lf_weight : forall X W G, Rsum (fun o => G o * lf X W o) (indices [m; n]) = Rsum (fun i => lgw X G i * W i) (indices [n; k]).
Proof.
  intros X W G. rewrite !sum2. rewrite (sum_swap (K := Rring)). apply (sum_ext (K := Rring)). intros j _. cbn [lf lgw on2]. unfold product.
  transitivity (Rsum (fun i => Rsum (fun p => G [i; j] * X [i; p] * W [j; p]) (seq 0 k)) (seq 0 m)).
  - apply (sum_ext (K := Rring)). intros i _. rewrite <- (sum_mul_l (K := Rring)). apply (sum_ext (K := Rring)). intros p _. rg.
  - rewrite (sum_swap (K := Rring)). apply (sum_ext (K := Rring)). intros p _. rewrite <- (sum_mul_r (K := Rring)). reflexivity.
Qed.
Lemma lf_bias : forall B G, Rsum (fun o => G o * B (bidx [n] o)) (indices [m; n]) = Rsum (fun i => lgb G i * B i) (indices [n]).
Proof.
  intros B G. rewrite sum2. rewrite (sum_swap (K := Rring)). rewrite indices_1, (sum_map (K := Rring)). apply (sum_ext (K := Rring)). intros j Hj. apply in_seq in Hj.
  cbn [lgb]. unfold lgb. cbn [nth]. rewrite <- (sum_mul_r (K := Rring)). apply (sum_ext (K := Rring)). intros i _.
  assert (E : bidx [n] [i; j] = [j]) by (unfold bidx; cbn [length Nat.sub skipn combine map fst snd]; destruct (Nat.eqb_spec n 1); f_equal; lia). rewrite E. reflexivity.
Qed.
Lemma lgx_rule : forall G W, linearGradInput (K := Rring) (tensor_of [m; n] G) (tensor_of [n; k] W) = Ok (tensor_of [m; k] (lgx W G)).
Proof. intros G W. apply (matmul_2d (K := Rring) false false m n k G W). Qed.
Lemma lgw_rule : forall G X, linearGradWeight (K := Rring) (tensor_of [m; n] G) (tensor_of [m; k] X) = Ok (tensor_of [n; k] (lgw X G)).
Proof. intros G X. apply (matmul_2d (K := Rring) true false n m k G X). Qed.
Lemma lgb_rule : forall G, linearGradBias (K := Rring) (tensor_of [m; n] G) = Ok (tensor_of [n] (lgb G)).
Proof.
  intros G. unfold linearGradBias, sumOnDim. rewrite (sumOnDims_correct (K := Rring) [m; n] [0%Z] [true; false]); [|discriminate|discriminate|].
  - change (reduced_shape [true; false] false [m; n]) with [n]. f_equal. apply tensor_of_ext. intros idx V. inversion V as [|o ? idx' ? Ho V']. inversion V'. subst. unfold lgb. cbn [nth].
    unfold group. rewrite (sum_filter (K := Rring)), sum2. apply (sum_ext (K := Rring)). intros r Hr.
    transitivity (Rsum (fun j => if j =? o then G [r; j] else @zero Rring) (seq 0 n)); [|apply (sum_single (K := Rring) Nat.eqb Nat.eqb_eq (fun j => G [r; j])); [apply seq_NoDup|apply in_seq; lia]].
    apply (sum_ext (K := Rring)). intros j Hj. change (reduced_idx [true; false] false [r; j]) with [j].
    destruct (same_idx [j] [o]) eqn:E, (Nat.eqb_spec j o); auto.
    + apply same_idx_true in E. congruence.
    + subst. rewrite (proj2 (same_idx_true _ _) eq_refl) in E. discriminate.
  - split; [reflexivity|]. split; [intros d [<-|[]]; exists 0%nat; split; cbn; lia|]. intros [|[|[|q]]]; cbn [nth]; split; try discriminate; auto.
    + intros _. exists 0%Z. split; [left; auto|split; cbn; lia].
    + intros (d & [<-|[]] & [Ha Hb]). cbn in *. lia.
    + intros (d & [<-|[]] & [Ha Hb]). cbn in *. lia.
    + intros (d & [<-|[]] & [Ha Hb]). cbn in *. lia.
Qed.
Lemma lf_forward3 : forall X W B, forward lo M OLinear [tensor_of [m; k] X; tensor_of [n; k] W; tensor_of [n] B] = Ok (tensor_of [m; n] (fun o => lf X W o + B (bidx [n] o))).
Proof.
  intros X W B. cbn [forward]. unfold linear. pose proof (matmul_2d (K := Rring) false true m k n X W) as E. cbn [at_] in E. etransitivity; [apply (f_equal (fun r => rbind r _) E)|]. clear E. cbn [rbind].
  pose proof (inplace_correct (fun l : list Rring => add (nth 0 l zero) (nth 1 l zero)) [m; n] (lf X W) [Some ([n], B)]) as IP. cbn [map option_map fst snd shp] in IP. etransitivity; [apply IP|reflexivity].
  - repeat constructor; cbn [shp fst]; auto; lia.
  - apply broadcastShape_iff; [repeat constructor; cbn [shp fst]; auto; lia|]. split; [reflexivity|].
    intros [|[|p]] Hp; cbn [length] in Hp; try lia; unfold from_right; cbn [rev app nth shp fst]; (split; [intros s [<-|[<-|[]]]; cbn; auto|right; exists [m; n]; cbn; auto]).
Qed.
Lemma law_linear2 : forall r1 r2, law lo M OLinear [([m; k], r1); ([n; k], r2)] [m; n].
Proof.
  intros. apply (law_two lo M OLinear [m; k] [n; k] [m; n] r1 r2 lf lgx lgw); intros; try exact I; auto.
  - apply lf_forward.
  - apply lf_curve; auto.
  - apply lf_input.
  - apply lf_weight.
  - cbn [backRule inp nth]. apply lgx_rule.
  - cbn [backRule inp nth]. apply lgw_rule.
Qed.
Lemma law_linear3 : forall r1 r2 r3, law lo M OLinear [([m; k], r1); ([n; k], r2); ([n], r3)] [m; n].
Proof.
  intros. apply (law_three lo M OLinear [m; k] [n; k] [n] [m; n] r1 r2 r3 lf lgx lgw lgb (bidx [n])); intros; try exact I; auto.
  - apply lf_forward.
  - apply lf_curve; auto.
  - apply lf_input.
  - apply lf_weight.
  - apply lf_forward3.
  - apply valid2 in H. destruct H as (i & j & -> & Hi & Hj). unfold bidx. cbn. repeat constructor. destruct (Nat.eqb_spec n 1); lia.
  - apply lf_bias.
  - cbn [backRule inp nth]. apply lgx_rule.
  - cbn [backRule inp nth]. apply lgw_rule.
  - cbn [backRule inp nth]. apply lgb_rule.
Qed.
End Linear.
