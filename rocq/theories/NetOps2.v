(** The functions of two tensors, element by element. *)
From Coq Require Import ZArith List Bool Arith Lia Reals Lra.
From Verif Require Import ShapeModel ShapeSpec ShapeProofs TensorModel TensorSpec TensorLemmas BcastModel BcastSpec BcastProofs BcastProofs2 BufModel CutModel CutSpec ReduceModel ReduceSpec ReduceProofs
  GradModel GradSpec GradProofs GradProofs2 NetModel NetSpec NetProofs NetLaw.
Import ListNotations.
Local Notation Rsum := (sum (K := Rring)).
Local Open Scope R_scope.
Local Notation rgrad := (reduced_grad (K := Rring)).

Lemma reduced_same : forall sh (B : tens) i, valid sh i -> rgrad sh sh B i = B i.
Proof.
  intros sh B i V. unfold reduced_grad. rewrite (sum_filter (K := Rring)). rewrite (sum_ext (K := Rring) _ (fun j => if idx_eqb j i then B j else @zero Rring)).
  - apply (sum_single (K := Rring) idx_eqb idx_eqb_true B i); [apply indices_nodup|apply indices_in; auto].
  - intros j Hj. apply indices_in in Hj. rewrite bidx_same by auto. rewrite same_idx_eqb. auto.
Qed.
Lemma reduce_own : forall sh1 F sh B, bto sh1 sh -> (~ exists n, sh = repeat 1%nat (S n) ++ sh1) -> reduceTo (tensor_of sh1 F) (Ok (tensor_of sh B)) = Ok (tensor_of sh1 (rgrad sh1 sh B)).
Proof.
  intros sh1 F sh B Hb HN. change (match reduceGrad (K := Rring) sh1 (@tensor_of Rring sh B) with None => UB | Some r => Ok r end = Ok (tensor_of sh1 (rgrad sh1 sh B))).
  destruct (reduceGrad_cases (K := Rring) sh1 sh B Hb) as (r & E & ED & ES). rewrite E. destruct ES as [ES|(_ & k & Ek)]; [|destruct HN; exists k; exact Ek].
  destruct r as [rs rd]. cbn in ED, ES. subst. reflexivity.
Qed.
Lemma keeps_same : forall sh1 sh, bto sh1 sh -> (~ exists n, sh = repeat 1%nat (S n) ++ sh1) -> keepsGrad sh1 sh = true -> sh1 = sh.
Proof.
  intros sh1 sh Hb HN H. pose proof Hb as [Hl _]. unfold keepsGrad in H. rewrite Nat.max_r in H by auto. rewrite gmarks_eq in H by auto. apply gmarks_none in H; [|apply bto_pad; auto].
  destruct (length sh - length sh1)%nat as [|n] eqn:En; [exact H|]. destruct HN. exists n. auto.
Qed.

Section Binary.
Variables (lo M : R) (op : nop) (k1 k2 : kind) (sh : list nat) (f d1 d2 : R -> R -> R).
Let sh1 := fst k1.
Let sh2 := fst k2.
Hypothesis P1 : positive sh1.
Hypothesis P2 : positive sh2.
Hypothesis HB : is_broadcast [sh1; sh2] sh.
Hypothesis O1 : own_shape k1 sh.
Hypothesis O2 : own_shape k2 sh.
Hypothesis H1 : forall G, first op G.
Hypothesis HF : forall a b, forward lo M op [a; b] = binary f a b.
Hypothesis B1 : forall F G Y H, backRule M op [tensor_of sh1 F; tensor_of sh2 G] (tensor_of sh Y) 0 (tensor_of sh H)
  = reduceTo (tensor_of sh1 F) (Ok (tensor_of sh (fun o => H o * d1 (F (bidx sh1 o)) (G (bidx sh2 o))))).
Hypothesis B2 : forall F G Y H, backRule M op [tensor_of sh1 F; tensor_of sh2 G] (tensor_of sh Y) 1 (tensor_of sh H)
  = reduceTo (tensor_of sh2 G) (Ok (tensor_of sh (fun o => H o * d2 (F (bidx sh1 o)) (G (bidx sh2 o))))).
Hypothesis HP1 : forall ins out, passesGrad op ins out 0 = true -> keepsGrad (tshape (inp ins 0)) (tshape out) = true /\ forall a b, d1 a b = 1.
Hypothesis HP2 : forall ins out, passesGrad op ins out 1 = true -> keepsGrad (tshape (inp ins 1)) (tshape out) = true /\ forall a b, d2 a b = 1.
Hypothesis HD : forall X, point op [k1; k2] X -> forall o, valid sh o -> forall a b x0 a' b', a x0 = X 0%nat (bidx sh1 o) -> b x0 = X 1%nat (bidx sh2 o) ->
  derivable_pt_lim a x0 a' -> derivable_pt_lim b x0 b' -> derivable_pt_lim (fun x => f (a x) (b x)) x0 (d1 (a x0) (b x0) * a' + d2 (a x0) (b x0) * b').
Lemma law_binary : law lo M op [k1; k2] sh.
Proof.
  assert (T1 : bto sh1 sh) by (apply (is_broadcast_bto [sh1; sh2]); cbn; auto).
  assert (T2 : bto sh2 sh) by (apply (is_broadcast_bto [sh1; sh2]); cbn; auto).
  exists (fun X o => f (X 0%nat (bidx sh1 o)) (X 1%nat (bidx sh2 o))),
    (fun X D o => d1 (X 0%nat (bidx sh1 o)) (X 1%nat (bidx sh2 o)) * D 0%nat (bidx sh1 o) + d2 (X 0%nat (bidx sh1 o)) (X 1%nat (bidx sh2 o)) * D 1%nat (bidx sh2 o)),
    (fun X H k => match k with
      | 0 => rgrad sh1 sh (fun o => H o * d1 (X 0%nat (bidx sh1 o)) (X 1%nat (bidx sh2 o)))
      | _ => rgrad sh2 sh (fun o => H o * d2 (X 0%nat (bidx sh1 o)) (X 1%nat (bidx sh2 o))) end). split; [|split].
  - intros X. change (args [k1; k2] X) with [tensor_of sh1 (X 0%nat); tensor_of sh2 (X 1%nat)]. rewrite HF. apply binary_of; auto.
  - intros X HX. split.
    + intros [|[|[|k]]] kd G E R _; try discriminate; injection E as <-; change (args [k1; k2] X) with [tensor_of sh1 (X 0%nat); tensor_of sh2 (X 1%nat)].
      * rewrite B1. apply reduce_own; auto.
      * rewrite B2. apply reduce_own; auto.
    + intros [|[|[|k]]] kd E R Hp; try discriminate; injection E as <-.
      * apply HP1 in Hp. destruct Hp as [Hp Hd]. change (keepsGrad sh1 sh = true) in Hp. apply keeps_same in Hp; auto. split; [exact Hp|]. intros G i V.
        rewrite Hp at 1. rewrite reduced_same by auto. rewrite Hd. ring.
      * apply HP2 in Hp. destruct Hp as [Hp Hd]. change (keepsGrad sh2 sh = true) in Hp. apply keeps_same in Hp; auto. split; [exact Hp|]. intros G i V.
        rewrite Hp at 1. rewrite reduced_same by auto. rewrite Hd. ring.
    + intros G D. unfold pairs. cbn [length seq combine fst snd]. rewrite !(sum_cons (K := Rring)), (sum_nil (K := Rring)). cbn [fst snd].
      pose proof (reduce_adjoint (K := Rring) sh1 sh (fun o => G o * d1 (X 0%nat (bidx sh1 o)) (X 1%nat (bidx sh2 o))) (D 0%nat) T1) as A1.
      pose proof (reduce_adjoint (K := Rring) sh2 sh (fun o => G o * d2 (X 0%nat (bidx sh1 o)) (X 1%nat (bidx sh2 o))) (D 1%nat) T2) as A2. fold sh1 sh2.
      rewrite (sum_ext (K := Rring) (fun i => rgrad sh1 sh _ i * D 0%nat i) (fun i => @mul Rring (D 0%nat i) (rgrad sh1 sh (fun o => G o * d1 (X 0%nat (bidx sh1 o)) (X 1%nat (bidx sh2 o))) i))) by (intros; rg).
      rewrite (sum_ext (K := Rring) (fun i => rgrad sh2 sh _ i * D 1%nat i) (fun i => @mul Rring (D 1%nat i) (rgrad sh2 sh (fun o => G o * d2 (X 0%nat (bidx sh1 o)) (X 1%nat (bidx sh2 o))) i))) by (intros; rg).
      rewrite <- A1, <- A2. match goal with |- _ = add ?a (add ?b zero) => transitivity (@add Rring a b); [|rg] end. rewrite <- (sum_add (K := Rring)). apply (sum_ext (K := Rring)). intros o _. rg.
  - intros C x0 D HX HC o V. apply (HD (C x0) HX o V (fun x => C x 0%nat (bidx sh1 o)) (fun x => C x 1%nat (bidx sh2 o))); auto.
    + apply (HC 0%nat k1); auto. apply (bidx_valid sh1 sh); auto.
    + apply (HC 1%nat k2); auto. apply (bidx_valid sh2 sh); auto.
Qed.
End Binary.

Section Four.
Variables (lo M : R) (k1 k2 : kind) (sh : list nat).
Hypothesis P1 : positive (fst k1).
Hypothesis P2 : positive (fst k2).
Hypothesis HB : is_broadcast [fst k1; fst k2] sh.
Hypothesis O1 : own_shape k1 sh.
Hypothesis O2 : own_shape k2 sh.
Lemma law_add : law lo M OAdd [k1; k2] sh.
Proof.
  apply (law_binary lo M OAdd k1 k2 sh (opAdd 1) (fun _ _ => 1) (fun _ _ => 1)); auto; try (intros; exact I).
  - intros F G Y H. cbn [backRule addBackward fst snd inp nth]. f_equal. f_equal. apply tensor_of_ext. intros o _. ring.
  - intros F G Y H. cbn [backRule addBackward fst snd inp nth]. f_equal. f_equal. apply tensor_of_ext. intros o _. ring.
  - intros X _ o _ a b x0 a' b' _ _ Da Db. unfold opAdd. eapply dlim_val; [|apply (derivable_pt_lim_plus a (fun x => 1 * b x)); [exact Da|apply dlim_scal; exact Db]]. ring.
Qed.
Lemma law_sub : law lo M OSub [k1; k2] sh.
Proof.
  apply (law_binary lo M OSub k1 k2 sh (opSub 1) (fun _ _ => 1) (fun _ _ => - (1))); auto; try (intros; exact I).
  - intros F G Y H. cbn [backRule subBackward fst snd inp nth]. f_equal. f_equal. apply tensor_of_ext. intros o _. ring.
  - intros F G Y H. cbn [backRule subBackward fst snd inp nth]. rewrite unaryR_of. f_equal. f_equal. apply tensor_of_ext. intros o _. ring.
  - intros ins out H. discriminate H.
  - intros X _ o _ a b x0 a' b' _ _ Da Db. unfold opSub. eapply dlim_val; [|apply (derivable_pt_lim_minus a (fun x => 1 * b x)); [exact Da|apply dlim_scal; exact Db]]. ring.
Qed.
Lemma law_mul : law lo M OMul [k1; k2] sh.
Proof.
  apply (law_binary lo M OMul k1 k2 sh opMul (fun _ b => b) (fun a _ => a)); auto; try (intros; exact I).
  - intros F G Y H. cbn [backRule mulBackward fst snd inp nth]. rewrite (with_second (fst k1) (fst k2) sh) by auto. f_equal.
  - intros F G Y H. cbn [backRule mulBackward fst snd inp nth]. rewrite (with_first (fst k1) (fst k2) sh) by auto. f_equal.
  - intros ins out H. discriminate H.
  - intros ins out H. discriminate H.
  - intros X _ o _ a b x0 a' b' _ _ Da Db. unfold opMul. eapply dlim_val; [|apply (derivable_pt_lim_mult a b); [exact Da|exact Db]]. ring.
Qed.
Lemma law_div : law lo M ODiv [k1; k2] sh.
Proof.
  apply (law_binary lo M ODiv k1 k2 sh opDiv (fun _ b => / b) (fun a b => - a / (b * b))); auto; try (intros; exact I).
  - intros F G Y H. cbn [backRule divBackward fst snd inp nth]. rewrite (with_second (fst k1) (fst k2) sh) by auto. f_equal.
  - intros F G Y H. cbn [backRule divBackward fst snd inp nth]. rewrite (with_both (fst k1) (fst k2) sh) by auto. f_equal. f_equal. apply tensor_of_ext. intros o _. unfold opDivBackwardP2, Rdiv. ring.
  - intros ins out H. discriminate H.
  - intros ins out H. discriminate H.
  - intros X HX o V a b x0 a' b' _ Eb Da Db. unfold opDiv.
    assert (NZ : b x0 <> 0). { rewrite Eb. apply HX. apply (bidx_valid (fst k2) sh); auto. apply (is_broadcast_bto [fst k1; fst k2]); cbn; auto. }
    eapply dlim_val; [|apply (derivable_pt_lim_div a b); [exact Da|exact Db|exact NZ]]. unfold Rsqr. field. auto.
Qed.
End Four.
