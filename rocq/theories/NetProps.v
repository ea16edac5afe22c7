(** C85: [backward()] of a scalar computed by a whole tensor program. *)
From Coq Require Import ZArith List Bool Arith Lia Reals Lra.
From Verif Require Import ShapeModel ShapeSpec TensorModel TensorSpec BcastModel BcastSpec BufModel LossModel LinalgModel CutSpec AutogradModel NetModel NetSpec NetProofs7.
From Verif Require NetProofs4.
Import ListNotations.

(** Missing: operands of a sum that are used elsewhere (C22), a negative log
    likelihood that is not the result itself (C51), broadcasts that only add
    leading ones (C08), points where relu or a quotient is not differentiable. *)
Theorem program_gradients_partial : forall lo M p ts theta r, (0 <= M)%R -> typed p [] ts -> filled p theta -> nth_error ts r = Some ([], true) ->
  nll_last p r -> sums_once p ->
  exists st, run lo M theta p = Ok st /\ (smooth p st -> exists g, backwardFrom st r = Some g
    /\ (forall l sh, nth_error p l = Some (SLeaf sh false) -> gradOfTensor g l = GNone)
    /\ forall l sh, nth_error p l = Some (SLeaf sh true) -> grad_shape (gradOfTensor g l) sh
       /\ forall j, j < numel sh ->
          derivable_pt_lim (fun x => result (run lo M (replaced theta l j x) p) r) (nth j (theta l) 0%R) (grad_at (gradOfTensor g l) j)).
Proof.
  intros lo M p ts theta r HM HT HF ER NL SO. exists (NetProofs4.outcome lo M p theta). split; [apply (NetProofs4.run_ok lo M p ts HM HT theta HF)|]. eapply main; eauto.
Qed.

(** A classifier with two layers: inputs [2; 3], hidden [2; 4], three classes. *)
Definition labels : tensor Z := tensor_of [2] (fun i => match i with [0] => 2%Z | _ => (-3)%Z end).
Definition classifier : list stmt :=
  [SLeaf [2; 3] true; SApply ORelu [0]; SLeaf [4; 3] true; SLeaf [4] true; SApply OLinear [1; 2; 3]; SApply OSin [4]; SLeaf [3; 4] true; SLeaf [3] false;
   SApply OLinear [5; 6; 7]; SApply (OLogSoftmax 1%Z) [8]; SApply (ONll labels MEAN) [9]].
Definition classifier_kinds : list kind :=
  [([2; 3], true); ([2; 3], true); ([4; 3], true); ([4], true); ([2; 4], true); ([2; 4], true); ([3; 4], true); ([3], false); ([2; 3], true); ([2; 3], true); ([], true)].
Lemma Ok_same : forall {A} (a b : A), Ok a = Ok b -> a = b.
Proof. intros A a b H. injection H as H. exact H. Qed.
Lemma classifier_typed : typed classifier [] classifier_kinds.
Proof.
  unfold classifier. do 1 apply typed_leaf. eapply typed_apply; [reflexivity|apply accepts_relu; repeat constructor; lia|]. do 2 apply typed_leaf.
  eapply typed_apply; [reflexivity|apply accepts_linear_bias; lia|]. eapply typed_apply; [reflexivity|apply accepts_sin|]. do 2 apply typed_leaf.
  eapply typed_apply; [reflexivity|apply accepts_linear_bias; lia|]. eapply typed_apply; [reflexivity|apply accepts_logsoftmax with (k := 1); unfold dim_is; cbn; lia|].
  eapply typed_apply; [reflexivity|apply accepts_nll|apply typed_nil]; [lia| |discriminate].
  intros b Hb. destruct b as [|[|b]]; [exists 2|exists 0|lia]; unfold dim_is; cbn; lia.
Qed.
Example program_gradients_meets : (0 <= 88)%R /\ typed classifier [] classifier_kinds
  /\ filled classifier (fun l => match l with 0 => [1; -2; 3; 4; -5; 6]%R | 2 => repeat 1%R 12 | 3 => repeat 2%R 4 | 6 => repeat (-1)%R 12 | _ => repeat 5%R 3 end)
  /\ nth_error classifier_kinds 10 = Some ([], true) /\ nll_last classifier 10 /\ sums_once classifier
  /\ forall lo st, run lo 88 (fun l => match l with 0 => [1; -2; 3; 4; -5; 6]%R | 2 => repeat 1%R 12 | 3 => repeat 2%R 4 | 6 => repeat (-1)%R 12 | _ => repeat 5%R 3 end) classifier = Ok st -> smooth classifier st.
Proof.
  set (theta := fun l => match l with 0 => [1; -2; 3; 4; -5; 6]%R | 2 => repeat 1%R 12 | 3 => repeat 2%R 4 | 6 => repeat (-1)%R 12 | _ => repeat 5%R 3 end).
  assert (H0 : (0 <= 88)%R) by lra.
  assert (HF : filled classifier theta). { intros l sh r E. do 11 (destruct l as [|l]; [try discriminate E; injection E as <- <-; reflexivity|]). destruct l; discriminate E. }
  split; [lra|]. split; [apply classifier_typed|]. split; [exact HF|]. split; [reflexivity|]. split; [|split].
  - intros i t red xs E. do 11 (destruct i as [|i]; [try discriminate E; reflexivity|]). destruct i; discriminate E.
  - split; [|split]; intros i; intros; do 11 (destruct i as [|i]; [discriminate|]); destruct i; discriminate.
  - intros lo st E. pose proof (NetProofs4.run_ok lo 88 classifier classifier_kinds H0 classifier_typed theta HF) as (E' & _ & _). rewrite E in E'. apply Ok_same in E'. rewrite E'. clear E E' st. split.
    + intros i x Ei. destruct i as [|[|i]]; [discriminate Ei| |exfalso; do 9 (destruct i as [|i]; [discriminate Ei|]); destruct i; discriminate Ei]. injection Ei as <-.
      rewrite (leaf_elements lo 88 classifier classifier_kinds theta H0 classifier_typed HF 0 _ _ eq_refl). cbn. intros H. repeat destruct H as [H|H]; try lra.
    + intros i x y Ei. do 11 (destruct i as [|i]; [discriminate Ei|]). destruct i; discriminate Ei.
Qed.

Print Assumptions program_gradients_partial.
