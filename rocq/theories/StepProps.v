(** C86: one step of gradient descent lowers the loss. *)
From Coq Require Import ZArith List Bool Arith Lia Reals Lra.
From Verif Require Import ShapeModel ShapeSpec TensorModel TensorSpec BcastModel BcastSpec BufModel LossModel LinalgModel CutSpec AutogradModel NetModel NetSpec StepModel StepSpec StepProofs.
From Verif Require NetProofs4.
Import ListNotations.

(** Missing: the programs that [program_gradients_partial] (C85) does not cover. *)
Theorem sgd_step_descends_partial : forall lo M p ts theta r, (0 <= M)%R -> typed p [] ts -> filled p theta -> nth_error ts r = Some ([], true) ->
  nll_last p r -> sums_once p ->
  exists st, run lo M theta p = Ok st /\ (smooth p st -> exists g, backwardFrom st r = Some g
    /\ (forall lr, filled p (sgdStep lr p g theta))
    /\ (has_slope p g -> exists bound, (0 < bound)%R /\ forall lr, (0 < lr < bound)%R ->
          (result (run lo M (sgdStep lr p g theta) p) r < result (run lo M theta p) r)%R)
    /\ (~ has_slope p g -> forall lr l, sgdStep lr p g theta l = theta l)).
Proof.
  intros lo M p ts theta r HM HT HF ER NL SO. exists (NetProofs4.outcome lo M p theta). split; [apply (NetProofs4.run_ok lo M p ts HM HT theta HF)|].
  intros HS. destruct (step_ok lo M p ts theta r HM HT HF ER NL SO HS) as (b & B1 & B2 & B3 & B4). exists b. auto.
Qed.

(** sum(a * b) with b constant: the gradient of a is b. *)
Definition weighted : list stmt := [SLeaf [2] true; SLeaf [2] false; SApply OMul [0; 1]; SApply OSum [2]].
Definition weighted_leaves : nat -> list R := fun l => match l with 0 => [5; 6]%R | _ => [0; 7]%R end.
Example sgd_step_meets : typed weighted [] [([2], true); ([2], false); ([2], true); ([], true)] /\ filled weighted weighted_leaves
  /\ nll_last weighted 3 /\ sums_once weighted
  /\ exists st g, run 0 88 weighted_leaves weighted = Ok st /\ smooth weighted st /\ backwardFrom st 3 = Some g /\ has_slope weighted g.
Proof.
  split; [|split; [|split; [|split]]].
  - do 2 apply typed_leaf. eapply typed_apply; [reflexivity|apply accepts_binary with (sh := [2]); cbn [fst]|].
    + right; right; left; auto.
    + repeat constructor; lia.
    + repeat constructor; lia.
    + split; [reflexivity|]. intros q Hq. cbn in Hq. destruct q as [|q]; [|lia]. split; [intros s [<-|[<-|[]]]; right; reflexivity|right; exists [2]; split; [left|]; reflexivity].
    + intros _ (n & H). destruct n; discriminate.
    + intros H. discriminate.
    + eapply typed_apply; [reflexivity|apply accepts_sum; [repeat constructor; lia|discriminate]|apply typed_nil].
  - intros l sh r E. do 4 (destruct l as [|l]; [try discriminate E; injection E as <- <-; reflexivity|]). destruct l; discriminate E.
  - intros i t red xs E. do 4 (destruct i as [|i]; [discriminate E|]). destruct i; discriminate E.
  - split; [|split]; intros i; intros; do 4 (destruct i as [|i]; [discriminate|]); destruct i; discriminate.
  - assert (V : match run 0 88 weighted_leaves weighted with Ok st => option_map (fun g => grad_at (gradOfTensor g 0) 1) (backwardFrom st 3) | _ => None end = Some (1 * 1 * 7)%R)
      by (lazy -[Rplus Rmult Rminus Ropp Rinv IZR]; reflexivity).
    destruct (run 0 88 weighted_leaves weighted) as [| |st]; try discriminate V. destruct (backwardFrom st 3) as [g|] eqn:B; [|discriminate V].
    exists st, g. split; auto. split; [split; intros i; intros; do 4 (destruct i as [|i]; [discriminate|]); destruct i; discriminate|]. split; auto.
    exists 0, [2], 1. split; [reflexivity|]. split; [cbn; lia|]. cbn [option_map] in V. assert (Q : grad_at (gradOfTensor g 0) 1 = (1 * 1 * 7)%R) by congruence. rewrite Q. lra.
Qed.

Print Assumptions sgd_step_descends_partial.
