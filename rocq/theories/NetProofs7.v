(** One element of one leaf. *)
From Coq Require Import ZArith List Bool Arith Lia Reals Lra FunctionalExtensionality.
From Verif Require Import ShapeModel ShapeSpec ShapeProofs TensorModel TensorSpec TensorLemmas BcastModel BcastSpec BcastProofs BcastProofs2 BufModel CutModel ReduceModel GradModel GradProofs AutogradModel AutogradSpec
  NetModel NetSpec NetProofs NetLaw NetOps3 NetOps4 NetProofs3 NetProofs4 NetProofs5 NetProofs6.
Import ListNotations.
Local Notation Rsum := (sum (K := Rring)).
Local Open Scope nat_scope.

Definition put (j : nat) (x : R) (d : list R) : list R := firstn j d ++ x :: skipn (S j) d.
Lemma put_length : forall j x d, j < length d -> length (put j x d) = length d.
Proof. intros j x d H. unfold put. rewrite app_length, firstn_length. cbn [length]. rewrite skipn_length. lia. Qed.
Lemma put_nth : forall d j x n, j < length d -> nth n (put j x d) 0%R = if n =? j then x else nth n d 0%R.
Proof.
  induction d as [|y d IH]; intros j x n H; cbn in H; [lia|]. destruct j as [|j]; destruct n as [|n]; auto. unfold put. cbn [firstn skipn app nth]. apply (IH j x n). lia.
Qed.
Lemma put_same : forall d j, j < length d -> put j (nth j d 0%R) d = d.
Proof.
  intros d j H. apply (nth_ext _ _ 0%R 0%R); [apply put_length; auto|]. intros n _. rewrite put_nth by auto. destruct (Nat.eqb_spec n j); subst; auto.
Qed.
Lemma replaced_at : forall theta l j x i, replaced theta l j x i = if i =? l then put j x (theta i) else theta i.
Proof. reflexivity. Qed.
Lemma replaced_same : forall theta l j, j < length (theta l) -> replaced theta l j (nth j (theta l) 0%R) = theta.
Proof. intros theta l j H. apply functional_extensionality. intros i. rewrite replaced_at. destruct (Nat.eqb_spec i l) as [->|]; auto. apply put_same. auto. Qed.

Section Main.
Variables (lo M : R) (p : list stmt) (ts : list kind) (theta : nat -> list R) (r : nat).
Hypothesis HM : (0 <= M)%R.
Hypothesis HT : typed p [] ts.
Hypothesis HF : filled p theta.
Hypothesis ER : nth_error ts r = Some ([], true).
Hypothesis NL : nll_last p r.
Hypothesis SO : sums_once p.

Lemma good_shape : forall sh a, good sh a -> grad_shape a sh.
Proof. intros sh a [-> |(F & ->)]; [left; auto|]. right. exists (tdata (tensor_of sh F)). split; auto. apply of_length. Qed.
Lemma result_val : forall th, filled p th -> result (run lo M th p) r = val lo M p ts th r [].
Proof. intros th H. destruct (run_ok lo M p ts HM HT th H) as (-> & _ & _). cbn [result]. unfold val, shp, canon. rewrite ER. auto. Qed.
Lemma leaf_elements : forall l sh rq, nth_error p l = Some (SLeaf sh rq) -> elements (outcome lo M p theta) l = theta l.
Proof. intros l sh rq E. destruct (run_ok lo M p ts HM HT theta HF) as (_ & _ & H3). specialize (H3 l _ E). cbn [node_at] in H3. unfold elements. rewrite H3. auto. Qed.
Lemma main : smooth p (outcome lo M p theta) -> exists b, backwardFrom (outcome lo M p theta) r = Some b
  /\ (forall l sh, nth_error p l = Some (SLeaf sh false) -> gradOfTensor b l = GNone)
  /\ (forall l sh, nth_error p l = Some (SLeaf sh true) -> grad_shape (gradOfTensor b l) sh /\ forall j, j < numel sh ->
       derivable_pt_lim (fun x => result (run lo M (replaced theta l j x) p) r) (nth j (theta l) 0%R) (grad_at (gradOfTensor b l) j)).
Proof.
  intros HS. destruct (back lo M p ts HM HT r ER NL SO (fun _ => theta) 0%R (fun _ _ => 0%R)) as (b & B1 & B2 & B3 & _); auto.
  { intros l sh rq E i V. apply derivable_pt_lim_const. }
  exists b. split; auto. split.
  { intros l sh E. apply (B3 l sh). apply (kind_of p ts HT l _ E). }
  intros l sh E. assert (Hl : l < length p) by (apply nth_error_Some; congruence). pose proof (kind_of p ts HT l _ E) as KL. cbn [kind_at] in KL.
  assert (ES : shp ts l = sh) by (unfold shp; rewrite KL; auto). split; [apply good_shape; rewrite <- ES; auto|].
  intros j Hj. pose proof (HF l sh true E) as LL. set (x0 := nth j (theta l) 0%R). set (i0 := offsetToIndices sh j).
  assert (V0 : valid sh i0) by (apply o2i_valid; auto). assert (R0 : ravel sh i0 = j) by (apply ravel_o2i; auto).
  set (dl := fun (l' : nat) i => if l' =? l then if idx_eqb i i0 then 1%R else 0%R else 0%R).
  assert (HF' : forall x, filled p (replaced theta l j x)).
  { intros x l' sh' rq E'. rewrite replaced_at. destruct (Nat.eqb_spec l' l) as [->|]; [|eapply HF; eauto]. rewrite put_length by lia. eapply HF; eauto. }
  assert (E0 : replaced theta l j x0 = theta) by (apply replaced_same; lia).
  destruct (back lo M p ts HM HT r ER NL SO (fun x => replaced theta l j x) x0 dl) as (b' & B1' & _ & _ & B4); auto.
  { intros l' sh' rq E' i V. unfold dl. destruct (Nat.eqb_spec l' l) as [->|N].
    - rewrite E in E'. injection E' as <- <-. destruct (idx_eqb i i0) eqn:EI.
      + apply idx_eqb_true in EI. subst i. apply (dlim_ext _ (fun x => x)); [|apply derivable_pt_lim_id]. intros x. unfold canon. rewrite replaced_at, Nat.eqb_refl, put_nth by lia. rewrite R0, Nat.eqb_refl. auto.
      + apply (dlim_ext _ (fun _ => canon sh (theta l) i)); [|apply derivable_pt_lim_const]. intros x. unfold canon. rewrite replaced_at, Nat.eqb_refl, put_nth by lia.
        destruct (Nat.eqb_spec (ravel sh i) j) as [Q|]; auto. exfalso. assert (i = i0) by (apply (ravel_inj sh); auto; congruence). subst i. assert (idx_eqb i0 i0 = true) by (apply idx_eqb_true; auto). congruence.
    - apply (dlim_ext _ (fun _ => canon sh' (theta l') i)); [|apply derivable_pt_lim_const]. intros x. rewrite replaced_at. apply Nat.eqb_neq in N. rewrite N. auto. }
  { intros l' sh' E' i V. unfold dl. destruct (Nat.eqb_spec l' l) as [->|]; auto. congruence. }
  { rewrite E0. auto. }
  rewrite E0 in B1'. rewrite B1 in B1'. injection B1' as <-.
  apply (dlim_ext _ (fun x => val lo M p ts (replaced theta l j x) r [])); [intros x; apply result_val; auto|].
  replace (grad_at (gradOfTensor b l) j) with (pair sh (gradOfTensor b l) (dl l)).
  - apply B4 with (rq := true); auto. intros l' sh' rq' _ N i V. unfold dl. apply Nat.eqb_neq in N. rewrite N. auto.
  - unfold pair, dl. rewrite Nat.eqb_refl. rewrite (sum_unit sh i0 (elt sh (gradOfTensor b l))) by auto. unfold elt, grad_at. destruct (gradOfTensor b l); auto. rewrite R0. auto.
Qed.
End Main.
