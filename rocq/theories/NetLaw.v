(** What each function has to satisfy for whole programs to be differentiated
    correctly: value, backward rule and derivative along a curve. *)
From Coq Require Import ZArith List Bool Arith Lia Reals Lra FunctionalExtensionality.
From Verif Require Import ShapeModel ShapeSpec ShapeProofs TensorModel TensorSpec TensorLemmas BcastModel BcastSpec BcastProofs BcastProofs2 ReduceModel GradModel GradProofs NetModel NetSpec NetProofs.
Import ListNotations.
Local Notation Rsum := (sum (K := Rring)).
Local Open Scope R_scope.

Definition args (ks : list kind) (X : nat -> tens) : list (tensor R) := map (fun q => tensor_of (fst (snd q)) (X (fst q))) (combine (seq 0 (length ks)) ks).
Definition first (op : nop) (G : tens) : Prop := match op with ONll _ _ => G [] = 1 | _ => True end.
Definition point (op : nop) (ks : list kind) (X : nat -> tens) : Prop :=
  match op, ks with
  | ORelu, [k] => forall i, valid (fst k) i -> X 0%nat i <> 0
  | ODiv, [_; k] => forall i, valid (fst k) i -> X 1%nat i <> 0
  | _, _ => True
  end.
Definition pairs (ks : list kind) (A D : nat -> tens) : R :=
  Rsum (fun q => Rsum (fun i => A (fst q) i * D (fst q) i) (indices (fst (snd q)))) (combine (seq 0 (length ks)) ks).
Record rules (M : R) (op : nop) (ks : list kind) (osh : list nat) (X : nat -> tens) (Y : tens) (grads : tens -> nat -> tens) (dot : (nat -> tens) -> tens) : Prop := Rules {
  r_rule : forall k kd G, nth_error ks k = Some kd -> snd kd = true -> first op G ->
    backRule M op (args ks X) (tensor_of osh Y) k (tensor_of osh G) = Ok (tensor_of (fst kd) (grads G k));
  r_pass : forall k kd, nth_error ks k = Some kd -> snd kd = true -> passesGrad op (args ks X) (tensor_of osh Y) k = true ->
    fst kd = osh /\ forall G i, valid osh i -> grads G k i = G i;
  r_pair : forall G D, Rsum (fun o => G o * dot D o) (indices osh) = pairs ks (grads G) D }.
Definition law (lo M : R) (op : nop) (ks : list kind) (osh : list nat) : Prop :=
  exists (value : (nat -> tens) -> tens) (dot : (nat -> tens) -> (nat -> tens) -> tens) (grads : (nat -> tens) -> tens -> nat -> tens),
  (forall X, forward lo M op (args ks X) = Ok (tensor_of osh (value X)))
  /\ (forall X, point op ks X -> rules M op ks osh X (value X) (grads X) (dot X))
  /\ (forall (C : R -> nat -> tens) x0 (D : nat -> tens), point op ks (C x0) ->
       (forall k kd i, nth_error ks k = Some kd -> valid (fst kd) i -> derivable_pt_lim (fun x => C x k i) x0 (D k i)) ->
       forall o, valid osh o -> derivable_pt_lim (fun x => value (C x) o) x0 (dot (C x0) D o)).

(** A rule adds up. *)
Definition unit_at (k : nat) (i : list nat) : nat -> tens := fun k' j => if (k' =? k) then (if idx_eqb j i then 1 else 0) else 0.
Lemma sum_unit : forall sh i (f : tens), valid sh i -> Rsum (fun j => f j * (if idx_eqb j i then 1 else 0)) (indices sh) = f i.
Proof.
  intros sh i f V. rewrite (sum_ext (K := Rring) _ (fun j => if idx_eqb j i then f j else @zero Rring)).
  - apply (sum_single (K := Rring) idx_eqb idx_eqb_true f i); [apply indices_nodup|apply indices_in; auto].
  - intros j _. destruct (idx_eqb j i); rg.
Qed.
Lemma pairs_from : forall (ks : list kind) s k (kd : kind) i (A : nat -> tens), nth_error ks k = Some kd -> valid (fst kd) i ->
  Rsum (fun q => Rsum (fun j => A (fst q) j * unit_at (s + k) i (fst q) j) (indices (fst (snd q)))) (combine (seq s (length ks)) ks) = A (s + k)%nat i.
Proof.
  induction ks as [|kd0 ks IH]; intros s k kd i A E V; [destruct k; discriminate|]. cbn [length seq combine]. rewrite (sum_cons (K := Rring)). cbn [fst snd]. destruct k as [|k].
  - injection E as <-. rewrite Nat.add_0_r. rewrite (sum_ext (K := Rring) _ (fun j => A s j * (if idx_eqb j i then 1 else 0))) by (intros j _; unfold unit_at; rewrite Nat.eqb_refl; auto).
    rewrite sum_unit by auto. rewrite (sum_zero' (K := Rring)); [rg|]. intros q Hq. apply (sum_zero' (K := Rring)). intros j _. unfold unit_at.
    assert (fst q <> s). { destruct q as [a b]. apply in_combine_l in Hq. apply in_seq in Hq. cbn. lia. }
    rewrite (proj2 (Nat.eqb_neq _ _)) by auto. rg.
  - cbn [nth_error] in E. pose proof (IH (S s) k kd i A E V) as Q. replace (S s + k)%nat with (s + S k)%nat in Q by lia. rewrite Q.
    rewrite (sum_zero' (K := Rring)); [rg|]. intros j _. unfold unit_at. rewrite (proj2 (Nat.eqb_neq _ _)) by lia. rg.
Qed.
Lemma pairs_unit : forall (ks : list kind) k (kd : kind) i (A : nat -> tens), nth_error ks k = Some kd -> valid (fst kd) i -> pairs ks A (unit_at k i) = A k i.
Proof. intros. apply (pairs_from ks 0 k kd i A); auto. Qed.
Lemma rules_add : forall M op ks osh X Y grads dot, rules M op ks osh X Y grads dot -> forall k kd i G H, nth_error ks k = Some kd -> valid (fst kd) i ->
  grads (fun o => G o + H o) k i = grads G k i + grads H k i.
Proof.
  intros M op ks osh X Y grads dot [_ _ HP] k kd i G H E V. rewrite <- !(pairs_unit ks k kd i) by auto. rewrite <- !HP.
  rewrite <- (sum_add (K := Rring)). apply (sum_ext (K := Rring)). intros o _. rg.
Qed.

(** * Functions of one tensor, element by element *)
Lemma law_elem : forall lo M op sh r (f d : list nat -> R -> R),
  (forall F, forward lo M op [tensor_of sh F] = Ok (tensor_of sh (fun o => f o (F o)))) ->
  (forall F G Y, backRule M op [tensor_of sh F] (tensor_of sh Y) 0 (tensor_of sh G) = Ok (tensor_of sh (fun o => G o * d o (F o)))) ->
  (forall ins out, passesGrad op ins out 0 = true -> forall o x, d o x = 1) ->
  (forall X o, point op [(sh, r)] X -> valid sh o -> derivable_pt_lim (f o) (X 0%nat o) (d o (X 0%nat o))) ->
  law lo M op [(sh, r)] sh.
Proof.
  intros lo M op sh r f d HF HB HP HD. exists (fun X o => f o (X 0%nat o)), (fun X D o => d o (X 0%nat o) * D 0%nat o), (fun X G _ o => G o * d o (X 0%nat o)). split; [|split].
  - intros X. apply HF.
  - intros X HX. split.
    + intros [|[|k]] kd G E _ _; try discriminate. injection E as <-. apply HB.
    + intros [|[|k]] kd E _ Hp; try discriminate. injection E as <-. split; auto. intros G i _. rewrite (HP _ _ Hp). ring.
    + intros G D. unfold pairs. cbn [length seq combine fst snd]. rewrite (sum_cons (K := Rring)), (sum_nil (K := Rring)). cbn [fst snd].
      rewrite (sum_ext (K := Rring) _ (fun i => G i * d i (X 0%nat i) * D 0%nat i)) by (intros; rg). rg.
  - intros C x0 D HX HC o V. eapply dlim_val; [|apply (derivable_pt_lim_comp (fun x => C x 0%nat o) (f o) x0 (D 0%nat o)); [apply (HC 0%nat (sh, r)); auto|apply HD; auto]]. ring.
Qed.
