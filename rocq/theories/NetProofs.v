(** Gradients of tensors through the engine: the sum over all paths pairs with the
    tangents as the chain rule says. *)
From Coq Require Import ZArith List Bool Arith Lia Reals Lra.
From Verif Require Import ShapeModel ShapeSpec ShapeProofs TensorModel TensorSpec TensorLemmas BcastModel BcastProofs BcastProofs2 ReduceModel GradProofs AutogradModel AutogradSpec AutogradProofs AutogradProofs2 NetModel.
Import ListNotations.
Local Notation Rsum := (sum (K := Rring)).
Local Open Scope R_scope.
(** Rings as real numbers. *)
Ltac rr := change (car Rring) with R in *; change (@add Rring) with Rplus in *; change (@mul Rring) with Rmult in *; change (@zero Rring) with 0 in *; change (@opp Rring) with Ropp in *; change (@one Rring) with 1 in *.
Lemma rplus0 : forall a b : R, 0 + a = 0 + b -> a = b.
Proof. intros. lra. Qed.
Ltac rg := rr; (ring || (apply rplus0; rr; ring)).

Definition tens : Type := list nat -> R.
(** A gradient of the right shape, or none. *)
Definition good (sh : list nat) (a : gval) : Prop := a = GNone \/ exists F, a = GTensor (tensor_of sh F).
(** Its elements. *)
Definition elt (sh : list nat) (a : gval) : tens := fun i => match a with GTensor t => nth (ravel sh i) (tdata t) 0 | _ => 0 end.
(** Its inner product with [D]. *)
Definition pair (sh : list nat) (a : gval) (D : tens) : R := Rsum (fun i => elt sh a i * D i) (indices sh).

Lemma elt_of : forall sh F i, valid sh i -> elt sh (GTensor (tensor_of sh F)) i = F i.
Proof.
  intros sh F i V. unfold elt. pose proof (rd_of_idx sh F i V) as H. unfold rd in H. apply nth_error_nth with (d := 0) in H. exact H.
Qed.
Lemma good_elt : forall sh F, good sh (GTensor (tensor_of sh F)).
Proof. intros. right. eauto. Qed.
Lemma plusList_map : forall {I} (f g : I -> R) l, plusList (map f l) (map g l) = map (fun i => f i + g i) l.
Proof. intros I f g l. induction l; cbn; congruence. Qed.
Lemma add_of : forall sh F G, addVal (GTensor (tensor_of sh F)) (GTensor (tensor_of sh G)) = GTensor (tensor_of sh (fun i => F i + G i)).
Proof.
  intros sh F G. cbn [addVal]. assert (E : sameForm (tensor_of sh F) (tensor_of sh G) = true) by (apply sameForm_iff; rewrite !of_length; auto). rewrite E. unfold tensor_of. cbn [tshape tdata]. rewrite plusList_map. auto.
Qed.
Lemma good_add : forall sh a b, good sh a -> good sh b -> good sh (addVal a b) /\ forall i, valid sh i -> elt sh (addVal a b) i = elt sh a i + elt sh b i.
Proof.
  intros sh a b [-> |(F & ->)] [-> |(G & ->)].
  - split; [left; auto|]. intros. cbn. ring.
  - split; [right; eexists; reflexivity|]. intros i V. cbn [addVal]. cbn [elt]. change (elt sh (GTensor (tensor_of sh G)) i = 0 + elt sh (GTensor (tensor_of sh G)) i). ring.
  - split; [right; eexists; reflexivity|]. intros i V. cbn [addVal]. change (elt sh (GTensor (tensor_of sh F)) i = elt sh (GTensor (tensor_of sh F)) i + 0). ring.
  - rewrite add_of. split; [right; eexists; reflexivity|]. intros i V. rewrite !elt_of by auto. auto.
Qed.
Lemma pair_add : forall sh a b D, good sh a -> good sh b -> pair sh (addVal a b) D = pair sh a D + pair sh b D.
Proof.
  intros sh a b D Ha Hb. unfold pair. rewrite (sum_ext (K := Rring) _ (fun i => @add Rring (elt sh a i * D i) (elt sh b i * D i))).
  - apply (sum_add (K := Rring)).
  - intros i Hi. apply indices_in in Hi. rewrite (proj2 (good_add sh a b Ha Hb)) by auto. rg.
Qed.
Lemma pair_none : forall sh D, pair sh GNone D = 0.
Proof. intros. unfold pair. apply (sum_zero' (K := Rring)). intros i _. cbn. apply Rmult_0_l. Qed.
Lemma pair_zero : forall sh a D, (forall i, valid sh i -> D i = 0) -> pair sh a D = 0.
Proof. intros sh a D H. unfold pair. apply (sum_zero' (K := Rring)). intros i Hi. apply indices_in in Hi. rewrite H by auto. apply Rmult_0_r. Qed.
Lemma good_gsum : forall sh (l : list Tg), (forall a, In a l -> good sh a) -> good sh (gsum l) /\ forall D, pair sh (gsum l) D = Rsum (fun a => pair sh a D) l.
Proof.
  intros sh l. induction l as [|a l IH]; intros H.
  - split; [left; auto|]. intros D. cbn. apply pair_none.
  - destruct IH as (IH1 & IH2); [intros; apply H; right; auto|]. assert (Ha : good sh a) by (apply H; left; auto).
    split; [apply good_add; auto|]. intros D. cbn [gsum fold_right]. change (@gadd Tg) with addVal. fold (gsum l). rewrite pair_add by auto. rewrite IH2. rewrite (sum_cons (K := Rring)). auto.
Qed.

Section Engine.
Variables (g : graph Tg) (AC : acyclic g) (LR : linear_rules g).
Variables (sh : nat -> list nat) (D : nat -> tens).
Hypothesis HG : forall u ds t d (a : Tg), nth_error g u = Some (FOp ds) -> In (t, d) ds -> good (sh u) a -> good (sh t) (factor d a).
Hypothesis HP : forall u ds (a : Tg), nth_error g u = Some (FOp ds) -> good (sh u) a ->
  pair (sh u) a (D u) = Rsum (fun e : nat * delivery Tg => pair (sh (fst e)) (factor (snd e) a) (D (fst e))) ds.
Variables (root : nat) (Hr : (root < length g)%nat) (seed : Tg) (HS : good (sh root) seed).

Lemma edges_deliver : forall v u d, In (u, d) (edges_to g v) -> exists ds, nth_error g u = Some (FOp ds) /\ In (v, d) ds.
Proof.
  intros v u d H. unfold edges_to in H. apply in_flat_map in H. destruct H as (w & _ & H). destruct (nth_error g w) as [f|] eqn:E; [|destruct H].
  apply in_map_iff in H. destruct H as ([t d'] & H & Hf). injection H as -> <-. apply filter_In in Hf. destruct Hf as [Hf Ht]. cbn in Ht. apply Nat.eqb_eq in Ht. subst t.
  destruct f as [|ds]; [destruct Hf|]. exists ds. auto.
Qed.
Lemma edge_above : forall v u d, In (u, d) (edges_to g v) -> (v < u < length g)%nat.
Proof.
  intros v u d H. destruct (edges_deliver v u d H) as (ds & E & Hd). split; [|apply nth_error_Some; congruence].
  apply (AC u _ v E). unfold nexts. apply in_map_iff. exists (v, d). auto.
Qed.
Lemma total_good : forall v, good (sh v) (total g root v seed).
Proof.
  assert (H : forall n v, (length g - v < n)%nat -> good (sh v) (total g root v seed)).
  { induction n as [|n IH]; intros v Hn; [lia|]. rewrite (total_eq g AC LR) by auto.
    apply good_add.
    - destruct (Nat.eqb_spec v root) as [->|]; [auto|left; auto].
    - apply good_gsum. intros a Ha. apply in_map_iff in Ha. destruct Ha as ([u d] & <- & He). cbn [fst snd]. pose proof (edge_above v u d He).
      destruct (edges_deliver v u d He) as (ds & E & Hd). eapply HG; eauto. apply IH. lia. }
  intros v. apply (H (S (length g - v))). lia.
Qed.
Definition P (v : nat) : R := pair (sh v) (total g root v seed) (D v).
Definition q (u : nat) (e : nat * delivery Tg) : R := pair (sh (fst e)) (factor (snd e) (total g root u seed)) (D (fst e)).
Lemma P_eq : forall v, P v = (if v =? root then pair (sh root) seed (D root) else 0)
  + Rsum (fun u => Rsum (fun e => if fst e =? v then q u e else 0) (match nth_error g u with Some f => deliveries f | None => [] end)) (seq 0 (length g)).
Proof.
  intros v. unfold P. rewrite (total_eq g AC LR) by auto.
  assert (HA : forall a, In a (map (fun e => factor (snd e) (total g root (fst e) seed)) (edges_to g v)) -> good (sh v) a).
  { intros a Ha. apply in_map_iff in Ha. destruct Ha as ([u d] & <- & He). cbn [fst snd]. destruct (edges_deliver v u d He) as (ds & E & Hd). eapply HG; eauto. apply total_good. }
  change (@gadd Tg) with addVal. rewrite pair_add; [|destruct (Nat.eqb_spec v root) as [->|]; [auto|left; auto]|apply good_gsum; auto].
  f_equal; [destruct (Nat.eqb_spec v root) as [->|]; auto; apply pair_none|].
  rewrite (proj2 (good_gsum (sh v) _ HA)). rewrite (sum_map (K := Rring)). unfold edges_to. rewrite (sum_flat_map (K := Rring)). apply (sum_ext (K := Rring)). intros u _.
  destruct (nth_error g u) as [f|]; auto. rewrite (sum_map (K := Rring)). cbn [fst snd]. rewrite (sum_filter (K := Rring)). apply (sum_ext (K := Rring)). intros [t d] _. cbn [fst snd].
  destruct (Nat.eqb_spec t v) as [->|]; auto.
Qed.
Lemma sum_one : forall t (x : R) n, (t < n)%nat -> Rsum (fun v => if t =? v then x else 0) (seq 0 n) = x.
Proof.
  intros t x n. induction n as [|n IH]; intros H; [lia|]. rewrite seq_S, (sum_app (K := Rring)), (sum_cons (K := Rring)), (sum_nil (K := Rring)). cbn [Nat.add].
  change (@add Rring) with Rplus. change (@zero Rring) with 0. destruct (Nat.eqb_spec t n) as [->|Hn].
  - rewrite (sum_zero' (K := Rring)); [rg|]. intros v Hv. apply in_seq in Hv. destruct (Nat.eqb_spec n v); [lia|auto].
  - rewrite IH by lia. rg.
Qed.
(** What the root receives is what the leaves get. *)
Lemma leaves_pair : pair (sh root) seed (D root)
  = Rsum (fun v => match nth_error g v with Some (FOp _) => 0 | _ => P v end) (seq 0 (length g)).
Proof.
  assert (E : Rsum P (seq 0 (length g)) = pair (sh root) seed (D root)
    + Rsum (fun u => match nth_error g u with Some (FOp _) => P u | _ => 0 end) (seq 0 (length g))).
  { rewrite (sum_ext (K := Rring) P _ _ (fun v _ => P_eq v)). rewrite (sum_add (K := Rring)). change (@add Rring) with Rplus. f_equal.
    - rewrite (sum_ext (K := Rring) _ (fun v => if root =? v then pair (sh root) seed (D root) else 0)) by (intros v _; rewrite Nat.eqb_sym; auto). apply sum_one; auto.
    - rewrite (sum_swap (K := Rring)). apply (sum_ext (K := Rring)). intros u Hu. destruct (nth_error g u) as [[|ds]|] eqn:Eu.
      + rewrite (sum_zero' (K := Rring)); auto.
      + cbn [deliveries]. rewrite (sum_swap (K := Rring)). unfold P. rewrite (HP u ds) by (auto using total_good). apply (sum_ext (K := Rring)). intros [t d] Hd. cbn [fst].
        rewrite sum_one; auto. assert (t < u)%nat by (apply (AC u _ t Eu); unfold nexts; apply in_map_iff; exists (t, d); auto). apply in_seq in Hu. lia.
      + rewrite (sum_zero' (K := Rring)); auto. }
  assert (E2 : Rsum P (seq 0 (length g)) = Rsum (fun v => match nth_error g v with Some (FOp _) => 0 | _ => P v end) (seq 0 (length g))
    + Rsum (fun u => match nth_error g u with Some (FOp _) => P u | _ => 0 end) (seq 0 (length g))).
  { change Rplus with (@add Rring). rewrite <- (sum_add (K := Rring)). apply (sum_ext (K := Rring)). intros v _. rr. destruct (nth_error g v) as [[|ds]|]; ring. }
  lra.
Qed.
Lemma leaf_pair : forall l, (l < length g)%nat -> nth_error g l = Some FLeaf ->
  (forall v, nth_error g v = Some FLeaf -> v <> l -> forall i, valid (sh v) i -> D v i = 0) ->
  pair (sh root) seed (D root) = pair (sh l) (total g root l seed) (D l).
Proof.
  intros l Hl El H0. rewrite leaves_pair. rewrite (sum_ext (K := Rring) _ (fun v => if l =? v then P l else 0)); [apply sum_one; auto|].
  intros v Hv. destruct (Nat.eqb_spec l v) as [<-|N].
  - rewrite El. auto.
  - destruct (nth_error g v) as [[|ds]|] eqn:E; auto.
    + unfold P. apply pair_zero. intros i Vi. apply (H0 v); auto.
    + apply nth_error_None in E. apply in_seq in Hv. lia.
Qed.
End Engine.
