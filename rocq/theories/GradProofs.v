From Coq Require Import ZArith List Bool Arith Lia Reals Lra.
From Verif Require Import ShapeModel ShapeSpec ShapeProofs TensorModel TensorSpec TensorLemmas BcastModel BcastSpec BcastProofs BcastProofs2 IndexProofs ReduceModel GradModel GradSpec.
Import ListNotations.
Open Scope R_scope.

(** * Derivatives *)
Lemma dlim_loc : forall f g x l e, 0 < e -> (forall h, Rabs h < e -> f (x + h) = g (x + h)) -> derivable_pt_lim g x l -> derivable_pt_lim f x l.
Proof.
  intros f g x l e He H D eps Heps. destruct (D eps Heps) as [d Hd]. assert (Hm : 0 < Rmin d e) by (apply Rmin_glb_lt; auto; apply d).
  exists (mkposreal _ Hm). intros h Hh Hlt. cbn in Hlt. assert (HX : f x = g x).
  { specialize (H 0). rewrite Rplus_0_r in H. apply H. rewrite Rabs_R0. auto. }
  rewrite H, HX.
  - apply Hd; auto. apply Rlt_le_trans with (1 := Hlt). apply Rmin_l.
  - apply Rlt_le_trans with (1 := Hlt). apply Rmin_r.
Qed.
Lemma dlim_ext : forall f g x l, (forall y, f y = g y) -> derivable_pt_lim g x l -> derivable_pt_lim f x l.
Proof. intros f g x l H. apply (dlim_loc f g x l 1); [lra|auto]. Qed.
Lemma dlim_val : forall f x l m, l = m -> derivable_pt_lim f x l -> derivable_pt_lim f x m.
Proof. intros; subst; auto. Qed.
Local Notation Rsum := (sum (K := Rring)).
Lemma dlim_sum : forall {I} (f : I -> R -> R) (d : I -> R) x l, (forall i, In i l -> derivable_pt_lim (f i) x (d i)) ->
  derivable_pt_lim (fun t => Rsum (fun i => f i t) l) x (Rsum d l).
Proof.
  intros I f d x l. induction l as [|i l IH]; intros H.
  - apply (dlim_ext _ (fct_cte 0)); auto. apply derivable_pt_lim_const.
  - rewrite sum_cons. apply (dlim_ext _ (f i + (fun t => Rsum (fun i => f i t) l))%F); [intros y; rewrite sum_cons; reflexivity|].
    change (@add Rring (d i) (Rsum d l)) with (d i + Rsum d l). apply derivable_pt_lim_plus; [apply H; left; auto|apply IH; intros; apply H; right; auto].
Qed.
Lemma dlim_scal : forall c f x l, derivable_pt_lim f x l -> derivable_pt_lim (fun t => c * f t) x (c * l).
Proof. intros c f x l H. apply (derivable_pt_lim_scal f c x l H). Qed.
Lemma dlim_cst : forall c x, derivable_pt_lim (fun _ => c) x 0.
Proof. intros. apply derivable_pt_lim_const. Qed.
Lemma dlim_id : forall x, derivable_pt_lim (fun t => t) x 1.
Proof. intros. apply derivable_pt_lim_id. Qed.

Lemma weigh_of : forall sh (H f : list nat -> R), weigh (map H (indices sh)) (Ok (tensor_of sh f)) = Rsum (fun o => H o * f o) (indices sh).
Proof.
  intros sh H f. unfold weigh, tensor_of, sum. cbn [tdata]. generalize (indices sh). intros l. induction l as [|o l IH]; auto.
  cbn. cbn in IH. rewrite IH. auto.
Qed.
Lemma put_same : forall F i x, put F i x i = x.
Proof. intros. unfold put. destruct (list_eq_dec Nat.eq_dec i i); congruence. Qed.
Lemma put_other : forall F i x j, j <> i -> put F i x j = F j.
Proof. intros. unfold put. destruct (list_eq_dec Nat.eq_dec j i); congruence. Qed.
(** The derivative of a weighted sum of terms that read one element each. *)
Lemma dlim_read : forall (sh : list nat) (F H : list nat -> R) (rdx : list nat -> list nat) (f : list nat -> R -> R) (d : list nat -> R) i,
  (forall o, valid sh o -> derivable_pt_lim (f o) (F (rdx o)) (d o)) ->
  derivable_pt_lim (fun x => Rsum (fun o => H o * f o (put F i x (rdx o))) (indices sh)) (F i)
    (Rsum (fun o => H o * d o) (filter (fun o => same_idx (rdx o) i) (indices sh))).
Proof.
  intros sh F H rdx f d i HD. rewrite (sum_filter (K := Rring) (fun o => same_idx (rdx o) i) (fun o => H o * d o)).
  apply (dlim_sum (fun o x => H o * f o (put F i x (rdx o)))). intros o Ho. apply indices_in in Ho. specialize (HD o Ho). unfold same_idx. destruct (list_eq_dec Nat.eq_dec (rdx o) i) as [E|E].
  - apply dlim_scal. rewrite E in *. apply (dlim_ext _ (f o)); auto. intros y. rewrite put_same. auto.
  - apply (dlim_ext _ (fun _ => H o * f o (F (rdx o)))); [intros y; rewrite put_other by auto; auto|]. apply dlim_cst.
Qed.

(** * Broadcasting with the result's own shape *)
Lemma broadcast_more : forall l0 l sh, is_broadcast l0 sh -> (forall s, In s l -> In s l0 \/ s = sh) -> In sh l -> is_broadcast l sh.
Proof.
  intros l0 l sh [HL HP] HI Hs. assert (HL0 : forall s, In s l -> (length s <= length sh)%nat).
  { intros s H. destruct (HI s H) as [H0| -> ]; auto. rewrite HL. apply le_list_max. apply in_map. auto. }
  split.
  - apply Nat.le_antisymm; [apply le_list_max; apply in_map; auto|]. apply list_max_le. apply Forall_forall. intros n Hn. apply in_map_iff in Hn. destruct Hn as (s & <- & H). auto.
  - intros p Hp. specialize (HP p Hp). destruct HP as [HP1 HP2]. split.
    + intros s H. destruct (HI s H) as [H0| -> ]; auto.
    + right. exists sh. auto.
Qed.
Lemma binary_of : forall f sh1 F sh2 G sh, positive sh1 -> positive sh2 -> is_broadcast [sh1; sh2] sh ->
  binary f (tensor_of sh1 F) (tensor_of sh2 G) = Ok (tensor_of sh (fun o => f (F (bidx sh1 o)) (G (bidx sh2 o)))).
Proof.
  intros f sh1 F sh2 G sh H1 H2 HB. unfold binary. apply (elementwise_correct (fun l => f (nth 0 l 0) (nth 1 l 0)) [(sh1, F); (sh2, G)] sh).
  - repeat constructor; auto.
  - apply broadcastShape_iff; auto. repeat constructor; auto.
Qed.
Lemma ternary_of : forall f sh1 F sh2 G sh3 H sh, positive sh1 -> positive sh2 -> positive sh3 -> is_broadcast [sh1; sh2; sh3] sh ->
  ternary f (tensor_of sh1 F) (tensor_of sh2 G) (tensor_of sh3 H) = Ok (tensor_of sh (fun o => f (F (bidx sh1 o)) (G (bidx sh2 o)) (H (bidx sh3 o)))).
Proof.
  intros f sh1 F sh2 G sh3 H sh H1 H2 H3 HB. unfold ternary. apply (elementwise_correct (fun l => f (nth 0 l 0) (nth 1 l 0) (nth 2 l 0)) [(sh1, F); (sh2, G); (sh3, H)] sh).
  - repeat constructor; auto.
  - apply broadcastShape_iff; auto. repeat constructor; auto.
Qed.
Lemma unaryR_of : forall f sh F, unaryR f (tensor_of sh F) = Ok (tensor_of sh (fun o => f (F o))).
Proof. intros. unfold unaryR. rewrite unary_correct. auto. Qed.
Lemma reduce_of : forall sh1 F sh B, bto sh1 sh -> exists r, reduceTo (tensor_of sh1 F) (Ok (tensor_of sh B)) = Ok r
  /\ tdata r = map (reduced_grad (K := Rring) sh1 sh B) (indices sh1) /\ (tshape r = sh1 \/ exists k, tshape r = repeat 1%nat k ++ sh1).
Proof.
  intros sh1 F sh B Hb. assert (E' : reduceTo (tensor_of sh1 F) (Ok (tensor_of sh B)) = match reduceGrad (K := Rring) sh1 (@tensor_of Rring sh B) with None => UB | Some r => Ok r end) by reflexivity. destruct (reduceGrad_cases (K := Rring) sh1 sh B Hb) as (r & E & ED & ES).
  rewrite E', E. exists r. split; auto. split; auto. destruct ES as [ES|(ES & k & Ek)]; [auto|right; exists (S k); rewrite <- Ek; exact ES].
Qed.

Section Binary.
Variables (sh1 sh2 sh : list nat).
Hypothesis P1 : positive sh1.
Hypothesis P2 : positive sh2.
Hypothesis HB : is_broadcast [sh1; sh2] sh.
Variables (F G H : list nat -> R).
Let PS : positive sh.
Proof. apply (is_broadcast_positive [sh1; sh2]); auto. Qed.
Let T1 : bto sh1 sh.
Proof. apply (is_broadcast_bto [sh1; sh2]); cbn; auto. Qed.
Let T2 : bto sh2 sh.
Proof. apply (is_broadcast_bto [sh1; sh2]); cbn; auto. Qed.

Lemma grad_first : forall f d B, (forall o, valid sh o -> derivable_pt_lim (fun x => f x (G (bidx sh2 o))) (F (bidx sh1 o)) (d o)) ->
  (forall o, valid sh o -> B o = H o * d o) ->
  is_gradient (fun t => binary f t (tensor_of sh2 G)) sh1 F (tensor_of sh H) (reduceTo (tensor_of sh1 F) (Ok (tensor_of sh B))).
Proof.
  intros f d B HD HBo. destruct (reduce_of sh1 F sh B T1) as (r & E & ED & ES). exists r, (reduced_grad (K := Rring) sh1 sh B). split; auto. split; auto. split; auto.
  intros i Hi. unfold reduced_grad. rewrite (sum_ext (K := Rring) _ (fun o => H o * d o)) by (intros o Ho; apply filter_In in Ho; apply HBo; apply indices_in; tauto).
  apply (dlim_ext _ (fun x => Rsum (fun o => H o * (fun x => f x (G (bidx sh2 o))) (put F i x (bidx sh1 o))) (indices sh))).
  - intros x. rewrite (binary_of f sh1 _ sh2 G sh) by auto. unfold tdata at 1, tensor_of at 1. rewrite weigh_of. auto.
  - apply (dlim_read sh F H (bidx sh1) (fun o x => f x (G (bidx sh2 o))) d i). auto.
Qed.
Lemma grad_second : forall f d B, (forall o, valid sh o -> derivable_pt_lim (fun x => f (F (bidx sh1 o)) x) (G (bidx sh2 o)) (d o)) ->
  (forall o, valid sh o -> B o = H o * d o) ->
  is_gradient (fun t => binary f (tensor_of sh1 F) t) sh2 G (tensor_of sh H) (reduceTo (tensor_of sh2 G) (Ok (tensor_of sh B))).
Proof.
  intros f d B HD HBo. destruct (reduce_of sh2 G sh B T2) as (r & E & ED & ES). exists r, (reduced_grad (K := Rring) sh2 sh B). split; auto. split; auto. split; auto.
  intros i Hi. unfold reduced_grad. rewrite (sum_ext (K := Rring) _ (fun o => H o * d o)) by (intros o Ho; apply filter_In in Ho; apply HBo; apply indices_in; tauto).
  apply (dlim_ext _ (fun x => Rsum (fun o => H o * (fun x => f (F (bidx sh1 o)) x) (put G i x (bidx sh2 o))) (indices sh))).
  - intros x. rewrite (binary_of f sh1 F sh2 _ sh) by auto. unfold tdata at 1, tensor_of at 1. rewrite weigh_of. auto.
  - apply (dlim_read sh G H (bidx sh2) (fun o x => f (F (bidx sh1 o)) x) d i). auto.
Qed.
(** The intermediate operations on the incoming gradient. *)
Lemma with_second : forall f, binary f (tensor_of sh H) (tensor_of sh2 G) = Ok (tensor_of sh (fun o => f (H o) (G (bidx sh2 o)))).
Proof.
  intros f. rewrite (binary_of f sh H sh2 G sh); auto.
  - f_equal. apply tensor_of_ext. intros o Ho. rewrite bidx_same by auto. auto.
  - apply (broadcast_more [sh1; sh2]); cbn; auto. intros s [<-|[<-|[]]]; auto.
Qed.
Lemma with_first : forall f, binary f (tensor_of sh H) (tensor_of sh1 F) = Ok (tensor_of sh (fun o => f (H o) (F (bidx sh1 o)))).
Proof.
  intros f. rewrite (binary_of f sh H sh1 F sh); auto.
  - f_equal. apply tensor_of_ext. intros o Ho. rewrite bidx_same by auto. auto.
  - apply (broadcast_more [sh1; sh2]); cbn; auto. intros s [<-|[<-|[]]]; auto.
Qed.
Lemma with_both : forall f, ternary f (tensor_of sh1 F) (tensor_of sh2 G) (tensor_of sh H) = Ok (tensor_of sh (fun o => f (F (bidx sh1 o)) (G (bidx sh2 o)) (H o))).
Proof.
  intros f. rewrite (ternary_of f sh1 F sh2 G sh H sh); auto.
  - f_equal. apply tensor_of_ext. intros o Ho. rewrite (bidx_same sh) by auto. auto.
  - apply (broadcast_more [sh1; sh2]); cbn; auto. intros s [<-|[<-|[<-|[]]]]; auto.
Qed.
End Binary.

(** * One operand *)
Lemma unaryBackward_of : forall f sh F H, unaryBackward f (tensor_of sh H) (tensor_of sh F) = Ok (tensor_of sh (fun o => f (F o) (H o))).
Proof.
  intros f sh F H. unfold unaryBackward. cbn [tshape tensor_of]. unfold list_eqb. destruct (list_eq_dec Nat.eq_dec sh sh); [|congruence].
  fold (tensor_of sh F). fold (tensor_of sh H).
  rewrite (tab_tensor sh _ (fun o => f (F o) (H o))); auto. intros o Ho. rewrite !rd_of_idx by auto. auto.
Qed.
Lemma grad_unary : forall (fwd : tensor R -> res (tensor R)) f sh F H d B, (forall F, fwd (tensor_of sh F) = Ok (tensor_of sh (fun o => f (F o)))) ->
  (forall o, valid sh o -> derivable_pt_lim f (F o) (d o)) ->
  (forall o, valid sh o -> B o = H o * d o) -> is_gradient fwd sh F (tensor_of sh H) (Ok (tensor_of sh B)).
Proof.
  intros fwd f sh F H d B HF HD HBo. exists (tensor_of sh B), B. split; auto. split; auto. split; [left; auto|]. intros i Hi.
  apply (dlim_ext _ (fun x => Rsum (fun o => H o * f (put F i x o)) (indices sh))).
  - intros x. rewrite HF. unfold tdata at 1, tensor_of at 1. rewrite weigh_of. auto.
  - apply (dlim_val _ _ (Rsum (fun o => H o * d o) (filter (fun o => same_idx o i) (indices sh)))).
    + rewrite HBo by auto. rewrite (sum_filter (K := Rring) (fun o => same_idx o i) (fun o => H o * d o)).
      apply (sum_single (K := Rring) same_idx same_idx_true (fun o => H o * d o) i); [apply indices_nodup|apply indices_in; auto].
    + apply (dlim_read sh F H (fun o => o) (fun _ => f) d i). auto.
Qed.
