(** Whole gentle programs, and [backward()] on their results. *)
From Coq Require Import ZArith List Bool Arith Lia Permutation Reals Lra.
From Verif Require Import AutogradModel AutogradSpec AutogradProofs AutogradProofs2 AutogradProofs3 AutogradProps GradModel ProgModel ProgSpec ProgProofs ProgProofs2 ProgProofs3 ProgProofs4.
Import ListNotations.
Close Scope R_scope.
Open Scope nat_scope.

Definition made (p : program) : nat := length (filter (fun s => match snd s with SIn _ _ _ | SFill _ _ => false | _ => true end) p).
Lemma made_cons : forall en s p, made ((en, s) :: p) = (if creates s then 1 else 0) + made p.
Proof. intros en s p. unfold made. cbn [filter snd]. destruct s; reflexivity. Qed.
Lemma run1_length : forall theta phi en s ps, length (run1 theta phi en s ps) = (if creates s then 1 else 0) + length ps.
Proof. intros theta phi en s ps. destruct s; cbn [run1 creates]; cbn zeta; rewrite ?app_length, ?set_at_length; cbn; lia. Qed.

Lemma whole : forall theta l (adds : nat -> Prop) p st ps used P cnt, Inv st ps used -> DInv theta l st ps P -> EInv adds st cnt ->
  gentle theta p used ps -> (forall en s, In (en, s) p -> adds_ok adds s) ->
  l < length ps \/ (exists p1 en p2, p = p1 ++ (en, SLeaf true) :: p2 /\ l = length ps + made p1) ->
  exists st' used', execProg theta p st = Some st' /\ Inv st' (run theta theta p ps) used'
  /\ DInv theta l st' (run theta theta p ps) (fun t => run theta (move theta l t) p (P t))
  /\ EInv adds st' (fun v => cnt v + uses v p) /\ l < length (run theta theta p ps).
Proof.
  intros theta l adds p. induction p as [|[en s] p IH]; intros st ps used P cnt I D E HG HA HL.
  - exists st, used. cbn [execProg run]. split; [auto|]. split; [auto|]. split; [exact D|]. split.
    + eapply e_same; eauto. intros v. lia.
    + destruct HL as [HL|([|? ?] & en & p2 & HL & _)]; [auto|discriminate..].
  - destruct HG as (G1 & G2 & G3).
    destruct (step theta l adds st ps used P cnt en s I D E G1 G2) as (st1 & X1 & I1 & D1 & E1).
    + apply (HA en). left. auto.
    + intros Hc Hl. destruct HL as [HL|([|[en' s'] p1] & en0 & p2 & HL & HL')]; [lia|injection HL as -> -> ->; auto|].
      injection HL as <- <- ->. rewrite made_cons, Hc in HL'. lia.
    + destruct (IH st1 _ _ _ _ I1 D1 E1 G3) as (st' & used' & X & I' & D' & E' & L').
      * intros en0 s0 H. apply (HA en0). right. auto.
      * rewrite run1_length. destruct HL as [HL|([|[en' s'] p1] & en0 & p2 & HL & HL')]; [left; destruct (creates s); lia| |].
        -- injection HL as -> -> ->. left. cbn in *. lia.
        -- injection HL as <- <- ->. rewrite made_cons in HL'. right. exists p1, en0, p2. split; auto. lia.
      * exists st', used'. cbn [execProg run]. rewrite X1. split; [auto|]. split; [auto|]. split; [exact D'|]. split; auto.
        eapply e_same; eauto. intros v. unfold uses. cbn [flat_map snd]. rewrite count_occ_app. lia.
Qed.
(** Without a leaf: the values. *)
Lemma whole_values : forall theta p st ps used, Inv st ps used -> gentle theta p used ps ->
  exists st' used', execProg theta p st = Some st' /\ Inv st' (run theta theta p ps) used'.
Proof.
  intros theta p. induction p as [|[en s] p IH]; intros st ps used I HG; [exists st, used; auto|]. destruct HG as (G1 & G2 & G3).
  destruct (step theta (S (length ps)) (fun _ => True) st ps used (fun _ => map (fun q => Point (base q) (base q) (needs q)) ps) (fun f => count_occ Nat.eq_dec (flat_map nextFns (funcs st)) (match gradFnOf st f with Some f => f | None => 0 end)) en s I) as (st1 & X1 & I1 & _ & _); auto.
  - assert (AT : forall v, at_ (map (fun q => Point (base q) (base q) (needs q)) ps) v = Point (base (at_ ps v)) (base (at_ ps v)) (needs (at_ ps v))).
    { intros v. unfold at_. change no_point with ((fun q => Point (base q) (base q) (needs q)) no_point) at 1. apply map_nth. }
    constructor; intros; rewrite ?map_length, ?AT; cbn; auto. lia.
  - constructor; [intros v f ->; auto|]. intros f t Hf Ht. apply in_combine_l in Ht. apply In_nth_error in Hf. destruct Hf as (i & Hi). destruct (i_next _ _ _ I i f t Hi Ht) as (_ & v & Hv). eauto.
  - destruct s; cbn; auto.
  - intros _ H. lia.
  - destruct (IH _ _ _ I1 G3) as (st' & used' & X & I'). exists st', used'. cbn [execProg run]. rewrite X1. auto.
Qed.
Lemma inv_start : Inv start [] [].
Proof.
  assert (GN : forall v, gradFnOf start v = None) by (intros [|v]; reflexivity).
  constructor; cbn [start vars metas funcs impls]; auto.
  - intros [|v] h H; discriminate.
  - intros v w f H. rewrite GN in H. discriminate.
  - intros f [].
  - intros [|i] f t H; discriminate.
  - intros f [].
  - intros f h [].
  - intros [|v] h H; discriminate.
Qed.

(** * Safe hand-over *)
Lemma count_two : forall {A} (F : A -> list nat) l t u c a b, nth_error l u = Some a -> nth_error l c = Some b -> u <> c ->
  count_occ Nat.eq_dec (F a) t + count_occ Nat.eq_dec (F b) t <= count_occ Nat.eq_dec (flat_map F l) t.
Proof.
  assert (ONE : forall {A} (F : A -> list nat) l t u a, nth_error l u = Some a -> count_occ Nat.eq_dec (F a) t <= count_occ Nat.eq_dec (flat_map F l) t).
  { intros A F l. induction l as [|x l IH]; intros t u a H; [destruct u; discriminate|]. cbn [flat_map]. rewrite count_occ_app. destruct u as [|u]; cbn in H; [injection H as ->; lia|]. specialize (IH t u a H). lia. }
  intros A F l. induction l as [|x l IH]; intros t u c a b Hu Hc Huc; [destruct u; discriminate|]. cbn [flat_map]. rewrite count_occ_app.
  destruct u as [|u], c as [|c]; cbn in Hu, Hc; [tauto|injection Hu as ->; specialize (ONE A F l t c b Hc); lia|injection Hc as ->; specialize (ONE A F l t u a Hu); lia|].
  specialize (IH t u c a b Hu Hc ltac:(lia)). lia.
Qed.
Lemma count_one : forall {A} (F : A -> list nat) l t a, In a l -> count_occ Nat.eq_dec (F a) t <= count_occ Nat.eq_dec (flat_map F l) t.
Proof. intros A F l t a. induction l as [|x l IH]; intros H; [inversion H|]. cbn [flat_map]. rewrite count_occ_app. destruct H as [->|H]; [lia|]. specialize (IH H). lia. Qed.
Lemma count_fst : forall {B} (a : list nat) (b : list B) t, count_occ Nat.eq_dec (map fst (combine a b)) t <= count_occ Nat.eq_dec a t.
Proof. intros B a. induction a as [|x a IH]; intros [|y b] t; cbn [combine map fst count_occ]; try lia. specialize (IH b t). destruct (Nat.eq_dec x t); cbn [combine map fst count_occ] in *; lia. Qed.
Lemma count_node : forall st f t, count_occ Nat.eq_dec (nexts (node st f)) t <= count_occ Nat.eq_dec (nextFns f) t.
Proof. intros st f t. unfold nexts, node. destruct (kept f); cbn [deliveries map count_occ]; [lia|apply count_fst..]. Qed.
Lemma safe : forall (adds : nat -> Prop) st cnt root und, EInv adds st cnt -> (forall v, adds v -> cnt v <= 1) -> passes_safely (plain st) root und.
Proof.
  intros adds st cnt root und E HA u f t _ Ef Hp _. unfold plain in Ef. rewrite nth_error_map in Ef. destruct (nth_error (funcs st) u) as [f0|] eqn:E0; [|discriminate]. injection Ef as <-.
  assert (Hin : In t (nexts (node st f0))) by (unfold nexts; apply in_map_iff; exists (t, Pass); auto).
  apply node_deliveries in Hp. destruct (e_pass _ _ _ E f0 t) as (v & Hv & Av); [eapply nth_error_In; eauto|auto|]. pose proof (e_cnt _ _ _ E v t Hv) as HC. specialize (HA v Av).
  apply (count_occ_In Nat.eq_dec) in Hin. pose proof (count_node st f0 t). pose proof (count_one nextFns (funcs st) t f0 (nth_error_In _ _ E0)). split; [lia|].
  intros c fc _ Ec Hc. unfold plain in Ec. rewrite nth_error_map in Ec. destruct (nth_error (funcs st) c) as [f1|] eqn:E1; [|discriminate]. injection Ec as <-.
  apply (count_occ_In Nat.eq_dec) in Hc. pose proof (count_node st f1 t). destruct (Nat.eq_dec c u) as [|Hcu]; auto. pose proof (count_two nextFns (funcs st) t c u f1 f0 E1 E0 Hcu). lia.
Qed.

Lemma backward_right : forall theta p l r, gentle theta p [] [] -> sums_once p -> grad_leaf p l -> needs (at_ (run theta theta p []) r) = true ->
  exists st g d, execProg theta p start = Some st /\ backwardFrom st r = Some g /\ gradAfter st g l = Some d
  /\ derivable_pt_lim (fun t => moved (at_ (run theta (move theta l t) p []) r)) (theta l) d.
Proof.
  intros theta p l r HG HS (p1 & en & p2 & Hp & Hl) HN. set (adds := fun v => uses v p = 1).
  destruct (whole theta l adds p start [] [] (fun _ => []) (fun _ => 0) inv_start) as (st & used & X & I & D & E & L); auto.
  - assert (AN : forall v, at_ [] v = no_point) by (intros v; apply at_beyond; cbn; lia). constructor; intros; rewrite ?AN; auto. cbn in H. lia.
  - constructor; [intros [|v] f H; discriminate|intros f t []].
  - intros en0 s Hin. destruct s; cbn; auto. destruct (HS en0 b x y Hin) as [H1 H2]. split; auto.
  - right. exists p1, en, p2. auto.
  - destruct (d_after _ _ _ _ _ D L) as (fl & Hfl & HD). specialize (HD r).
    assert (Hr : r < length (run theta theta p [])).
    { destruct (Nat.lt_ge_cases r (length (run theta theta p []))); auto. rewrite at_beyond in HN by auto. discriminate. }
    destruct (var_of theta adds st _ used r I Hr) as (h & Eh). destruct (i_var _ _ _ I r h Eh) as (_ & _ & C & _ & F). destruct (F HN) as (m & f & Hm & Hf).
    assert (Gr : gradFnOf st r = Some f) by (unfold gradFnOf; rewrite Eh, Hm; auto).
    destruct (leaf_gradients_partial (plain st) (State [1%R : Rg] (fun _ => None) []) f 0) as (g & B1 & B2 & _).
    + eapply plain_acyclic; eauto.
    + apply scaling_linear, plain_scaling.
    + rewrite plain_length. apply (gradFn_lt _ _ _ _ _ I Gr).
    + intros n b H. discriminate.
    + cbn. auto.
    + discriminate.
    + intros v _. auto.
    + intros v ds _ _. auto.
    + eapply safe; [exact E|]. unfold adds. intros v ->. auto.
    + exists st, g, (slope st fl r). split; auto. split; [|split].
      * unfold backwardFrom. rewrite Eh, Gr, C, HN. rewrite (observe_plain _ _ _ I). exact B1.
      * unfold gradAfter. rewrite Hfl. cbn [option_map]. f_equal. specialize (B2 fl). unfold gradient in B2 at 1. cbn [gradient heap nth gradOf] in B2.
        unfold slope. rewrite Gr. etransitivity; [exact B2|]. unfold gradient. cbn [gradOf]. apply gadd_0.
      * exact HD.
Qed.
