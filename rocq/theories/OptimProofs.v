From Coq Require Import Reals List Arith Bool Lia Lra ZArith.
From Verif Require Import OptimModel OptimSpec.
Import ListNotations.
Open Scope R_scope.

(** * Lists *)
Lemma dsum_snoc : forall b l x, dsum b (l ++ [x]) = b * dsum b l + x.
Proof.
  intros b l x. induction l as [|y l IH]; cbn [dsum app length].
  - cbn. ring.
  - rewrite IH, app_length. cbn [length]. rewrite Nat.add_1_r. cbn [pow]. ring.
Qed.
Lemma ema_snoc : forall b l x, ema b (l ++ [x]) = b * ema b l + (1 - b) * x.
Proof. intros. unfold ema. rewrite dsum_snoc. ring. Qed.
Lemma squares_snoc : forall l x, squares (l ++ [x]) = squares l ++ [x * x].
Proof. intros. unfold squares. rewrite map_app. reflexivity. Qed.
Lemma total_snoc : forall l x, total (l ++ [x]) = total l + x.
Proof. intros l x. unfold total. induction l; cbn; [ring|rewrite IHl; ring]. Qed.
Lemma last_snoc : forall A (l : list A) x d, last (l ++ [x]) d = x.
Proof. intros A l x d. induction l as [|y l IH]; auto. cbn [app]. destruct (l ++ [x]) eqn:E; [destruct l; discriminate|]. exact IH. Qed.
Lemma prefixesFrom_snoc : forall A B (f : list A -> B) r p x, prefixesFrom f p (r ++ [x]) = prefixesFrom f p r ++ [f (p ++ r ++ [x])].
Proof.
  intros A B f r. induction r as [|y r IH]; intros p x; cbn [app prefixesFrom]; auto. rewrite IH. do 2 f_equal. rewrite <- app_assoc. reflexivity.
Qed.
Lemma prefixes_snoc : forall A B (f : list A -> B) l x, prefixes f (l ++ [x]) = prefixes f l ++ [f (l ++ [x])].
Proof. intros. apply prefixesFrom_snoc. Qed.
Lemma sgdBuf_snoc : forall mu d l x, l <> [] -> sgdBuf mu d (l ++ [x]) = mu * sgdBuf mu d l + (1 - d) * x.
Proof.
  intros mu d [|g r] x HL; [contradiction|]. cbn [sgdBuf app]. rewrite dsum_snoc, app_length. cbn [length]. rewrite Nat.add_1_r. cbn [pow]. ring.
Qed.
Lemma deltasFrom_snoc : forall rho eps r p ds x, deltasFrom rho eps p ds (r ++ [x])
  = deltasFrom rho eps p ds r ++ [sqrt (ema rho (squares (deltasFrom rho eps p ds r)) + eps) / sqrt (ema rho (squares (p ++ r ++ [x])) + eps) * x].
Proof.
  intros rho eps r. induction r as [|y r IH]; intros p ds x; cbn [app deltasFrom]; auto. rewrite IH. rewrite <- !app_assoc. cbn [app]. reflexivity.
Qed.
Lemma historyFrom_snoc : forall n i wd val rest p e, historyFrom n i wd val p (rest ++ [e]) = historyFrom n i wd val p rest
  ++ (match e, gradientOf n i (p ++ rest) with EStep, Some g => [(S (stepsIn (p ++ rest)), g + wd * val (p ++ rest))] | _, _ => [] end).
Proof.
  intros n i wd val rest. induction rest as [|e0 r IH]; intros p e; cbn [app historyFrom].
  - rewrite app_nil_r. rewrite app_nil_r. reflexivity.
  - rewrite IH, <- !app_assoc. reflexivity.
Qed.
Lemma history_step : forall n i wd val es, history n i wd val (es ++ [EStep])
  = history n i wd val es ++ match gradientOf n i es with Some g => [(S (stepsIn es), g + wd * val es)] | None => [] end.
Proof. intros. unfold history. rewrite historyFrom_snoc. cbn [app]. reflexivity. Qed.
Lemma history_other : forall n i wd val es e, e <> EStep -> history n i wd val (es ++ [e]) = history n i wd val es.
Proof. intros n i wd val es e He. unfold history. rewrite historyFrom_snoc. destruct e; try contradiction; rewrite app_nil_r; reflexivity. Qed.

(** * Loops *)
Lemma set_same : forall X (f : nat -> X) k x, set f k x k = x.
Proof. intros. unfold set. rewrite Nat.eqb_refl. reflexivity. Qed.
Lemma set_other : forall X (f : nat -> X) k x j, j <> k -> set f k x j = f j.
Proof. intros. unfold set. destruct (Nat.eqb_spec j k); auto. contradiction. Qed.
Definition same_at (i : nat) (st st' : ost) : Prop :=
  theta st' i = theta st i /\ momH st' i = momH st i /\ c1 st' i = c1 st i /\ c2 st' i = c2 st i /\ c3 st' i = c3 st i
  /\ (forall j, gradH st' j = gradH st j) /\ (forall r, (r < next st)%nat -> heap st' r = heap st r) /\ (next st <= next st')%nat
  /\ stepNo st' = stepNo st /\ lr st' = lr st.
Lemma same_refl : forall i st, same_at i st st.
Proof. intros. repeat split; auto. Qed.
Lemma same_trans : forall i a b c, same_at i a b -> same_at i b c -> same_at i a c.
Proof.
  intros i a b c (A1 & A2 & A3 & A4 & A5 & A6 & A7 & A8 & A9 & A10) (B1 & B2 & B3 & B4 & B5 & B6 & B7 & B8 & B9 & B10).
  repeat split; try congruence; try lia. intros r Hr. rewrite B7 by lia. auto.
Qed.
Lemma fold_other : forall i (f : ost -> nat -> ost), (forall st j, j <> i -> same_at i st (f st j)) ->
  forall l st, ~ In i l -> same_at i st (fold_left f l st).
Proof.
  intros i f H l. induction l as [|j l IH]; intros st HI; cbn; [apply same_refl|].
  apply same_trans with (f st j); [apply H; intros ->; apply HI; left; auto|]. apply IH. intros C. apply HI. right; auto.
Qed.
Lemma fold_at : forall i (f : ost -> nat -> ost), (forall st j, j <> i -> same_at i st (f st j)) ->
  forall l st, NoDup l -> In i l -> exists s1, same_at i st s1 /\ same_at i (f s1 i) (fold_left f l st).
Proof.
  intros i f H l. induction l as [|j l IH]; intros st HN HI; [destruct HI|]. inversion HN; subst. destruct (Nat.eq_dec j i) as [->|Hj].
  - exists st. split; [apply same_refl|]. cbn. apply fold_other; auto.
  - destruct HI as [->|HI]; [contradiction|]. destruct (IH (f st j) H3 HI) as (s1 & A & B). exists s1. split; auto. apply same_trans with (f st j); auto.
Qed.
Ltac same_tac := repeat split; cbn; intros; auto; try (rewrite set_other by lia); auto; try lia.
Lemma alloc_same : forall i st v, same_at i st (snd (alloc st v)).
Proof. intros. unfold alloc; cbn. same_tac. Qed.
Lemma decayed_same : forall i wd j st g st', getDecayedGrad wd j st = Some (g, st') -> same_at i st st'.
Proof.
  intros i wd j st g st' H. unfold getDecayedGrad in H. destruct (gradH st j); [|discriminate]. destruct (Req_EM_T wd 0); inversion H; subst; [apply same_refl|]. apply (alloc_same i st).
Qed.
Lemma theta_same : forall i st j v, j <> i -> same_at i st (withTheta st j v). Proof. intros. same_tac. Qed.
Lemma mom_same : forall i st j v, j <> i -> same_at i st (withMom st j v). Proof. intros. same_tac. Qed.
Lemma c1_same : forall i st j v, j <> i -> same_at i st (withC1 st j v). Proof. intros. same_tac. Qed.
Lemma c2_same : forall i st j v, j <> i -> same_at i st (withC2 st j v). Proof. intros. same_tac. Qed.
Lemma c3_same : forall i st j v, j <> i -> same_at i st (withC3 st j v). Proof. intros. same_tac. Qed.
Ltac same_chain :=
  repeat match goal with
  | |- same_at ?i ?s ?s => apply same_refl
  | H : same_at ?i ?s ?t |- same_at ?i ?s ?t => exact H
  | |- same_at ?i ?s (withTheta ?t ?j ?v) => apply same_trans with t; [|apply theta_same; assumption]
  | |- same_at ?i ?s (withC1 ?t ?j ?v) => apply same_trans with t; [|apply c1_same; assumption]
  | |- same_at ?i ?s (withC2 ?t ?j ?v) => apply same_trans with t; [|apply c2_same; assumption]
  | |- same_at ?i ?s (withC3 ?t ?j ?v) => apply same_trans with t; [|apply c3_same; assumption]
  end.
Lemma body_other : forall a i st j, j <> i -> same_at i st (body a st j).
Proof.
  intros a i st j Hj. destruct a as [mu d wd nest|ld wd ia eps|al eps wd mu cen|rho eps wd|b1 b2 eps wd ams|b1 b2 eps wd ams]; cbn [body].
  - unfold sgdBody. destruct (getDecayedGrad wd j st) as [[g s0]|] eqn:E; [|apply same_refl]. apply same_trans with s0; [apply (decayed_same _ _ _ _ _ _ E)|].
    destruct (Req_EM_T mu 0); [apply theta_same; auto|].
    assert (HB : forall p : ref * ost, same_at i s0 (snd p) ->
      same_at i s0 (let '(g1, s1) := (let s1 := withMom (snd p) j (fst p) in if nest then alloc s1 (heap s1 g + mu * heap s1 (fst p)) else (fst p, s1)) in withTheta s1 j (theta s1 j - lr s1 * heap s1 g1))).
    { intros [b s1] Hp. cbn [fst snd] in *. cbv zeta. destruct nest.
      - destruct (alloc (withMom s1 j b) _) as [g2 s2] eqn:EA. apply same_trans with s2; [|apply theta_same; auto]. apply same_trans with (withMom s1 j b).
        + apply same_trans with s1; auto. apply mom_same; auto.
        + replace s2 with (snd (alloc (withMom s1 j b) (heap (withMom s1 j b) g + mu * heap (withMom s1 j b) b))) by (rewrite EA; reflexivity). apply alloc_same.
      - apply same_trans with (withMom s1 j b); [apply same_trans with s1; auto; apply mom_same; auto|apply theta_same; auto]. }
    destruct (momH s0 j) as [b|].
    + destruct (alloc s0 (mu * heap s0 b + (1 - d) * heap s0 g)) as [nb s1] eqn:EA. apply (HB (nb, s1)). cbn [snd].
      replace s1 with (snd (alloc s0 (mu * heap s0 b + (1 - d) * heap s0 g))) by (rewrite EA; reflexivity). apply alloc_same.
    + apply (HB (g, s0)). apply same_refl.
  - unfold adagradBody. destruct (getDecayedGrad wd j st) as [[g s0]|] eqn:E; [|apply same_refl]. pose proof (decayed_same i _ _ _ _ _ E). cbv zeta. same_chain.
  - unfold rmsBody. destruct (getDecayedGrad wd j st) as [[g s0]|] eqn:E; [|apply same_refl]. pose proof (decayed_same i _ _ _ _ _ E). cbv zeta.
    destruct cen, (Req_EM_T mu 0); same_chain.
  - unfold adadeltaBody. destruct (getDecayedGrad wd j st) as [[g s0]|] eqn:E; [|apply same_refl]. pose proof (decayed_same i _ _ _ _ _ E). cbv zeta. same_chain.
  - assert (HD : same_at i st (snd (adamDecayed wd j st))).
    { unfold adamDecayed. destruct (getDecayedGrad wd j st) as [[g s0]|] eqn:E; [apply (decayed_same _ _ _ _ _ _ E)|apply same_refl]. }
    unfold adamBody. cbv zeta. destruct (adamDecayed wd j st) as [[g|] s0]; cbn [snd] in HD; [|exact HD]. destruct ams; same_chain.
  - unfold adamBody. cbv zeta. unfold adamWDecayed. cbv zeta. destruct (gradH _ j) as [g|]; [|apply theta_same; auto]. destruct ams; same_chain.
Qed.

(** * The gradient slots *)
Section Run.
Variables (n : nat) (a : algo) (lr0 : R) (th : nat -> R).
Local Notation run := (train n a lr0 th).
Lemma train_snoc : forall es e, run (es ++ [e]) = handle n a (run es) e.
Proof. intros. unfold train. rewrite fold_left_app. reflexivity. Qed.
Definition wf (st : ost) : Prop :=
  (forall i r, gradH st i = Some r -> (r < next st)%nat) /\ (forall i j r, gradH st i = Some r -> gradH st j = Some r -> i = j).
Definition bump (st : ost) : ost := mkO (heap st) (next st) (theta st) (gradH st) (momH st) (c1 st) (c2 st) (c3 st) (S (stepNo st)) (lr st).
Lemma step_at : forall st i, (i < n)%nat -> exists s1, same_at i (bump st) s1 /\ same_at i (body a s1 i) (optStep n a st).
Proof.
  intros st i Hi. apply (fold_at i (body a)); [intros; apply body_other; auto|apply seq_NoDup|apply in_seq; lia].
Qed.
Lemma step_out : forall st i, (n <= i)%nat -> same_at i (bump st) (optStep n a st).
Proof. intros st i Hi. apply (fold_other i (body a)); [intros; apply body_other; auto|]. rewrite in_seq. lia. Qed.
Lemma body_self : forall st i, (forall j, gradH (body a st i) j = gradH st j) /\ (forall r, (r < next st)%nat -> heap (body a st i) r = heap st r)
  /\ (next st <= next (body a st i))%nat /\ stepNo (body a st i) = stepNo st /\ lr (body a st i) = lr st.
Proof. intros st i. pose proof (body_other a (S i) st i ltac:(lia)) as (_ & _ & _ & _ & _ & A & B & C & D & E). auto. Qed.
Lemma step_frame : forall st, (forall j, gradH (optStep n a st) j = gradH st j) /\ (forall r, (r < next st)%nat -> heap (optStep n a st) r = heap st r)
  /\ (next st <= next (optStep n a st))%nat /\ stepNo (optStep n a st) = S (stepNo st) /\ lr (optStep n a st) = lr st.
Proof. intros st. pose proof (step_out st n (le_n _)) as (_ & _ & _ & _ & _ & A & B & C & D & E). cbn in *. auto. Qed.
Definition sameR (st st' : ost) : Prop :=
  theta st' = theta st /\ momH st' = momH st /\ c1 st' = c1 st /\ c2 st' = c2 st /\ c3 st' = c3 st /\ stepNo st' = stepNo st /\ lr st' = lr st /\ (next st <= next st')%nat.
Definition slots_ok (st : ost) (es : list event) : Prop :=
  wf st /\ (forall i, option_map (heap st) (gradH st i) = gradientOf n i es) /\ stepNo st = stepsIn es /\ lr st = rateAfter lr0 es.
(** Writing one gradient. *)
Lemma write_grad : forall st i v, wf st ->
  let st' := match gradH st i with Some r => withHeap st (set (heap st) r v) | None => let (r, st) := alloc st v in withGrad st i r end in
  wf st' /\ (forall j, option_map (heap st') (gradH st' j) = if j =? i then Some v else option_map (heap st) (gradH st j)) /\ sameR st st'
  /\ (forall r, (r < next st)%nat -> (forall j, gradH st j <> Some r) -> heap st' r = heap st r)
  /\ (forall r j, (r < next st)%nat -> gradH st' j = Some r -> gradH st j = Some r).
Proof.
  intros st i v [W1 W2]. cbv zeta. destruct (gradH st i) as [r|] eqn:E.
  - split; [split; [exact W1|exact W2]|]. split; [|split; [repeat split; auto|]].
    + intros j. cbn. destruct (Nat.eqb_spec j i) as [->|Hj]; [rewrite E; cbn; rewrite set_same; reflexivity|].
      destruct (gradH st j) as [r'|] eqn:Ej; auto. cbn. rewrite set_other; auto. intros ->. apply Hj. exact (W2 _ _ _ Ej E).
    + split; auto. intros r' Hr' HN. cbn. apply set_other. intros ->. exact (HN i E).
  - cbn. split; [split|split; [|split; [repeat split; cbn; auto|]]].
    + intros j r H. cbn in *. unfold set in H. destruct (Nat.eqb_spec j i); [inversion H; lia|]. specialize (W1 _ _ H). lia.
    + intros j k r H1 H2. cbn in *. unfold set in H1, H2. destruct (Nat.eqb_spec j i), (Nat.eqb_spec k i); subst; auto; try (inversion H1; subst; specialize (W1 _ _ H2); lia); try (inversion H2; subst; specialize (W1 _ _ H1); lia). exact (W2 _ _ _ H1 H2).
    + intros j. unfold set at 2. destruct (Nat.eqb_spec j i); cbn; [rewrite set_same; reflexivity|]. destruct (gradH st j) as [r|] eqn:Ej; auto. cbn. rewrite set_other; auto. specialize (W1 _ _ Ej). lia.
    + split; [intros r Hr HN; apply set_other; lia|]. intros r j Hr H. unfold set in H. destruct (Nat.eqb_spec j i); [inversion H; lia|auto].
Qed.
Lemma sameR_refl : forall st, sameR st st. Proof. intros. repeat split; auto. Qed.
Lemma sameR_trans : forall x y z, sameR x y -> sameR y z -> sameR x z.
Proof. intros x y z (A1&A2&A3&A4&A5&A6&A7&A8) (B1&B2&B3&B4&B5&B6&B7&B8). repeat split; try congruence. lia. Qed.
Lemma zero_loop : forall l st, wf st -> let st' := fold_left zeroGrad1 l st in
  wf st' /\ (forall j, option_map (heap st') (gradH st' j) = if existsb (Nat.eqb j) l then Some 0 else option_map (heap st) (gradH st j)) /\ sameR st st'
  /\ (forall r, (r < next st)%nat -> (forall j, gradH st j <> Some r) -> heap st' r = heap st r)
  /\ (forall r j, (r < next st)%nat -> gradH st' j = Some r -> gradH st j = Some r).
Proof.
  intros l. induction l as [|i l IH]; intros st W; cbn [fold_left existsb].
  - split; auto. split; auto. split; [apply sameR_refl|]. auto.
  - pose proof (write_grad st i 0 W) as HW. cbv zeta in HW. fold (zeroGrad1 st i) in HW. destruct HW as (W' & HV & HS & HH & HG).
    pose proof (IH (zeroGrad1 st i) W') as HI. cbv zeta in HI. destruct HI as (W2 & HV2 & HS2 & HH2 & HG2). split; auto. split; [|split; [apply sameR_trans with (zeroGrad1 st i); auto|]].
    + intros j. rewrite HV2. destruct (existsb (Nat.eqb j) l); [rewrite orb_true_r; reflexivity|]. rewrite orb_false_r. apply HV.
    + pose proof HS as (_&_&_&_&_&_&_&HN). split.
      * intros r Hr HR. rewrite HH2; [apply HH; auto|lia|]. intros j HC. exact (HR j (HG _ _ Hr HC)).
      * intros r j Hr HR. apply HG; auto. apply HG2; auto. lia.
Qed.
Lemma existsb_seq : forall j k, existsb (Nat.eqb j) (seq 0 k) = (j <? k).
Proof.
  intros j k. apply eq_true_iff_eq. rewrite existsb_exists, Nat.ltb_lt. split.
  - intros (x & Hx & E). apply Nat.eqb_eq in E. subst. apply in_seq in Hx. lia.
  - intros H. exists j. rewrite Nat.eqb_refl. split; auto. apply in_seq. lia.
Qed.
(** Everything but steps leaves parameters and caches alone. *)
Lemma other_frame : forall st e, e <> EStep -> wf st ->
  theta (handle n a st e) = theta st /\ momH (handle n a st e) = momH st /\ c1 (handle n a st e) = c1 st /\ c2 (handle n a st e) = c2 st /\ c3 (handle n a st e) = c3 st
  /\ (forall r, (r < next st)%nat -> (forall j, gradH st j <> Some r) -> heap (handle n a st e) r = heap st r)
  /\ (forall r j, (r < next st)%nat -> gradH (handle n a st e) j = Some r -> gradH st j = Some r) /\ (next st <= next (handle n a st e))%nat.
Proof.
  intros st e He W. destruct e as [i g| | |l]; try contradiction; cbn [handle].
  - unfold addGrad. destruct (gradH st i) as [r|] eqn:E.
    + pose proof (write_grad st i (heap st r + g) W) as HW. cbv zeta in HW. rewrite E in HW. destruct HW as (_ & _ & (S1&S2&S3&S4&S5&S6&S7&S8) & HH & HG). repeat split; auto.
    + pose proof (write_grad st i g W) as HW. cbv zeta in HW. rewrite E in HW. destruct HW as (_ & _ & (S1&S2&S3&S4&S5&S6&S7&S8) & HH & HG). repeat split; auto.
  - pose proof (zero_loop (seq 0 n) st W) as HZ. cbv zeta in HZ. destruct HZ as (_ & _ & (S1&S2&S3&S4&S5&S6&S7&S8) & HH & HG). unfold zeroGrad, forLoop. repeat split; auto.
  - cbn. repeat split; auto.
Qed.
Lemma stepsIn_snoc : forall es e, stepsIn (es ++ [e]) = (stepsIn es + match e with EStep => 1 | _ => 0 end)%nat.
Proof. intros es e. unfold stepsIn. rewrite filter_app, app_length. destruct e; reflexivity. Qed.
Lemma rate_snoc : forall l es e, rateAfter l (es ++ [e]) = match e with ELr x => x | _ => rateAfter l es end.
Proof. intros l es e. unfold rateAfter. rewrite fold_left_app. destruct e; reflexivity. Qed.
Lemma slots_inv : forall es, slots_ok (run es) es.
Proof.
  intros es. induction es as [|e es IH] using rev_ind.
  - repeat split; cbn; auto; discriminate.
  - rewrite train_snoc. destruct IH as (W & HV & HS & HL). unfold slots_ok.
    assert (HGR : forall i, gradientOf n i (es ++ [e]) = gacc1 n i (gradientOf n i es) e) by (intros; unfold gradientOf; rewrite fold_left_app; reflexivity).
    rewrite stepsIn_snoc, rate_snoc. set (st := run es) in *. destruct e as [i g| | |l]; cbn [handle].
    + assert (HW : exists v, addGrad i g st = match gradH st i with Some r => withHeap st (set (heap st) r v) | None => let (r, st) := alloc st v in withGrad st i r end
        /\ Some v = gacc1 n i (gradientOf n i es) (EGrad i g)).
      { cbn [gacc1]. rewrite Nat.eqb_refl. rewrite <- HV. unfold addGrad. destruct (gradH st i) as [r|] eqn:E; [exists (heap st r + g)|exists g]; auto. }
      destruct HW as (v & -> & EV). pose proof (write_grad st i v W) as HW. cbv zeta in HW. destruct HW as (W' & HV' & (S1&S2&S3&S4&S5&S6&S7&S8) & _).
      split; [exact W'|]. split; [|split; [rewrite S6; lia|rewrite S7; auto]]. intros j. rewrite HV', HGR. destruct (Nat.eqb_spec j i) as [->|Hj]; [exact EV|]. cbn [gacc1]. destruct (Nat.eqb_spec i j); [congruence|auto].
    + pose proof (zero_loop (seq 0 n) st W) as HZ. cbv zeta in HZ. destruct HZ as (W' & HV' & (S1&S2&S3&S4&S5&S6&S7&S8) & _). unfold zeroGrad, forLoop.
      split; [exact W'|]. split; [|split; [rewrite S6; lia|rewrite S7; auto]]. intros j. rewrite HV', HGR, existsb_seq. cbn [gacc1]. destruct (j <? n); auto.
    + destruct (step_frame st) as (F1 & F2 & F3 & F4 & F5). destruct W as [W1 W2]. split; [split|split; [|split]].
      * intros i r H. rewrite F1 in H. specialize (W1 _ _ H). lia.
      * intros i j r H1 H2. rewrite F1 in H1, H2. exact (W2 _ _ _ H1 H2).
      * intros i. rewrite HGR, F1. cbn [gacc1]. rewrite <- HV. destruct (gradH st i) as [r|] eqn:E; auto. cbn. rewrite F2; auto. exact (W1 _ _ E).
      * rewrite F4. lia.
      * rewrite F5. auto.
    + split; [exact W|]. split; [|split; [cbn; lia|reflexivity]]. intros i. rewrite HGR. exact (HV i).
Qed.
End Run.

(** * Decayed gradients *)
Lemma decayed_none : forall wd i st, gradH st i = None -> getDecayedGrad wd i st = None.
Proof. intros wd i st H. unfold getDecayedGrad. rewrite H. reflexivity. Qed.
Lemma decayed_some : forall wd i st r, gradH st i = Some r -> (r < next st)%nat -> exists g s0, getDecayedGrad wd i st = Some (g, s0)
  /\ heap s0 g = heap st r + wd * theta st i /\ (g < next s0)%nat /\ (forall k, same_at k st s0) /\ (wd <> 0 -> (next st <= g)%nat) .
Proof.
  intros wd i st r H Hr. unfold getDecayedGrad. rewrite H. destruct (Req_EM_T wd 0) as [->|Hw].
  - exists r, st. split; [reflexivity|]. split; [ring|]. split; auto. split; [intros; apply same_refl|]. intros HH. contradiction.
  - exists (next st), (snd (alloc st (heap st r + wd * theta st i))). split; [reflexivity|]. split; [cbn; rewrite set_same; reflexivity|]. split; [cbn; lia|].
    split; [intros; apply alloc_same|]. intros _. lia.
Qed.
Lemma same_grad : forall st s1 i r, same_at i (bump st) s1 -> gradH st i = Some r -> (r < next st)%nat ->
  gradH s1 i = Some r /\ (r < next s1)%nat /\ heap s1 r = heap st r.
Proof. intros st s1 i r (_&_&_&_&_&A&B&C&_) H Hr. cbn in *. rewrite A. split; auto. split; [lia|auto]. Qed.
