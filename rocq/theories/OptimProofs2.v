From Coq Require Import Reals List Arith Bool Lia Lra ZArith.
From Verif Require Import OptimModel OptimSpec OptimProofs.
Import ListNotations.
Open Scope R_scope.

(** * Caches kept per parameter *)
Section Gen.
Variables (n : nat) (a : algo) (lr0 : R) (th : nat -> R) (wd : R).
Variable Inv : list (nat * R) -> R -> R -> R -> Prop.
Variable upd : R -> R -> nat -> list (nat * R) -> R.
Variable idle : R -> R -> R.
Hypothesis Inv0 : Inv [] (match a with Adagrad _ _ ia _ => ia | _ => 0 end) 0 0.
Hypothesis Hstep : forall s i r l, gradH s i = Some r -> (r < next s)%nat -> (0 < stepNo s)%nat -> Inv l (c1 s i) (c2 s i) (c3 s i) ->
  let l' := l ++ [(stepNo s, heap s r + wd * theta s i)] in let s' := body a s i in
  Inv l' (c1 s' i) (c2 s' i) (c3 s' i) /\ theta s' i = upd (theta s i) (lr s) (stepNo s) l'.
Hypothesis Hidle : forall s i, gradH s i = None -> let s' := body a s i in c1 s' i = c1 s i /\ c2 s' i = c2 s i /\ c3 s' i = c3 s i /\ theta s' i = idle (theta s i) (lr s).
Local Notation run := (train n a lr0 th).
Local Notation val i := (fun es => theta (run es) i).
Lemma gen_step : forall es i, (i < n)%nat -> Inv (history n i wd (val i) es) (c1 (run es) i) (c2 (run es) i) (c3 (run es) i) ->
  Inv (history n i wd (val i) (es ++ [EStep])) (c1 (run (es ++ [EStep])) i) (c2 (run (es ++ [EStep])) i) (c3 (run (es ++ [EStep])) i)
  /\ theta (run (es ++ [EStep])) i = match gradientOf n i es with
       | None => idle (theta (run es) i) (rateAfter lr0 es)
       | Some _ => upd (theta (run es) i) (rateAfter lr0 es) (S (stepsIn es)) (history n i wd (val i) (es ++ [EStep]))
       end.
Proof.
  intros es i Hi HI. rewrite history_step. rewrite !train_snoc. cbn [handle]. pose proof (slots_inv n a lr0 th es) as (W & HV & HS & HL). specialize (HV i).
  destruct (step_at n a (run es) i Hi) as (s1 & A & B).
  pose proof A as (A1 & A2 & A3 & A4 & A5 & A6 & A7 & A8 & A9 & A10). destruct B as (B1 & B2 & B3 & B4 & B5 & B6 & B7 & B8 & B9 & B10). cbn in A1, A3, A4, A5, A9, A10.
  rewrite B1, B3, B4, B5. destruct (gradH (run es) i) as [r|] eqn:E.
  - cbn in HV. rewrite <- HV. destruct W as [W1 W2]. specialize (W1 _ _ E). destruct (same_grad _ _ _ _ A E W1) as (G1 & G2 & G3).
    rewrite <- A3, <- A4, <- A5 in HI. destruct (Hstep s1 i r _ G1 G2 ltac:(lia) HI) as [X Y]. rewrite G3, A9, A1, A10, HS, HL in *. split; [exact X|exact Y].
  - cbn in HV. rewrite <- HV. rewrite app_nil_r. assert (G1 : gradH s1 i = None) by (rewrite A6; exact E). destruct (Hidle s1 i G1) as (X1 & X2 & X3 & X4).
    rewrite X1, X2, X3, X4, A3, A4, A5, A1, A10, HL. auto.
Qed.
Lemma gen_inv : forall es i, (i < n)%nat -> Inv (history n i wd (val i) es) (c1 (run es) i) (c2 (run es) i) (c3 (run es) i).
Proof.
  intros es i Hi. induction es as [|e es IH] using rev_ind; [exact Inv0|].
  assert (HE : e = EStep \/ e <> EStep) by (destruct e; [right|right|left|right]; congruence). destruct HE as [->|He]; [apply gen_step; auto|].
  rewrite history_other by auto. rewrite train_snoc. pose proof (slots_inv n a lr0 th es) as (W & _).
  destruct (other_frame n a (run es) e He W) as (_ & _ & F3 & F4 & F5 & _). rewrite F3, F4, F5. exact IH.
Qed.
Lemma gen_theta : forall es i, (i < n)%nat -> theta (run (es ++ [EStep])) i = match gradientOf n i es with
       | None => idle (theta (run es) i) (rateAfter lr0 es)
       | Some _ => upd (theta (run es) i) (rateAfter lr0 es) (S (stepsIn es)) (history n i wd (val i) (es ++ [EStep]))
       end.
Proof. intros es i Hi. apply gen_step; auto. apply gen_inv; auto. Qed.
End Gen.
Lemma other_theta : forall n a lr0 th es e i, e <> EStep -> theta (train n a lr0 th (es ++ [e])) i = theta (train n a lr0 th es) i.
Proof.
  intros n a lr0 th es e i He. rewrite train_snoc. pose proof (slots_inv n a lr0 th es) as (W & _). destruct (other_frame n a (train n a lr0 th es) e He W) as (F & _). rewrite F. reflexivity.
Qed.
Lemma beyond_theta : forall n a lr0 th es i, (n <= i)%nat -> theta (train n a lr0 th es) i = th i.
Proof.
  intros n a lr0 th es i Hi. induction es as [|e es IH] using rev_ind; [reflexivity|].
  assert (HE : e = EStep \/ e <> EStep) by (destruct e; [right|right|left|right]; congruence). destruct HE as [->|He]; [|rewrite other_theta; auto].
  rewrite train_snoc. destruct (step_out n a (train n a lr0 th es) i Hi) as (A & _). cbn [handle]. rewrite A. exact IH.
Qed.

Local Ltac idle_tac := let s := fresh in let i := fresh in let H := fresh in intros s i H; cbv zeta; cbn [body]; unfold adagradBody, rmsBody, adadeltaBody, sgdBody, adamBody, adamDecayed; cbv zeta;
  rewrite decayed_none by exact H; auto.
Definition snds (l : list (nat * R)) : list R := map snd l.
Lemma snds_snoc : forall l t x, snds (l ++ [(t, x)]) = snds l ++ [x].
Proof. intros. unfold snds. rewrite map_app. reflexivity. Qed.
Local Ltac start := intros s i r l HG Hr Ht HI; cbv zeta; cbn [body].
Local Ltac dec wd := match goal with HG : gradH ?s ?i = Some ?r, Hr : (?r < next ?s)%nat |- _ =>
  destruct (decayed_some wd i s r HG Hr) as (g & s0 & ED & EV & Hg & HA & _); pose proof (HA i) as (A1 & A2 & A3 & A4 & A5 & _ & _ & _ & A9 & A10) end.

Lemma adagrad_theta : forall n ld wd ia eps lr0 th es i, (i < n)%nat -> let a := Adagrad ld wd ia eps in let val := fun es => theta (train n a lr0 th es) i in
  val (es ++ [EStep]) = match gradientOf n i es with None => val es | Some _ => val es - rateAfter lr0 es * adagradDir ld ia eps (S (stepsIn es)) (map snd (history n i wd val (es ++ [EStep]))) end.
Proof.
  intros n ld wd ia eps lr0 th es p Hi a val; subst val a.
  apply (gen_theta n _ lr0 th wd (fun l x y z => x = ia + total (squares (snds l))) (fun t0 rate t l => t0 - rate * adagradDir ld ia eps t (snds l)) (fun t0 _ => t0)); auto.
  - cbn. ring.
  - start. unfold adagradBody. dec wd. rewrite ED. cbn. rewrite !set_same. rewrite A1, A3, A9, A10, EV, HI, snds_snoc, squares_snoc, total_snoc. split; [ring|].
    unfold adagradDir. rewrite last_snoc, squares_snoc, total_snoc. rewrite (Rplus_assoc ia). unfold Rdiv. ring.
  - idle_tac.
Qed.
Lemma rms_theta : forall n al eps wd mu lr0 th es i, (i < n)%nat -> let a := RMSprop al eps wd mu false in let val := fun es => theta (train n a lr0 th es) i in
  val (es ++ [EStep]) = match gradientOf n i es with None => val es | Some _ => val es - rateAfter lr0 es * rmsDir al eps mu (map snd (history n i wd val (es ++ [EStep]))) end.
Proof.
  intros n al eps wd mu lr0 th es p Hi a val; subst val a.
  apply (gen_theta n _ lr0 th wd (fun l x y z => x = ema al (squares (snds l)) /\ (mu <> 0 -> z = dsum mu (prefixes (rmsRatio al eps) (snds l))))
    (fun t0 rate t l => t0 - rate * rmsDir al eps mu (snds l)) (fun t0 _ => t0)); auto.
  - split; cbn; auto. unfold ema. cbn. ring.
  - start. destruct HI as [HI HZ]. unfold rmsBody. dec wd. rewrite ED. cbv iota zeta. unfold rmsDir. rewrite snds_snoc, squares_snoc, ema_snoc, prefixes_snoc, dsum_snoc.
    assert (ER : rmsRatio al eps (snds l ++ [heap s r + wd * theta s i]) = heap s0 g / (sqrt (al * c1 s0 i + (1 - al) * heap s0 g * heap s0 g) + eps)).
    { unfold rmsRatio. rewrite last_snoc, squares_snoc, ema_snoc, EV, A3, HI, Rmult_assoc. reflexivity. }
    rewrite ER. destruct (Req_EM_T mu 0) as [E0|E0]; cbn; rewrite !set_same, ?A1, ?A3, ?A5, ?A10, ?HI, ?EV.
    + split; [split; [ring|contradiction]|]. unfold Rdiv. ring.
    + rewrite HZ by auto. split; [split; [ring|reflexivity]|reflexivity].
  - idle_tac.
Qed.
Lemma adadelta_theta : forall n rho eps wd lr0 th es i, (i < n)%nat -> let a := AdaDelta rho eps wd in let val := fun es => theta (train n a lr0 th es) i in
  val (es ++ [EStep]) = match gradientOf n i es with None => val es | Some _ => val es - rateAfter lr0 es * adadeltaDir rho eps (map snd (history n i wd val (es ++ [EStep]))) end.
Proof.
  intros n rho eps wd lr0 th es p Hi a val; subst val a.
  apply (gen_theta n _ lr0 th wd (fun l x y z => x = ema rho (squares (snds l)) /\ y = ema rho (squares (deltasFrom rho eps [] [] (snds l))))
    (fun t0 rate t l => t0 - rate * adadeltaDir rho eps (snds l)) (fun t0 _ => t0)); auto.
  - split; unfold ema; cbn; ring.
  - start. destruct HI as [HI HZ]. unfold adadeltaBody. dec wd. rewrite ED. cbv iota zeta. unfold adadeltaDir. rewrite snds_snoc, deltasFrom_snoc, last_snoc, !squares_snoc, !ema_snoc. cbn [app].
    rewrite squares_snoc, ema_snoc. cbn. rewrite !set_same, ?A1, ?A3, ?A4, ?A10, ?EV, <- HI, <- HZ.
    replace (rho * c1 s i + (1 - rho) * (heap s r + wd * theta s i) * (heap s r + wd * theta s i)) with (rho * c1 s i + (1 - rho) * ((heap s r + wd * theta s i) * (heap s r + wd * theta s i))) by ring.
    split; [split; [reflexivity|ring]|reflexivity].
  - idle_tac.
Qed.
Lemma last_snds : forall l t x, last (l ++ [(t, x)]) (0%nat, 0) = (t, x). Proof. intros. apply last_snoc. Qed.
Definition adamInv (b1 b2 : R) (ams : bool) (l : list (nat * R)) (x y z : R) : Prop :=
  x = ema b1 (snds l) /\ y = ema b2 (squares (snds l)) /\ (ams = true -> z = fold_left Rmax (prefixes (vhat b2) l) 0).
Lemma adam_body : forall b1 b2 eps ams decayed s i r l gv, (0 < stepNo s)%nat -> adamInv b1 b2 ams l (c1 s i) (c2 s i) (c3 s i) ->
  (exists s0, decayed i s = (Some r, s0) /\ heap s0 r = gv /\ c1 s0 i = c1 s i /\ c2 s0 i = c2 s i /\ c3 s0 i = c3 s i /\ lr s0 = lr s) ->
  let l' := l ++ [(stepNo s, gv)] in let s' := adamBody decayed b1 b2 eps ams s i in
  adamInv b1 b2 ams l' (c1 s' i) (c2 s' i) (c3 s' i) /\ theta s' i = theta (snd (decayed i s)) i - lr s * adamDir b1 b2 eps ams (stepNo s) l'.
Proof.
  intros b1 b2 eps ams decayed s i r l gv Ht (I1 & I2 & I3) (s0 & ED & EV & A3 & A4 & A5 & A10). cbv zeta. unfold adamBody. rewrite ED. cbv iota zeta. cbn [snd].
  assert (EV2 : vhat b2 (l ++ [(stepNo s, gv)]) = (b2 * c2 s0 i + (1 - b2) * heap s0 r * heap s0 r) / (1 - b2 ^ stepNo s)).
  { unfold vhat. rewrite last_snds. fold (snds (l ++ [(stepNo s, gv)])). rewrite snds_snoc, squares_snoc, ema_snoc, EV, A4, I2, Rmult_assoc. reflexivity. }
  unfold adamInv, adamDir. fold (snds (l ++ [(stepNo s, gv)])). rewrite EV2, !snds_snoc, squares_snoc, !ema_snoc, prefixes_snoc, fold_left_app, EV2. cbn [fold_left].
  destruct ams; cbn; rewrite !set_same, ?A3, ?A4, ?A5, ?A10, ?EV, ?I1, ?I2.
  - rewrite I3 by auto. split; [split; [ring|split; [ring|reflexivity]]|]. unfold Rdiv. ring.
  - split; [split; [ring|split; [ring|discriminate]]|]. unfold Rdiv. ring.
Qed.
Lemma adamInv0 : forall b1 b2 ams, adamInv b1 b2 ams [] 0 0 0.
Proof. intros. unfold adamInv, ema. cbn. repeat split; auto; ring. Qed.
Lemma adam_theta : forall n b1 b2 eps wd ams lr0 th es i, (i < n)%nat -> let a := Adam b1 b2 eps wd ams in let val := fun es => theta (train n a lr0 th es) i in
  val (es ++ [EStep]) = match gradientOf n i es with None => val es
    | Some _ => val es - rateAfter lr0 es * adamDir b1 b2 eps ams (S (stepsIn es)) (history n i wd val (es ++ [EStep])) end.
Proof.
  intros n b1 b2 eps wd ams lr0 th es p Hi a val; subst val a.
  apply (gen_theta n _ lr0 th wd (adamInv b1 b2 ams) (fun t0 rate t l => t0 - rate * adamDir b1 b2 eps ams t l) (fun t0 _ => t0)); auto.
  - apply adamInv0.
  - start. dec wd. pose proof (adam_body b1 b2 eps ams (adamDecayed wd) s i g l (heap s r + wd * theta s i) Ht HI) as HB. cbv zeta in HB.
    replace (theta s i) with (theta (snd (adamDecayed wd i s)) i) at 10 by (unfold adamDecayed; rewrite ED; exact A1).
    assert (HX : exists s1, adamDecayed wd i s = (Some g, s1) /\ heap s1 g = heap s r + wd * theta s i /\ c1 s1 i = c1 s i /\ c2 s1 i = c2 s i /\ c3 s1 i = c3 s i /\ lr s1 = lr s).
    { exists s0. unfold adamDecayed. rewrite ED. auto 10. }
    destruct (HB HX) as [X Y]. split; [exact X|]. rewrite Y. unfold adamDecayed. rewrite ED. cbn [snd]. rewrite A1. reflexivity.
  - idle_tac.
Qed.
Lemma adamW_theta : forall n b1 b2 eps wd ams lr0 th es i, (i < n)%nat -> let a := AdamW b1 b2 eps wd ams in let val := fun es => theta (train n a lr0 th es) i in
  val (es ++ [EStep]) = match gradientOf n i es with None => val es * (1 - rateAfter lr0 es * wd)
    | Some _ => val es * (1 - rateAfter lr0 es * wd) - rateAfter lr0 es * adamDir b1 b2 eps ams (S (stepsIn es)) (history n i 0 val (es ++ [EStep])) end.
Proof.
  intros n b1 b2 eps wd ams lr0 th es p Hi a val; subst val a.
  apply (gen_theta n _ lr0 th 0 (adamInv b1 b2 ams) (fun t0 rate t l => t0 * (1 - rate * wd) - rate * adamDir b1 b2 eps ams t l) (fun t0 rate => t0 * (1 - rate * wd))); auto.
  - apply adamInv0.
  - start. pose proof (adam_body b1 b2 eps ams (adamWDecayed wd) s i r l (heap s r + 0 * theta s i) Ht HI) as HB. cbv zeta in HB.
    assert (HX : exists s1, adamWDecayed wd i s = (Some r, s1) /\ heap s1 r = heap s r + 0 * theta s i /\ c1 s1 i = c1 s i /\ c2 s1 i = c2 s i /\ c3 s1 i = c3 s i /\ lr s1 = lr s).
    { eexists. unfold adamWDecayed. cbn. rewrite HG. split; [reflexivity|]. cbn. repeat split; auto. ring. }
    destruct (HB HX) as [X Y]. split; [exact X|]. rewrite Y. f_equal. unfold adamWDecayed. cbn. apply set_same.
  - intros s k H. cbv zeta. cbn [body]. unfold adamBody, adamWDecayed. cbv zeta. cbn. rewrite H. cbn. rewrite set_same. auto.
Qed.

(** * SGD and its momentum buffer *)
Definition aliased (wd : R) (l : list R) : list R :=
  if Req_EM_T wd 0 then match l with _ :: g2 :: r => g2 :: g2 :: r | _ => l end else l.
Lemma keep_grad : forall l st i r, gradH st i = Some r -> gradH (fold_left zeroGrad1 l st) i = Some r.
Proof.
  intros l. induction l as [|j l IH]; intros st i r H; auto. cbn. apply IH. unfold zeroGrad1. destruct (gradH st j) eqn:E; [exact H|]. cbn. rewrite set_other; auto. intros ->. congruence.
Qed.
Lemma keep_grad_event : forall n a e st i r, gradH st i = Some r -> gradH (handle n a st e) i = Some r.
Proof.
  intros n a e st i r H. destruct e as [j g| | |l]; cbn [handle].
  - unfold addGrad. destruct (gradH st j) eqn:E; [exact H|]. cbn. rewrite set_other; auto. intros ->. congruence.
  - apply keep_grad. exact H.
  - destruct (step_frame n a st) as (F & _). rewrite F. exact H.
  - exact H.
Qed.
Section Sgd.
Variables (n : nat) (mu d wd : R) (nest : bool) (lr0 : R) (th : nat -> R).
Hypothesis Hmu : mu <> 0.
Local Notation a := (SGD mu d wd nest).
Local Notation run := (train n a lr0 th).
Local Notation val i := (fun es => theta (run es) i).
Definition momOK (l : list R) (st : ost) (i : nat) : Prop :=
  match l with
  | [] => momH st i = None
  | _ =>
    ((length l = 1%nat -> wd <> 0) /\ exists b, momH st i = Some b /\ (b < next st)%nat /\ (forall j, gradH st j <> Some b) /\ heap st b = sgdBuf mu d (aliased wd l))
    \/ (wd = 0 /\ length l = 1%nat /\ exists r, momH st i = Some r /\ gradH st i = Some r)
  end.
Lemma aliased_snoc2 : forall l x, (1 < length l)%nat -> aliased wd (l ++ [x]) = aliased wd l ++ [x].
Proof. intros [|y [|z l]] x H; cbn in H; try lia. unfold aliased. cbn. destruct (Req_EM_T wd 0); reflexivity. Qed.
Lemma aliased_nonempty : forall l, l <> [] -> aliased wd l <> [].
Proof. intros [|y [|z l]] H; [contradiction| |]; unfold aliased; destruct (Req_EM_T wd 0); discriminate. Qed.
Lemma last_aliased : forall l x, last (aliased wd (l ++ [x])) 0 = x.
Proof.
  intros l x. unfold aliased. destruct (Req_EM_T wd 0); [|apply last_snoc]. destruct l as [|y [|z l]]; [reflexivity|reflexivity|]. cbn [app].
  change (last (z :: z :: l ++ [x]) 0) with (last ((z :: z :: l) ++ [x]) 0). apply last_snoc.
Qed.
(** The buffer [buf] in the state [s1] reached before the parameter is written. *)
Lemma sgd_body : forall s i r l, gradH s i = Some r -> (forall j r, gradH s j = Some r -> (r < next s)%nat) -> momOK l s i ->
  let l' := l ++ [heap s r + wd * theta s i] in let s' := body a s i in momOK l' s' i /\ theta s' i = theta s i - lr s * sgdDir mu d nest (aliased wd l').
Proof.
  intros s i r l HG HB HM. cbv zeta. cbn [body]. unfold sgdBody.
  destruct (decayed_some wd i s r HG (HB _ _ HG)) as (g & s0 & ED & EV & Hg & HA & HW).
  assert (HW0 : wd = 0 -> g = r /\ s0 = s). { intros E. unfold getDecayedGrad in ED. rewrite HG in ED. destruct (Req_EM_T wd 0); [|contradiction]. inversion ED; auto. }
  rewrite ED. cbv iota.
  pose proof (HA i) as (A1 & A2 & _ & _ & _ & A6 & A7 & A8 & _ & A10). unfold sgdDir. rewrite last_aliased.
  destruct (Req_EM_T mu 0) as [E0|_]; [contradiction|]. set (x := heap s r + wd * theta s i) in *.
  assert (Hr : (r < next s)%nat) by eauto.
  assert (HTail : forall b s1, same_at i s0 s1 -> heap s1 b = sgdBuf mu d (aliased wd (l ++ [x])) ->
    ((wd = 0 /\ l = [] /\ b = r) \/ ((l = [] -> wd <> 0) /\ (next s <= b)%nat)) -> (b < next s1)%nat ->
    let s' := (let '(grad, st) := (let st := withMom s1 i b in if nest then alloc st (heap st g + mu * heap st b) else (b, st)) in withTheta st i (theta st i - lr st * heap st grad)) in
    momOK (l ++ [x]) s' i /\ theta s' i = theta s i - lr s * (if nest then x + mu * sgdBuf mu d (aliased wd (l ++ [x])) else sgdBuf mu d (aliased wd (l ++ [x])))).
  { intros b s1 (B1 & B2 & _ & _ & _ & B6 & B7 & B8 & _ & B10) HV HC Hb.
    assert (HM' : forall s', momH s' i = Some b -> (forall j, gradH s' j = gradH s j) -> (next s1 <= next s')%nat -> heap s' b = heap s1 b -> momOK (l ++ [x]) s' i).
    { intros s' M1 M2 M3 M4. unfold momOK. destruct (l ++ [x]) as [|y r0] eqn:EL; [destruct l; discriminate|]. rewrite <- EL in *. rewrite app_length. cbn [length].
      destruct HC as [(C1 & C2 & C3)|[C1 C2]].
      - right. split; auto. split; [rewrite C2; reflexivity|]. exists r. rewrite M1, M2, C3. auto.
      - left. split; [intros HL; apply C1; destruct l; [auto|cbn in HL; lia]|]. exists b. split; auto. split; [lia|]. split; [|congruence].
        intros j HJ. rewrite M2 in HJ. specialize (HB _ _ HJ). lia. }
    destruct nest; cbn -[momOK].
    - split.
      + apply HM'; cbn; [apply set_same|intros; rewrite B6; apply A6|lia|apply set_other; lia].
      + rewrite !set_same. rewrite B1, A1, B10, A10, HV. rewrite (B7 g) by lia. rewrite EV. reflexivity.
    - split.
      + apply HM'; cbn; [apply set_same|intros; rewrite B6; apply A6|lia|reflexivity].
      + rewrite !set_same. rewrite B1, A1, B10, A10, HV. reflexivity. }
  rewrite A2. destruct l as [|y l].
  - cbn in HM. rewrite HM. apply (HTail g s0); auto; [apply same_refl| |].
    + cbn. unfold aliased. destruct (Req_EM_T wd 0); cbn; rewrite EV; unfold x; ring.
    + destruct (Req_EM_T wd 0) as [E|E]; [left; split; auto; split; auto; apply HW0; auto|right; auto].
  - assert (HCase : exists b, momH s i = Some b /\ (b < next s)%nat /\ mu * heap s b + (1 - d) * x = sgdBuf mu d (aliased wd ((y :: l) ++ [x]))).
    { destruct HM as [(HL & b & M1 & M2 & M3 & M4)|(HWz & HL & b & M1 & M2)].
      - exists b. split; auto. split; auto. rewrite M4. destruct l as [|z l].
        + specialize (HL eq_refl). unfold aliased. destruct (Req_EM_T wd 0) as [E|E]; [contradiction|cbn; ring].
        + rewrite aliased_snoc2 by (cbn; lia). rewrite sgdBuf_snoc by (apply aliased_nonempty; discriminate). reflexivity.
      - destruct l; [|cbn in HL; lia]. exists b. split; auto. assert (b = r) by congruence. subst b. split; auto.
        unfold aliased. destruct (Req_EM_T wd 0); [|contradiction]. cbn. unfold x. rewrite HWz. ring. }
    destruct HCase as (b & M1 & M2 & M3). rewrite M1.
    pose proof (alloc_same i s0 (mu * heap s0 b + (1 - d) * heap s0 g)) as HS.
    refine (HTail (next s0) (snd (alloc s0 (mu * heap s0 b + (1 - d) * heap s0 g))) HS _ _ _).
    + cbn. rewrite set_same. rewrite (A7 b) by auto. rewrite EV. exact M3.
    + right. split; [discriminate|lia].
    + cbn. lia.
Qed.
Lemma sgd_both : forall es i, (i < n)%nat -> momOK (map snd (history n i wd (val i) es)) (run es) i /\
  theta (run (es ++ [EStep])) i = match gradientOf n i es with None => theta (run es) i
    | Some _ => theta (run es) i - rateAfter lr0 es * sgdDir mu d nest (aliased wd (map snd (history n i wd (val i) (es ++ [EStep])))) end.
Proof.
  intros es i Hi.
  assert (HS : forall es, momOK (map snd (history n i wd (val i) es)) (run es) i ->
     momOK (map snd (history n i wd (val i) (es ++ [EStep]))) (run (es ++ [EStep])) i /\
     theta (run (es ++ [EStep])) i = match gradientOf n i es with None => theta (run es) i
      | Some _ => theta (run es) i - rateAfter lr0 es * sgdDir mu d nest (aliased wd (map snd (history n i wd (val i) (es ++ [EStep])))) end).
  { clear es. intros es HM. rewrite history_step, map_app, train_snoc. cbn [handle]. set (l := map snd (history n i wd (val i) es)) in *.
    pose proof (slots_inv n a lr0 th es) as (W & HV & HS & HL). specialize (HV i). destruct (step_frame n a (run es)) as (F1 & F2 & F3 & _ & _).
    destruct (step_at n a (run es) i Hi) as (s1 & A & B).
    pose proof A as (A1 & A2 & A3 & A4 & A5 & A6 & A7 & A8 & A9 & A10). destruct B as (B1 & B2 & B3 & B4 & B5 & B6 & B7 & B8 & B9 & B10). cbn in A1, A2, A6, A7, A8, A9, A10.
    assert (HT : forall k x y, momOK k x i -> momH y i = momH x i -> (forall j, gradH y j = gradH x j) -> (next x <= next y)%nat -> (forall q, (q < next x)%nat -> heap y q = heap x q) -> momOK k y i).
    { intros k x y HK T1 T2 T3 T4. unfold momOK in *. destruct k; [congruence|]. destruct HK as [(K1 & b & K2 & K3 & K4 & K5)|(K1 & K2 & q & K3 & K4)].
      - left. split; auto. exists b. split; [congruence|]. split; [lia|]. split; [intros j; rewrite T2; auto|]. rewrite T4; auto.
      - right. split; auto. split; auto. exists q. rewrite T1, T2. auto. }
    assert (HM1 : momOK l s1 i) by (apply (HT l (run es) s1); auto).
    destruct W as [W1 W2]. destruct (gradH (run es) i) as [r|] eqn:E.
    - cbn in HV. rewrite <- HV. destruct (same_grad _ _ _ _ A E (W1 _ _ E)) as (G1 & G2 & G3).
      assert (HB : forall j q, gradH s1 j = Some q -> (q < next s1)%nat) by (intros j q HJ; rewrite A6 in HJ; specialize (W1 _ _ HJ); lia).
      destruct (sgd_body s1 i r l G1 HB HM1) as [X Y]. rewrite G3, A1, A10 in *. cbn [map snd]. split; [|rewrite B1, Y, HL; reflexivity].
      apply (HT _ (body a s1 i)); auto.
    - cbn in HV. rewrite <- HV. cbn [map]. rewrite app_nil_r. assert (EB : body a s1 i = s1) by (cbn; unfold sgdBody; rewrite decayed_none; auto; rewrite A6; exact E).
      rewrite EB in *. split; [apply (HT _ s1); auto|]. rewrite B1, A1. reflexivity. }
  assert (HI : momOK (map snd (history n i wd (val i) es)) (run es) i).
  { induction es as [|e es IH] using rev_ind; [reflexivity|].
    assert (HE : e = EStep \/ e <> EStep) by (destruct e; [right|right|left|right]; congruence). destruct HE as [->|He]; [apply HS; auto|].
    rewrite history_other by auto. rewrite train_snoc. pose proof (slots_inv n a lr0 th es) as (W & _). pose proof (keep_grad_event n a e (run es) i) as HK.
    destruct (other_frame n a (run es) e He W) as (_ & F2 & _ & _ & _ & F6 & F7 & F8). unfold momOK in *. rewrite F2. destruct (map snd (history n i wd (val i) es)); auto.
    destruct IH as [(K1 & b & K2 & K3 & K4 & K5)|(K1 & K2 & q & K3 & K4)].
    - left. split; auto. exists b. split; auto. split; [lia|]. split; [|rewrite F6; auto]. intros j HJ. exact (K4 j (F7 _ _ K3 HJ)).
    - right. split; auto. split; auto. exists q. auto. }
  split; [exact HI|apply HS; exact HI].
Qed.
End Sgd.
Lemma sgd_plain : forall n d wd nest lr0 th es i, (i < n)%nat -> let a := SGD 0 d wd nest in let val := fun es => theta (train n a lr0 th es) i in
  val (es ++ [EStep]) = match gradientOf n i es with None => val es | Some _ => val es - rateAfter lr0 es * last (map snd (history n i wd val (es ++ [EStep]))) 0 end.
Proof.
  intros n d wd nest lr0 th es p Hi a val; subst val a.
  apply (gen_theta n _ lr0 th wd (fun l x y z => True) (fun t0 rate t l => t0 - rate * last (snds l) 0) (fun t0 _ => t0)); auto.
  - start. split; auto. unfold sgdBody. dec wd. rewrite ED. cbv iota. destruct (Req_EM_T 0 0); [|contradiction]. cbn. rewrite set_same, A1, A10, EV, snds_snoc, last_snoc. reflexivity.
  - idle_tac.
Qed.

(** * StepLR *)
Lemma rem_succ_div : forall e s, (0 < s)%Z -> (0 <= e)%Z -> ((e + 1) / s = e / s + if Z.eqb (Z.rem (e + 1) s) 0 then 1 else 0)%Z.
Proof.
  intros e s Hs He. rewrite Z.rem_mod_nonneg by lia. pose proof (Z.div_mod e s ltac:(lia)). pose proof (Z.mod_pos_bound e s Hs).
  destruct (Z.eqb_spec ((e + 1) mod s) 0) as [E|E].
  - pose proof (Z.div_mod (e + 1) s ltac:(lia)). rewrite E in *. nia.
  - rewrite Z.add_0_r. symmetry. assert (e mod s + 1 < s)%Z.
    { destruct (Z.eq_dec (e mod s + 1) s) as [C|C]; [|lia]. exfalso. apply E. replace (e + 1)%Z with ((e / s + 1) * s)%Z by nia. apply Z.mod_mul. lia. }
    apply Z.div_unique with (r := (e mod s + 1)%Z); lia.
Qed.
Lemma steplr_from : forall s gamma t x, (0 < s)%Z -> (0 <= lastEpoch x)%Z ->
  exists y, stepMany s gamma t (Some x) = Some y /\ lastEpoch y = (lastEpoch x + Z.of_nat t)%Z /\ stepCount y = (stepCount x + Z.of_nat t)%Z
  /\ optLr y = optLr x * gamma ^ Z.to_nat ((lastEpoch x + Z.of_nat t) / s - lastEpoch x / s) /\ (t <> 0%nat -> lastLr y = optLr y).
Proof.
  intros s gamma t x Hs Hx. induction t as [|t IH].
  - exists x. cbn. rewrite !Z.add_0_r, Z.sub_diag. cbn. split; auto. split; auto. split; auto. split; [ring|intros C; exfalso; apply C; auto].
  - destruct IH as (y & E1 & E2 & E3 & E4 & _). cbn [stepMany]. rewrite E1. unfold schedStep. unfold stepGetLr. cbn [lastEpoch optLr].
    rewrite E2. rewrite (proj2 (Z.eqb_neq (lastEpoch x + Z.of_nat t + 1) 0)) by lia. rewrite (proj2 (Z.eqb_neq s 0)) by lia.
    pose proof (rem_succ_div (lastEpoch x + Z.of_nat t) s Hs ltac:(lia)) as HR. rewrite Nat2Z.inj_succ. unfold Z.succ. rewrite !Z.add_assoc.
    pose proof (Z.div_le_mono (lastEpoch x) (lastEpoch x + Z.of_nat t) s Hs ltac:(lia)).
    destruct (Z.eqb (Z.rem (lastEpoch x + Z.of_nat t + 1) s) 0); eexists; (split; [reflexivity|]); cbn; (split; [lia|]); (split; [lia|]); (split; [|auto]); rewrite E4, HR.
    + replace (Z.to_nat ((lastEpoch x + Z.of_nat t) / s + 1 - lastEpoch x / s)) with (S (Z.to_nat ((lastEpoch x + Z.of_nat t) / s - lastEpoch x / s))) by lia. cbn [pow]. ring.
    + rewrite Z.add_0_r. reflexivity.
Qed.

(** * Parameters do not influence each other *)
Definition concerns (i : nat) (e : event) : bool := match e with EGrad j _ => j =? i | _ => true end.
Lemma gradientOf_filter : forall n i es, gradientOf n i (filter (concerns i) es) = gradientOf n i es.
Proof.
  intros n i es. unfold gradientOf. generalize (@None R). induction es as [|e es IH]; intros x; auto. cbn [filter]. destruct (concerns i e) eqn:E; cbn [fold_left]; [apply IH|].
  rewrite IH. f_equal. destruct e; try discriminate. cbn in *. rewrite E. reflexivity.
Qed.
Lemma stepsIn_filter : forall i es, stepsIn (filter (concerns i) es) = stepsIn es.
Proof. intros i es. unfold stepsIn. induction es as [|[j g| | |l] es IH]; cbn; auto. destruct (j =? i); auto. Qed.
Lemma rate_filter : forall l i es, rateAfter l (filter (concerns i) es) = rateAfter l es.
Proof. intros l i es. unfold rateAfter. revert l. induction es as [|[j g| | |l'] es IH]; intros l; cbn; auto. destruct (j =? i); auto. cbn. auto. Qed.
Definition law (n : nat) (a : algo) (i : nat) (wd : R) (idle : R -> R -> R) (upd : R -> R -> nat -> list (nat * R) -> R) : Prop :=
  forall lr0 th es, let val := fun es => theta (train n a lr0 th es) i in
  val (es ++ [EStep]) = match gradientOf n i es with
                        | None => idle (val es) (rateAfter lr0 es)
                        | Some _ => upd (val es) (rateAfter lr0 es) (S (stepsIn es)) (history n i wd val (es ++ [EStep]))
                        end.
Lemma law_of : forall n a i, (i < n)%nat -> exists wd idle upd, law n a i wd idle upd.
Proof.
  intros n a i Hi. destruct a as [mu d wd nest|ld wd ia eps|al eps wd mu cen|rho eps wd|b1 b2 eps wd ams|b1 b2 eps wd ams].
  - destruct (Req_EM_T mu 0) as [->|Hmu].
    + exists wd, (fun t _ => t), (fun t rate _ l => t - rate * last (map snd l) 0). intros lr0 th es. apply sgd_plain; auto.
    + exists wd, (fun t _ => t), (fun t rate _ l => t - rate * sgdDir mu d nest (aliased wd (map snd l))). intros lr0 th es. apply (sgd_both n mu d wd nest lr0 th Hmu es i Hi).
  - exists wd, (fun t _ => t), (fun t rate k l => t - rate * adagradDir ld ia eps k (map snd l)). intros lr0 th es. apply adagrad_theta; auto.
  - destruct cen.
    + set (ratio := fun l : list R => last l 0 / (ema al (squares l) - ema al l * ema al l + eps)).
      exists wd, (fun t _ => t), (fun t rate k l => t - rate * (if Req_EM_T mu 0 then ratio (snds l) else dsum mu (prefixes ratio (snds l)))). intros lr0 th es.
      apply (gen_theta n (RMSprop al eps wd mu true) lr0 th wd (fun l x y z => x = ema al (squares (snds l)) /\ y = ema al (snds l) /\ (mu <> 0 -> z = dsum mu (prefixes ratio (snds l))))
        (fun t rate k l => t - rate * (if Req_EM_T mu 0 then ratio (snds l) else dsum mu (prefixes ratio (snds l)))) (fun t0 _ => t0)); auto.
      * unfold ema. cbn. repeat split; auto; ring.
      * clear i Hi. start. destruct HI as (HI & HY & HZ). unfold rmsBody. dec wd. rewrite ED. cbv iota zeta. rewrite snds_snoc, squares_snoc, !ema_snoc, prefixes_snoc, dsum_snoc.
        assert (ER : ratio (snds l ++ [heap s r + wd * theta s i]) = heap s0 g / (al * c1 s0 i + (1 - al) * heap s0 g * heap s0 g - (al * c2 s0 i + (1 - al) * heap s0 g) * (al * c2 s0 i + (1 - al) * heap s0 g) + eps)).
        { unfold ratio. rewrite last_snoc, squares_snoc, !ema_snoc, EV, A3, A4, HI, HY, Rmult_assoc. reflexivity. }
        rewrite ER. destruct (Req_EM_T mu 0) as [E0|E0]; cbn; rewrite !set_same, ?A1, ?A3, ?A4, ?A5, ?A10, ?HI, ?HY, ?EV.
        -- split; [split; [ring|split; [reflexivity|contradiction]]|]. unfold Rdiv. ring.
        -- rewrite HZ by auto. split; [split; [ring|split; reflexivity]|reflexivity].
      * idle_tac.
    + exists wd, (fun t _ => t), (fun t rate k l => t - rate * rmsDir al eps mu (map snd l)). intros lr0 th es. apply rms_theta; auto.
  - exists wd, (fun t _ => t), (fun t rate k l => t - rate * adadeltaDir rho eps (map snd l)). intros lr0 th es. apply adadelta_theta; auto.
  - exists wd, (fun t _ => t), (fun t rate k l => t - rate * adamDir b1 b2 eps ams k l). intros lr0 th es. apply adam_theta; auto.
  - exists 0, (fun t rate => t * (1 - rate * wd)), (fun t rate k l => t * (1 - rate * wd) - rate * adamDir b1 b2 eps ams k l). intros lr0 th es. apply adamW_theta; auto.
Qed.
Lemma independent : forall n a lr0 th th' es i, (i < n)%nat -> th i = th' i -> theta (train n a lr0 th es) i = theta (train n a lr0 th' (filter (concerns i) es)) i.
Proof.
  intros n a lr0 th th' es i Hi Hth. destruct (law_of n a i Hi) as (wd & idle & upd & HL).
  set (v := fun es => theta (train n a lr0 th es) i). set (v' := fun es => theta (train n a lr0 th' es) i).
  enough (v es = v' (filter (concerns i) es) /\ history n i wd v es = history n i wd v' (filter (concerns i) es)) by tauto.
  induction es as [|e es [IH1 IH2]] using rev_ind; [split; auto|]. rewrite filter_app. cbn [filter].
  assert (HE : e = EStep \/ e <> EStep) by (destruct e; [right|right|left|right]; congruence). destruct HE as [->|He].
  - cbn [concerns]. assert (HH : history n i wd v (es ++ [EStep]) = history n i wd v' (filter (concerns i) es ++ [EStep])).
    { rewrite !history_step, gradientOf_filter, stepsIn_filter, IH1, IH2. reflexivity. }
    split; [|exact HH].
    assert (X : v (es ++ [EStep]) = match gradientOf n i es with None => idle (v es) (rateAfter lr0 es) | Some _ => upd (v es) (rateAfter lr0 es) (S (stepsIn es)) (history n i wd v (es ++ [EStep])) end) by (apply (HL lr0 th es)).
    assert (Y : forall fs, v' (fs ++ [EStep]) = match gradientOf n i fs with None => idle (v' fs) (rateAfter lr0 fs) | Some _ => upd (v' fs) (rateAfter lr0 fs) (S (stepsIn fs)) (history n i wd v' (fs ++ [EStep])) end) by (intros fs; apply (HL lr0 th' fs)).
    rewrite X, Y, gradientOf_filter, rate_filter, stepsIn_filter, IH1, HH. reflexivity.
  - rewrite history_other by auto. replace (v (es ++ [e])) with (v es) by (symmetry; apply other_theta; auto).
    destruct (concerns i e); [|rewrite app_nil_r; auto]. rewrite history_other by auto. replace (v' (filter (concerns i) es ++ [e])) with (v' (filter (concerns i) es)) by (symmetry; apply other_theta; auto). auto.
Qed.
