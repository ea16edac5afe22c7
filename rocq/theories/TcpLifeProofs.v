(** Proofs: construction and start-up of a TCP store. *)
From Coq Require Import List Arith ZArith Bool Lia.
From Verif Require Import TcpLifeModel TcpLifeSpec.
Import ListNotations.

Lemma try_iff n : forall l, tryConnect n l = true <-> exists k, k < n /\ nth k l false = true.
Proof.
  induction n as [|n IH]; intros l; cbn [tryConnect].
  - split; [discriminate|intros (k & H & _); lia].
  - destruct l as [|[] l].
    + rewrite IH. split; intros (k & _ & E); destruct k; discriminate E.
    + split; auto. intros _. exists 0. split; [lia|reflexivity].
    + rewrite IH. split.
      * intros (k & H & E). exists (S k). split; [lia|exact E].
      * intros ([|k] & H & E); [discriminate E|]. exists k. split; [lia|exact E].
Qed.

Lemma construct_iff isS ww n e : snd (construct isS ww n e) = true <->
  (isS = true -> canListen e = true) /\ canSocket e = true /\ canResolve e = true /\ (exists k, k < 10 /\ nth k (connects e) false = true) /\
  canRegister e = true /\ (isS = true -> ww = true -> (0 < n)%Z -> workersCome e = true).
Proof.
  rewrite <- try_iff. unfold construct, connect. destruct (tryConnect 10 (connects e)), isS, (canListen e), (canSocket e), (canResolve e), (canRegister e), ww; cbn;
  try (destruct (Z.ltb_spec 0 n)); cbn; destruct (workersCome e); cbn; (split; [intros H0; try discriminate H0|]); intuition (try discriminate; try lia).
Qed.
Lemma construct_good isS ww n e s : construct isS ww n e = (s, true) -> client s = Some (true, true) /\ server s = (if isS then Some true else None).
Proof.
  unfold construct. destruct isS, (canListen e), (connect e), (canRegister e); cbn; intros E; try discriminate E; try (apply (f_equal snd) in E; discriminate E); apply (f_equal fst) in E; cbn in E; subst s; auto.
Qed.

(** ** Registration *)
Lemma nth_setAt {A} i (a : A) l j : nth_error (setAt i a l) j = if (j =? i) && (i <? length l) then Some a else if i <? length l then nth_error l j else if j <? length l then nth_error l j else if j =? length l then Some a else nth_error (setAt i a l) j.
Proof.
  destruct (Nat.ltb_spec i (length l)) as [Hi|Hi].
  - rewrite andb_true_r. unfold setAt. assert (HL : length (firstn i l) = i) by (rewrite firstn_length; lia).
    destruct (Nat.eqb_spec j i) as [->|N].
    + rewrite nth_error_app2 by lia. rewrite HL, Nat.sub_diag. reflexivity.
    + destruct (Nat.lt_ge_cases j i).
      * rewrite nth_error_app1 by lia. rewrite <- (firstn_skipn i l) at 2. rewrite nth_error_app1 by lia. reflexivity.
      * rewrite nth_error_app2 by lia. rewrite HL. destruct (j - i) as [|k] eqn:E; [lia|]. cbn [nth_error].
        rewrite <- (firstn_skipn (S i) l) at 2. rewrite nth_error_app2 by (rewrite firstn_length; lia). f_equal. rewrite firstn_length. lia.
  - rewrite andb_false_r. unfold setAt. rewrite firstn_all2, skipn_all2 by lia. destruct (Nat.ltb_spec j (length l)); [rewrite nth_error_app1; auto|].
    destruct (Nat.eqb_spec j (length l)) as [->|]; [rewrite nth_error_app2, Nat.sub_diag by lia; reflexivity|reflexivity].
Qed.
Lemma split_at {A} i (l : list A) a : nth_error l i = Some a -> l = firstn i l ++ a :: skipn (S i) l.
Proof.
  revert l. induction i as [|i IH]; intros [|x l] E; try discriminate E; cbn in E.
  - injection E as <-. reflexivity.
  - cbn [firstn skipn app]. f_equal. apply (IH l E).
Qed.
(** registrations that will notify *)
Definition due (num : Z) (r : reg) : bool := (num <=? current r)%Z.
Definition dues (num : Z) (l : list reg) : Z := Z.of_nat (length (filter (due num) l)).
Lemma dues_app num a b : dues num (a ++ b) = (dues num a + dues num b)%Z.
Proof. unfold dues. rewrite filter_app, app_length. lia. Qed.
Lemma dues_cons num r l : dues num (r :: l) = ((if due num r then 1 else 0) + dues num l)%Z.
Proof. unfold dues. cbn [filter]. destruct (due num r); cbn [length]; lia. Qed.
Lemma dues_pos num l : (0 < dues num l)%Z -> exists i r, nth_error l i = Some r /\ (num <= current r)%Z.
Proof.
  unfold dues. intros H. destruct (filter (due num) l) as [|r rs] eqn:E; [cbn in H; lia|]. assert (I : In r (filter (due num) l)) by (rewrite E; left; auto).
  apply filter_In in I as [I D]. apply In_nth_error in I as [i Hi]. exists i, r. split; auto. apply Z.leb_le. exact D.
Qed.
Definition waiting (w : waiter) : bool := match w with WChecked | WAsleep => true | _ => false end.
Definition sinv (num : Z) (s : start) : Prop := waiting (who s) = true -> (count s <= num - 1 + dues num (regs s))%Z.
Lemma sinv_step num l s s' : sinv num s -> sdo num l s = Some s' -> sinv num s'.
Proof.
  unfold sinv. intros I E. destruct l as [| | | | |i|i|i| |]; cbn [sdo] in E.
  - destruct (who s); try discriminate E.
    + destruct (Z.leb_spec num 0); injection E as <-; cbn [who count regs]; [discriminate|]. destruct (Z.leb_spec num (count s)); cbn; [discriminate|]. intros _. unfold dues. lia.
    + injection E as <-. cbn [who count regs]. destruct (Z.leb_spec num (count s)); cbn; [discriminate|]. intros _. unfold dues. lia.
    + injection E as <-. discriminate.
  - destruct (who s); try discriminate E. injection E as <-. cbn in *. auto.
  - destruct (who s); try discriminate E. injection E as <-. discriminate.
  - destruct (who s); try discriminate E; injection E as <-; discriminate.
  - injection E as <-. cbn [who count regs]. intros W. specialize (I W). rewrite dues_app, dues_cons. unfold due at 1. cbn [current].
    destruct (Z.leb_spec num (count s + 1)); change (dues num []) with 0%Z; [lia|]. unfold dues in *. lia.
  - destruct (nth_error (regs s) i) as [[c []]|] eqn:N; try discriminate E. injection E as <-. cbn [who count regs]. intros W. specialize (I W).
    rewrite (split_at i (regs s) _ N) in I. unfold setAt. rewrite dues_app, dues_cons in *. exact I.
  - destruct (nth_error (regs s) i) as [[c []]|] eqn:N; try discriminate E. injection E as <-. cbn [who count regs]. intros W. specialize (I W).
    rewrite (split_at i (regs s) _ N) in I. unfold without. rewrite dues_app, dues_cons in *. destruct (due _ _); lia.
  - destruct (nth_error (regs s) i) as [[c []]|] eqn:N; try discriminate E. destruct (Z.leb_spec num c) as [D|D].
    + destruct (who s) eqn:Wh; try discriminate E; injection E as <-; cbn; try discriminate.
    + injection E as <-. cbn [who count regs]. intros W. specialize (I W). rewrite (split_at i (regs s) _ N) in I. unfold without. rewrite dues_app, dues_cons in *.
      cbv beta delta [due] in I. cbn [current] in I. fold (due num) in I. destruct (Z.leb_spec num c); lia.
  - injection E as <-. cbn [who count regs]. intros W. specialize (I W). lia.
  - injection E as <-. auto.
Qed.
Lemma count_step num l s s' : sdo num l s = Some s' -> count s' = (count s + registered [l])%Z.
Proof.
  intros E. destruct l as [| | | | |i|i|i| |]; cbn [sdo] in E.
  - destruct (who s); try discriminate E; [destruct (num <=? 0)%Z| |]; injection E as <-; cbn; lia.
  - destruct (who s); try discriminate E; injection E as <-; cbn; lia.
  - destruct (who s); try discriminate E; injection E as <-; cbn; lia.
  - destruct (who s); try discriminate E; injection E as <-; cbn; lia.
  - injection E as <-; cbn; lia.
  - destruct (nth_error (regs s) i) as [[c []]|]; try discriminate E; injection E as <-; cbn; lia.
  - destruct (nth_error (regs s) i) as [[c []]|]; try discriminate E; injection E as <-; cbn; lia.
  - destruct (nth_error (regs s) i) as [[c []]|]; try discriminate E. destruct (num <=? c)%Z; [destruct (who s); try discriminate E|]; injection E as <-; cbn; lia.
  - injection E as <-; cbn; lia.
  - injection E as <-; cbn; lia.
Qed.
Lemma registered_app a b : registered (a ++ b) = (registered a + registered b)%Z.
Proof. induction a as [|x a IH]; [reflexivity|]. unfold registered in *. cbn [app fold_right]. rewrite IH. lia. Qed.
Lemma srun_snoc num ls l : forall s s', srun num (ls ++ [l]) s = Some s' <-> exists s1, srun num ls s = Some s1 /\ sdo num l s1 = Some s'.
Proof.
  induction ls as [|x ls IH]; intros s s'; cbn [app srun].
  - split.
    + intros E. exists s. split; auto. destruct (sdo num l s); auto.
    + intros (s1 & E & E'). injection E as <-. rewrite E'. reflexivity.
  - destruct (sdo num x s) as [s1|]; [apply IH|]. split; [discriminate|]. intros (? & E & _). discriminate E.
Qed.
Lemma srun_count num ls : forall s, srun num ls sinit = Some s -> count s = registered ls.
Proof.
  induction ls as [|l ls IH] using rev_ind; intros s E.
  - injection E as <-. reflexivity.
  - apply srun_snoc in E as (s1 & E1 & E2). rewrite registered_app, <- (IH _ E1). apply (count_step _ _ _ _ E2).
Qed.
Lemma srun_inv num ls : forall s, srun num ls sinit = Some s -> sinv num s.
Proof.
  induction ls as [|l ls IH] using rev_ind; intros s E.
  - injection E as <-. intros W. discriminate W.
  - apply srun_snoc in E as (s1 & E1 & E2). apply (sinv_step _ _ _ _ (IH _ E1) E2).
Qed.
Lemma done_step num l s s' b : who s = WDone b -> sdo num l s = Some s' -> who s' = WDone b.
Proof.
  intros W E. destruct l as [| | | | |i|i|i| |]; cbn [sdo] in E; rewrite ?W in E; try discriminate E; try (injection E as <-; cbn; auto; fail).
  - destruct (nth_error (regs s) i) as [[c []]|]; try discriminate E; injection E as <-; auto.
  - destruct (nth_error (regs s) i) as [[c []]|]; try discriminate E; injection E as <-; auto.
  - destruct (nth_error (regs s) i) as [[c []]|]; try discriminate E. destruct (num <=? c)%Z; injection E as <-; cbn; auto.
Qed.
(** The step at which it returned. *)
Lemma done_when num ls b : (0 < num)%Z -> forall s, srun num ls sinit = Some s -> who s = WDone b ->
  exists ls1 ls2 s1, ls = ls1 ++ Wait :: ls2 /\ srun num ls1 sinit = Some s1 /\ (if b then num <= registered ls1 else registered ls1 < num /\ who s1 = WLate)%Z.
Proof.
  intros Hn. induction ls as [|l ls IH] using rev_ind; intros s E W.
  - injection E as <-. discriminate W.
  - apply srun_snoc in E as (s1 & E1 & E2). destruct (who s1) as [| | | | |b'] eqn:W1.
    6: { pose proof (done_step _ _ _ _ _ W1 E2) as W2. rewrite W in W2. injection W2 as <-.
         destruct (IH s1 E1 W1) as (l1 & l2 & s0 & -> & ES & H). exists l1, (l2 ++ [l]), s0. split; [rewrite <- app_assoc; reflexivity|auto]. }
    all: destruct l as [| | | | |i|i|i| |]; cbn [sdo] in E2; rewrite ?W1 in E2; try discriminate E2;
      try (injection E2 as <-; cbn in W; congruence);
      try (destruct (nth_error (regs s1) i) as [[c []]|]; try discriminate E2; try (destruct (num <=? c)%Z; try discriminate E2); injection E2 as <-; cbn in W; congruence).
    + destruct (Z.leb_spec num 0); [lia|]. injection E2 as <-. cbn [who] in W. destruct (Z.leb_spec num (count s1)); [|discriminate W]. injection W as <-.
      exists ls, [], s1. rewrite <- (srun_count _ _ _ E1). auto.
    + injection E2 as <-. cbn [who] in W. destruct (Z.leb_spec num (count s1)); [|discriminate W]. injection W as <-.
      exists ls, [], s1. rewrite <- (srun_count _ _ _ E1). auto.
    + injection E2 as <-. cbn [who] in W. injection W as <-. exists ls, [], s1. rewrite <- (srun_count _ _ _ E1). destruct (Z.leb_spec num (count s1)); auto.
Qed.
Lemma late_after num ls : forall s, srun num ls sinit = Some s -> who s = WLate -> In Timeout ls.
Proof.
  induction ls as [|l ls IH] using rev_ind; intros s E W.
  - injection E as <-. discriminate W.
  - apply srun_snoc in E as (s1 & E1 & E2). apply in_or_app. destruct l as [| | | | |i|i|i| |]; cbn [sdo] in E2; try (right; left; reflexivity).
    + destruct (who s1); try discriminate E2; [destruct (num <=? 0)%Z| |]; injection E2 as <-; cbn in W; try discriminate W; destruct (num <=? count s1)%Z; discriminate W.
    + destruct (who s1); try discriminate E2. injection E2 as <-. discriminate W.
    + destruct (who s1); try discriminate E2. injection E2 as <-. discriminate W.
    + injection E2 as <-. left. apply (IH s1); auto.
    + destruct (nth_error (regs s1) i) as [[c []]|]; try discriminate E2. injection E2 as <-. left. apply (IH s1); auto.
    + destruct (nth_error (regs s1) i) as [[c []]|]; try discriminate E2. injection E2 as <-. left. apply (IH s1); auto.
    + destruct (nth_error (regs s1) i) as [[c []]|]; try discriminate E2. left. apply (IH s1); auto. destruct (num <=? c)%Z; [destruct (who s1); try discriminate E2|]; injection E2 as <-; cbn in W; congruence.
    + injection E2 as <-. left. apply (IH s1); auto.
    + injection E2 as <-. left. apply (IH s1); auto.
Qed.
Lemma asleep_due num ls s : srun num ls sinit = Some s -> waiting (who s) = true -> (num <= registered ls)%Z -> exists i r, nth_error (regs s) i = Some r /\ (num <= current r)%Z.
Proof.
  intros E W H. pose proof (srun_inv _ _ _ E W) as I. rewrite (srun_count _ _ _ E) in I. apply dues_pos. lia.
Qed.
