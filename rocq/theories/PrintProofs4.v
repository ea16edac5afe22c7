From Coq Require Import ZArith List Bool Arith Lia.
From Verif Require Import PrintModel PrintSpec PrintProofs2 PrintSpec3.
Import ListNotations.
Open Scope nat_scope.

Fixpoint total (n : nat) (f : nat -> nat) : nat := match n with O => O | S n => f n + total n f end.
Lemma total_ext n f g : (forall i, i < n -> f i = g i) -> total n f = total n g.
Proof. induction n as [|n IH]; intros H; cbn [total]; [reflexivity|]. rewrite (H n), IH by auto. reflexivity. Qed.
Definition w (x : place * list (level * text)) : nat := 3 * List.length (snd x) + match fst x with Outside => 0 | Locked _ => 2 | Filled _ => 1 end.
Lemma total_set n f i x : i < n -> total n (fun j => w (setThread f i x j)) + w (f i) = total n (fun j => w (f j)) + w x.
Proof.
  induction n as [|n IH]; intros L; [lia|]. cbn [total]. destruct (Nat.eq_dec i n) as [<-|Q].
  - rewrite set_same. rewrite (total_ext i (fun j => w (setThread f i x j)) (fun j => w (f j))); [lia|]. intros j Hj. rewrite set_other by lia. reflexivity.
  - rewrite set_other by lia. specialize (IH ltac:(lia)). lia.
Qed.
Definition quiet (n : nat) (s : state) : Prop := forall i, n <= i -> threads s i = (Outside, []).
Lemma step_less n s i s' : quiet n s -> step s i = Some s' -> quiet n s' /\ total n (fun j => w (threads s' j)) < total n (fun j => w (threads s j)).
Proof.
  intros K H. assert (L : i < n). { destruct (Nat.lt_ge_cases i n) as [L|L]; [exact L|]. unfold step in H. rewrite (K i L) in H. discriminate H. }
  assert (X : exists x, threads s' = setThread (threads s) i x /\ w x < w (threads s i)).
  { unfold step in H. destruct (threads s i) as [[|[l t]|l] r].
    - destruct r as [|c r]; [discriminate|]. destruct (owner s); [discriminate|]. injection H as <-. eexists. split; [reflexivity|]. unfold w. cbn [fst snd List.length]. lia.
    - destruct (_ <? _)%Z; injection H as <-; (eexists; split; [reflexivity|]); unfold w; cbn [fst snd]; lia.
    - injection H as <-. eexists. split; [reflexivity|]. unfold w. cbn [fst snd]. lia. }
  destruct X as (x & T & Lx). rewrite T. split; [intros j Hj; rewrite T, set_other by lia; apply K; exact Hj|]. pose proof (total_set n (threads s) i x L). lia.
Qed.
Lemma moves_less n sched : forall s s', quiet n s -> moves s sched = Some s' -> List.length sched + total n (fun j => w (threads s' j)) <= total n (fun j => w (threads s j)).
Proof.
  induction sched as [|i r IH]; intros s s' K H; cbn [moves] in H; [injection H as ->; cbn [List.length]; lia|]. destruct (step s i) as [s1|] eqn:E; [|discriminate]. destruct (step_less n s i s1 K E) as [K1 L]. specialize (IH s1 s' K1 H). cbn [List.length]. lia.
Qed.
Lemma calls_total n calls : total n (fun j => w (Outside, calls j)) = 3 * allCalls n calls.
Proof. induction n as [|n IH]; cbn [total allCalls]; [reflexivity|]. rewrite IH. unfold w. cbn [fst snd]. lia. Qed.
Lemma log_ends n calls sched s : (forall i, n <= i -> calls i = []) -> moves (start calls) sched = Some s -> List.length sched <= 3 * allCalls n calls.
Proof.
  intros Q H. assert (K : quiet n (start calls)) by (intros i Hi; cbn [start threads]; rewrite (Q i Hi); reflexivity). pose proof (moves_less n sched _ _ K H) as M. cbn [start threads] in M. rewrite calls_total in M. lia.
Qed.
Lemma moves_run sched : forall s s', moves s sched = Some s' -> run s sched = s'.
Proof. induction sched as [|i r IH]; intros s s' H; cbn [moves run] in *; [injection H as ->; reflexivity|]. destruct (step s i); [apply IH; exact H|discriminate]. Qed.
Lemma log_all calls sched s : moves (start calls) sched = Some s -> (forall j, step s j = None) -> exists h, out s = stdoutOf h /\ err s = stderrOf h /\ forall i, callsOf i h = calls i.
Proof.
  intros H N. apply moves_run in H. destruct (log_threads calls sched) as (h & O & E & C). rewrite H in O, E, C. exists h. split; [exact O|]. split; [exact E|]. intros i. destruct (C i) as (r & Er & D).
  assert (Q : threads s i = (Outside, [])). { assert (P : threads s i = (Outside, []) \/ threads s i <> (Outside, [])) by (destruct (threads s i) as [[|c|l] [|c' r']]; (left; reflexivity) || (right; discriminate)). destruct P as [P|P]; [exact P|]. exfalso. pose proof (log_moves calls sched i) as M. cbv zeta in M. rewrite H in M. destruct (M P) as (j & s' & J). rewrite N in J. discriminate J. }
  rewrite (D Q), app_nil_r in Er. symmetry. exact Er.
Qed.
