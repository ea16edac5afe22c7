(** The rule of the root is only applied to the gradient [backward] starts with. *)
From Coq Require Import ZArith List Bool Arith Lia.
From Verif Require Import AutogradModel AutogradSpec AutogradProofs.
Import ListNotations.

Section Root.
Context {V : gvalues}.
Variables (g : graph V) (root x : nat) (f f' : V -> V).
Hypothesis HR : nth_error g root = Some (FOp [(x, Fresh f)]).
Definition changed : graph V := setNth g root (FOp [(x, Fresh f')]).
Lemma set_length : forall {A} (l : list A) i y, length (setNth l i y) = length l.
Proof. intros A l. induction l as [|z l IH]; intros [|i] y; cbn; auto. Qed.
Lemma set_same : forall {A} (l : list A) i y, i < length l -> nth_error (setNth l i y) i = Some y.
Proof. intros A l. induction l as [|z l IH]; intros [|i] y H; cbn in *; auto; try lia. apply IH. lia. Qed.
Lemma set_other : forall {A} (l : list A) i j y, j <> i -> nth_error (setNth l i y) j = nth_error l j.
Proof. intros A l. induction l as [|z l IH]; intros [|i] [|j] y H; cbn in *; auto; try congruence. Qed.
Lemma changed_root : nth_error changed root = Some (FOp [(x, Fresh f')]).
Proof. apply set_same. apply nth_error_Some. congruence. Qed.
Lemma changed_other : forall u, u <> root -> nth_error changed u = nth_error g u.
Proof. intros. apply set_other. auto. Qed.
Lemma changed_length : length changed = length g.
Proof. apply set_length. Qed.
Lemma changed_nexts : forall u, option_map nexts (nth_error changed u) = option_map nexts (nth_error g u).
Proof. intros u. destruct (Nat.eq_dec u root) as [->|N]; [rewrite changed_root, HR; auto|rewrite changed_other; auto]. Qed.
Lemma countDeps_same : forall fuel q tr deps, countDeps changed fuel q tr deps = countDeps g fuel q tr deps.
Proof.
  induction fuel as [|fuel IH]; intros [|c q] tr deps; cbn [countDeps]; auto. pose proof (changed_nexts c) as H.
  destruct (nth_error changed c) as [a|], (nth_error g c) as [b|]; try discriminate; auto. injection H as ->. destruct (countEdges (nexts b) q tr deps) as [[q' tr'] deps']. apply IH.
Qed.
Lemma emit_same : forall fuel q deps, emit changed fuel q deps = emit g fuel q deps.
Proof.
  induction fuel as [|fuel IH]; intros [|c q] deps; cbn [emit]; auto. pose proof (changed_nexts c) as H.
  destruct (nth_error changed c) as [a|], (nth_error g c) as [b|]; try discriminate; auto. injection H as ->. destruct (releaseEdges (nexts b) q deps) as [q' deps']. rewrite IH. auto.
Qed.
Lemma build_same : buildBackwardGraph changed root = buildBackwardGraph g root.
Proof.
  unfold buildBackwardGraph. rewrite changed_length, countDeps_same. destruct (countDeps g _ _ _ _); auto. apply emit_same.
Qed.
Lemma changed_acyclic : acyclic g -> acyclic changed.
Proof.
  intros AC u fn t E Ht. destruct (Nat.eq_dec u root) as [->|N].
  - rewrite changed_root in E. injection E as <-. apply (AC root _ t HR). exact Ht.
  - rewrite changed_other in E by auto. apply (AC u fn t E Ht).
Qed.
Lemma runAll_same : forall order st, ~ In root order -> runAll changed st order = runAll g st order.
Proof.
  induction order as [|n order IH]; intros st H; cbn [runAll]; auto. unfold runFn. rewrite changed_other by (intros ->; apply H; left; auto).
  destruct (nth_error g n); auto. destruct (gradOf st n); auto. destruct (deliverAll st n0 (deliveries f0)); auto. apply IH. intros H'. apply H. right. auto.
Qed.
Lemma changed_backward : forall s, acyclic g -> f s = f' s ->
  backward changed (State [s] (fun _ => None) []) root 0 = backward g (State [s] (fun _ => None) []) root 0.
Proof.
  intros s AC E. unfold backward. rewrite build_same. assert (Hr : root < length g) by (apply nth_error_Some; congruence).
  destruct (build_order g AC root Hr) as (order & Eo & CF). rewrite Eo. cbn [addGrad gradOf].
  assert (O : exists rest, order = root :: rest).
  { unfold buildBackwardGraph in Eo. destruct (countDeps g _ _ _ _) as [deps|]; [|discriminate]. cbn [emit] in Eo. rewrite HR in Eo. destruct (releaseEdges _ _ _) as [q' deps'].
    destruct (emit g (length g) q' deps') as [rest|]; [|discriminate]. injection Eo as <-. eauto. }
  destruct O as (rest & ->). destruct CF as (ND & _). apply NoDup_cons_iff in ND. destruct ND as [NI _].
  cbn [runAll]. unfold runFn. rewrite changed_root, HR. cbn [gradOf]. unfold upd at 1. unfold upd at 2. rewrite Nat.eqb_refl. cbn [deliverAll deliveries deliver snd fst heap nth_error alloc]. rewrite E.
  match goal with |- match match ?a with _ => _ end with _ => _ end = _ => destruct a; auto end. apply runAll_same. auto.
Qed.
End Root.
