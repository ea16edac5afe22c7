(** What the handle of a collective says (C93). *)
From Coq Require Import List Bool ZArith String Lia.
From Verif Require Import WorkModel WorkProofs.
Import ListNotations.
Open Scope Z_scope.

(** A handle nobody has waited on says that the operation is over exactly when it
    is, and nothing about errors. *)
Theorem work_completed_partial : forall started barrier at_ now,
  (isCompleted (newWork started barrier) at_ now = true <-> exists t, at_ = Some t /\ t <= now) /\ isSuccess (newWork started barrier) = true.
Proof.
  intros. split; [|reflexivity]. unfold isCompleted, newWork, query. cbn. destruct at_ as [t|]; split.
  - intros H. exists t. split; [reflexivity|apply Z.leb_le, H].
  - intros (u & E & H). injection E as <-. apply Z.leb_le, H.
  - discriminate.
  - intros (u & E & _). discriminate.
Qed.
(** The first wait with a timeout: [true] only if the operation was over, [false]
    only if it was not when last looked at and the time was up; the handle says
    the same afterwards. *)
Theorem work_wait_timeout_partial : forall started barrier at_ timeout polls b w, timeout <> 0 ->
  wait (newWork started barrier) at_ timeout polls = Some (b, w) ->
  isSuccess w = b /\
  if b then exists t q c, at_ = Some t /\ In (q, c) polls /\ t <= q
  else exists l q c r, polls = (l ++ (q, c) :: r)%list /\ (forall t, at_ = Some t -> forall q' c', In (q', c') (l ++ [(q, c)]) -> q' < t) /\ started + timeout <= c.
Proof.
  intros started barrier at_ timeout polls b w N E. unfold wait in E. rewrite (proj2 (Z.eqb_neq _ _) N) in E. cbn [negb] in E. apply wait_loop in E; [|reflexivity]. destruct E as (_ & S & H). split; [exact S|]. destruct b.
  - destruct H as (q & c & I & Q). unfold query in Q. destruct at_ as [t|]; [|discriminate]. exists t, q, c. split; [reflexivity|]. split; [exact I|apply Z.leb_le, Q].
  - destruct H as (l & q & c & r & EQ & Q & T). exists l, q, c, r. split; [exact EQ|]. cbn in T. split; [|lia]. intros t -> q' c' I. specialize (Q _ _ I). cbn in Q. apply Z.leb_gt, Q.
Qed.
(** It comes back once it looks late enough. *)
Theorem work_wait_returns : forall started barrier at_ timeout polls, timeout <> 0 ->
  (exists q c, In (q, c) polls /\ ((exists t, at_ = Some t /\ t <= q) \/ started + timeout <= c)) -> wait (newWork started barrier) at_ timeout polls <> None.
Proof.
  intros started barrier at_ timeout polls N (q & c & I & H). unfold wait. rewrite (proj2 (Z.eqb_neq _ _) N). cbn [negb]. apply wait_loop_ends. exists q, c. split; [exact I|].
  destruct H as [(t & -> & L)|L]; [left; apply Z.leb_le, L|right; exact L].
Qed.
(** A wait without a timeout returns [true] at once, and from then on the handle
    says that the operation is over, whether it ever is or not. *)
Theorem work_wait_refuted : forall started polls,
  exists w, wait (newWork started false) None 0 polls = Some (true, w) /\ isSuccess w = true /\ forall now, isCompleted w None now = true.
Proof. intros. eexists. split; [reflexivity|]. split; [reflexivity|]. reflexivity. Qed.
(** After a wait that timed out the handle says that the operation is over; the
    next wait returns [true] and the error is gone. *)
Theorem work_timed_out_refuted : forall started timeout polls w, timeout <> 0 -> wait (newWork started false) None timeout polls = Some (false, w) ->
  (forall now, isCompleted w None now = true) /\ isSuccess w = false /\
  forall timeout' q c more, exists w', wait w None timeout' ((q, c) :: more) = Some (true, w') /\ isSuccess w' = true.
Proof.
  intros started timeout polls w N E. unfold wait in E. rewrite (proj2 (Z.eqb_neq _ _) N) in E. cbn [negb] in E.
  assert (B : isBarrier w = false). { clear -E. revert E. induction polls as [|[q c] polls IH]; cbn [waitLoop]; [discriminate|]. destruct (isCompleted _ _ _); [discriminate|]. destruct (checkTimeout _ _ _); [|exact IH]. intros E. injection E as <-. reflexivity. }
  apply wait_loop in E; [|reflexivity]. destruct E as (C & S & _).
  split; [intros now; unfold isCompleted; rewrite C; reflexivity|]. split; [exact S|]. intros timeout' q c more. exists (finish w ""). split; [|reflexivity].
  unfold wait. destruct (negb (timeout' =? 0)); cbn [waitLoop]; unfold isCompleted; rewrite C; cbn [orb]; [reflexivity|]. rewrite B. reflexivity.
Qed.
(** The timeout counts from the start of the operation: a wait that begins later
    than that gives up at its first look. *)
Theorem work_timeout_from_start_refuted : forall started barrier t timeout q c more, timeout <> 0 -> q < t -> started + timeout <= c ->
  exists w, wait (newWork started barrier) (Some t) timeout ((q, c) :: more) = Some (false, w).
Proof.
  intros started barrier t timeout q c more N Q T. eexists. unfold wait. rewrite (proj2 (Z.eqb_neq _ _) N). cbn [negb waitLoop]. unfold isCompleted, newWork, query, checkTimeout. cbn [completed orb startedAt].
  rewrite (proj2 (Z.leb_gt _ _) Q), (proj2 (Z.leb_le _ _)) by lia. reflexivity.
Qed.

(** The hypotheses are met: started at 0, reached at 7; a wait of 5 from time 1
    on, one of 10, and a wait of 5 that begins at 6. *)
Example work_times : wait (newWork 0 false) (Some 7) 5 [(1, 1); (3, 3); (5, 6)] = Some (false, mkW true "WorkNCCL wait timed out" 0 false)
  /\ wait (newWork 0 false) (Some 7) 10 [(1, 1); (3, 3); (5, 6); (7, 8)] = Some (true, mkW true "" 0 false)
  /\ wait (newWork 0 false) (Some 7) 5 [(6, 6); (7, 8)] = Some (false, mkW true "WorkNCCL wait timed out" 0 false).
Proof. repeat split. Qed.
Print Assumptions work_completed_partial.
Print Assumptions work_wait_timeout_partial.
Print Assumptions work_wait_returns.
Print Assumptions work_wait_refuted.
Print Assumptions work_timed_out_refuted.
Print Assumptions work_timeout_from_start_refuted.
