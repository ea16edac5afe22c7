(** Proofs about WorkModel. *)
From Coq Require Import List Bool ZArith String Lia.
From Verif Require Import WorkModel.
Import ListNotations.
Open Scope Z_scope.

Lemma wait_loop w a timeout polls b w' : completed w = false -> waitLoop w a timeout polls = Some (b, w') ->
  completed w' = true /\ isSuccess w' = b /\
  if b then exists q c, In (q, c) polls /\ query a q = true
  else exists l q c r, polls = (l ++ (q, c) :: r)%list /\ (forall q' c', In (q', c') (l ++ [(q, c)]) -> query a q' = false) /\ timeout <= c - startedAt w.
Proof.
  intros C. induction polls as [|[q c] polls IH]; intros E; cbn in E; [discriminate|]. unfold isCompleted in E. rewrite C in E. cbn in E.
  destruct (query a q) eqn:Q; [injection E as <- <-; repeat split; auto; exists q, c; auto with datatypes|].
  destruct (checkTimeout w timeout c) eqn:T.
  - injection E as <- <-. split; [reflexivity|]. split; [reflexivity|]. exists [], q, c, polls. split; [reflexivity|]. split; [|apply Z.leb_le, T].
    intros q' c' [E|[]]. injection E as <- <-. exact Q.
  - destruct (IH E) as (A & B & D). split; [exact A|]. split; [exact B|]. destruct b.
    + destruct D as (q' & c' & I & H). exists q', c'. split; [right; exact I|exact H].
    + destruct D as (l & q' & c' & r & -> & H & L). exists ((q, c) :: l), q', c', r. split; [reflexivity|]. split; [|exact L].
      intros q2 c2 [X|X]; [injection X as <- <-; exact Q|eapply H; exact X].
Qed.
Lemma wait_loop_ends w a timeout polls : (exists q c, In (q, c) polls /\ (query a q = true \/ startedAt w + timeout <= c)) -> waitLoop w a timeout polls <> None.
Proof.
  induction polls as [|[q c] polls IH]; intros (q' & c' & I & H); [destruct I|]. destruct I as [E|I].
  - injection E as -> ->. cbn. unfold isCompleted, checkTimeout. destruct H as [-> | H]; [rewrite orb_true_r; discriminate|]. destruct (completed w || query a q'); [discriminate|].
    rewrite (proj2 (Z.leb_le timeout (c' - startedAt w))) by lia. discriminate.
  - cbn. destruct (isCompleted w a q); [discriminate|]. destruct (checkTimeout w timeout c); [discriminate|]. apply IH. exists q', c'. auto.
Qed.
