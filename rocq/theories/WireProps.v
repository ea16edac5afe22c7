(** C36: messages of the TCP store. *)
From Coq Require Import ZArith List Bool Arith Lia.
From Verif Require Import StoreModel WireModel WireSpec WireProofs.
Import ListNotations.
Open Scope Z_scope.

(** However many bytes each call of send takes, what it sends is the message. *)
Theorem wire_send : forall data amounts, Forall (fun a => (0 < a)%nat) amounts -> (length data <= list_sum amounts)%nat -> sendBytes data amounts = Some data.
Proof. exact send_enough. Qed.
(** And a call reporting success has sent all of it. *)
Theorem wire_send_all : forall data amounts w, sendBytes data amounts = Some w -> w = data.
Proof. intros data amounts w. apply send_all. Qed.
(** The server reads back a request from any fragmentation and leaves what
    follows. *)
Theorem wire_request : forall q b cs, sendable q -> pieces cs -> concat cs = encode q ++ b ->
  exists cs', serverRead recvBytes cs = Some (q, cs') /\ concat cs' = b /\ pieces cs'.
Proof.
  intros q b cs H HP HC. pose proof (server_agrees cs HP) as HA. rewrite HC in HA. rewrite server_reads_back in HA by auto. destruct (serverRead recvBytes cs) as [[q' r']|]; [|destruct HA]. destruct HA as (-> & E & HP'). exists r'. auto.
Qed.
(** A whole sequence of them. *)
Theorem wire_requests : forall qs b cs, Forall sendable qs -> pieces cs -> concat cs = flat_map encode qs ++ b ->
  exists cs', serverReads recvBytes (length qs) cs = Some (qs, cs') /\ concat cs' = b /\ pieces cs'.
Proof. exact serverReads_back. Qed.
(** The client reads back the answer. *)
Theorem wire_answer : forall q r b cs, answers_to q r -> pieces cs -> concat cs = answer q r ++ b ->
  exists cs', clientRead recvBytes q cs = Some (r, cs') /\ concat cs' = b /\ pieces cs'.
Proof.
  intros q r b cs H HP HC. pose proof (client_agrees q cs HP) as HA. rewrite HC in HA. rewrite client_reads_back in HA by auto. destruct (clientRead recvBytes q cs) as [[q' r']|]; [|destruct HA]. destruct HA as (-> & E & HP'). exists r'. auto.
Qed.
(** A request whose connection ends before its last byte is not executed. *)
Theorem wire_broken : forall q s t cs, sendable q -> encode q = s ++ t -> t <> [] -> pieces cs -> concat cs = s -> serverRead recvBytes cs = None.
Proof.
  intros q s t cs H E N HP HC. pose proof (server_agrees cs HP) as HA. rewrite HC in HA. rewrite (server_broken q s t) in HA by auto. destruct (serverRead recvBytes cs) as [[q' r']|]; auto. destruct HA.
Qed.
(** Different requests have different bytes, and none begins another. *)
Theorem wire_prefix_free : forall q q' t, sendable q -> sendable q' -> encode q' = encode q ++ t -> q' = q /\ t = [].
Proof.
  intros q q' t H H' E. pose proof (server_reads_back q t H) as R. rewrite <- E in R. pose proof (server_reads_back q' [] H') as R'. rewrite app_nil_r in R'. rewrite R in R'. injection R' as -> ->. auto.
Qed.
Example wire_nonvacuous :
  serverReads recvBytes 2 [[2; 1; 0; 0]; [0; 0; 0; 0; 0; 97]; [255; 255; 255; 255; 255; 255; 255]; [255; 4; 0; 0; 0; 0; 0; 0; 0]; [0; 6]] = Some ([QOp (OAdd [97] (-1)); QOp (OWait [])], [[6]]) /\
  encode (QOp (OAdd [97] (-1))) = [2; 1; 0; 0; 0; 0; 0; 0; 0; 97; 255; 255; 255; 255; 255; 255; 255; 255] /\ sendable (QOp (OAdd [97] (-1))) /\
  encode (QOp (OSet [97] [5])) = [0; 1; 0; 0; 0; 0; 0; 0; 0; 97; 1; 0; 0; 0; 0; 0; 0; 0; 5] /\ encode (QOp (OCheck [[97]])) = [3; 1; 0; 0; 0; 0; 0; 0; 0; 1; 0; 0; 0; 0; 0; 0; 0; 97] /\
  answer (QOp (OGet [97])) (RValue [7]) = [1; 0; 0; 0; 0; 0; 0; 0; 7] /\ answers_to (QOp (OGet [97])) (RValue [7]) /\
  clientRead recvBytes (QOp (OGet [97])) [[1; 0]; [0; 0; 0; 0; 0; 0; 7; 9]] = Some (RValue [7], [[9]]) /\
  serverRead recvBytes [[0; 1; 0; 0; 0; 0; 0; 0; 0; 97; 1]; [0; 0; 0; 0; 0; 0; 0]] = None.
Proof. repeat split; try reflexivity; try lia. exists [7]. repeat split. Qed.

Print Assumptions wire_send.
Print Assumptions wire_request.
Print Assumptions wire_requests.
Print Assumptions wire_answer.
Print Assumptions wire_broken.
Print Assumptions wire_prefix_free.
