(** Proofs about PgModel. *)
From Coq Require Import List Bool ZArith Ascii String Lia.
From Verif Require Import PgModel PgSpec.
Import ListNotations.
Open Scope Z_scope.

Lemma digit_char d : (d < 10)%nat -> digit (ascii_of_nat (48 + d)) = Some (Z.of_nat d).
Proof. intros H. do 10 (destruct d as [|d]; [reflexivity|]). lia. Qed.
Lemma digit_colon : digit ":" = None. Proof. reflexivity. Qed.
Lemma written_digits ds : Forall (fun d => (d < 10)%nat) ds -> forall k v, digits (written ds) k v = ((k + List.length ds)%nat, fold_left (fun v d => 10 * v + Z.of_nat d) ds v).
Proof.
  induction ds as [|d ds IH]; intros F k v; [cbn; f_equal; lia|]. inversion F; subst. cbn [written digits]. rewrite digit_char by assumption. rewrite IH by assumption. cbn [List.length fold_left]. f_equal. lia.
Qed.
Lemma written_front ds : decimal ds -> exists c r, written ds = String c r /\ space c = false /\ c <> "-"%char /\ c <> "+"%char.
Proof.
  intros [N F]. destruct ds as [|d ds]; [congruence|]. inversion F; subst. exists (ascii_of_nat (48 + d)), (written ds). split; [reflexivity|].
  do 10 (destruct d as [|d]; [repeat split; discriminate|]). lia.
Qed.
Lemma stoi_written ds : decimal ds -> number ds <= 2147483647 -> stoi (written ds) = Some (number ds).
Proof.
  intros D B. destruct (written_front ds D) as (c & r & E & S & M & P). unfold stoi. rewrite E. cbn [skipSpaces]. rewrite S.
  assert (SG : sign (String c r) = (1, String c r)).
  { unfold sign. destruct c as [[] [] [] [] [] [] [] []]; try reflexivity; exfalso; [apply P|apply M]; reflexivity. }
  rewrite SG, <- E, written_digits by apply D. destruct D as [N F]. destruct ds as [|d ds]; [congruence|]. cbn [List.length Nat.add Nat.eqb].
  assert (POS : forall l v, 0 <= v -> 0 <= fold_left (fun v d => 10 * v + Z.of_nat d) l v) by (induction l as [|x l IH]; intros v H; cbn [fold_left]; [exact H|apply IH; lia]).
  fold (number (d :: ds)). specialize (POS (d :: ds) 0 ltac:(lia)). fold (number (d :: ds)) in POS. rewrite Z.mul_1_l. rewrite (proj2 (Z.leb_le (-2147483648) (number (d :: ds)))), (proj2 (Z.leb_le (number (d :: ds)) 2147483647)) by lia. reflexivity.
Qed.
Lemma stoi_too_big ds : decimal ds -> 2147483647 < number ds -> stoi (written ds) = None.
Proof.
  intros D B. destruct (written_front ds D) as (c & r & E & S & M & P). unfold stoi. rewrite E. cbn [skipSpaces]. rewrite S.
  assert (SG : sign (String c r) = (1, String c r)).
  { unfold sign. destruct c as [[] [] [] [] [] [] [] []]; try reflexivity; exfalso; [apply P|apply M]; reflexivity. }
  rewrite SG, <- E, written_digits by apply D. destruct D as [N F]. destruct ds as [|d ds]; [congruence|]. cbn [List.length Nat.add Nat.eqb].
  fold (number (d :: ds)). rewrite Z.mul_1_l. rewrite (proj2 (Z.leb_gt (number (d :: ds)) 2147483647)) by lia. rewrite andb_false_r. reflexivity.
Qed.
Lemma written_all ds : Forall (fun d => (d < 10)%nat) ds -> allDigits (written ds) = true.
Proof. induction 1 as [|d ds H F IH]; [reflexivity|]. cbn [written allDigits]. rewrite digit_char by exact H. exact IH. Qed.
Lemma all_written s : allDigits s = true -> exists ds, s = written ds /\ Forall (fun d => (d < 10)%nat) ds.
Proof.
  induction s as [|c s IH]; intros H; [exists []; split; [reflexivity|constructor]|]. cbn in H. unfold digit in H.
  destruct ((48 <=? Z.of_nat (nat_of_ascii c)) && (Z.of_nat (nat_of_ascii c) <=? 57)) eqn:E; [|discriminate]. destruct (IH H) as (ds & -> & F). apply andb_prop in E. destruct E as [E1 E2]. apply Z.leb_le in E1, E2.
  exists ((nat_of_ascii c - 48)%nat :: ds). split; [|constructor; [lia|exact F]]. cbn [written]. f_equal. replace (48 + (nat_of_ascii c - 48))%nat with (nat_of_ascii c) by lia. symmetry. apply ascii_nat_embedding.
Qed.
Lemma colon_none s : noColon s -> atColon s = (s, None).
Proof. induction s as [|c s IH]; intros H; [reflexivity|]. destruct H as [H1 H2]. cbn. destruct (Ascii.eqb_spec c ":"); [contradiction|]. rewrite (IH H2). reflexivity. Qed.
Lemma colon_some s t : noColon s -> atColon (s ++ String ":" t) = (s, Some t).
Proof. induction s as [|c s IH]; intros H; [reflexivity|]. destruct H as [H1 H2]. cbn. destruct (Ascii.eqb_spec c ":"); [contradiction|]. rewrite (IH H2). reflexivity. Qed.
Lemma colon_inv s h t : atColon s = (h, t) -> noColon h /\ s = match t with Some t => (h ++ String ":" t)%string | None => h end.
Proof.
  revert h t; induction s as [|c s IH]; intros h t E; cbn in E.
  - injection E as <- <-. split; [exact I|reflexivity].
  - destruct (Ascii.eqb_spec c ":").
    + injection E as <- <-. subst c. split; [exact I|reflexivity].
    + destruct (atColon s) as [a b]. injection E as <- <-. destruct (IH a b eq_refl) as [H1 H2]. split; [split; assumption|]. destruct b; cbn; rewrite H2 at 1; reflexivity.
Qed.
Lemma match_host h : hostName h -> matchTcp h = Some (h, None).
Proof. intros [N C]. unfold matchTcp. rewrite colon_none by exact C. destruct h; [congruence|reflexivity]. Qed.
Lemma match_port h ds : hostName h -> decimal ds -> matchTcp (h ++ ":" ++ written ds) = Some (h, Some (written ds)).
Proof.
  intros [N C] [ND F]. unfold matchTcp. change (h ++ ":" ++ written ds)%string with (h ++ String ":" (written ds))%string. rewrite colon_some by exact C. destruct h as [|c h]; [congruence|].
  destruct ds as [|d ds]; [congruence|]. cbn [written]. change (String (ascii_of_nat (48 + d)) (written ds)) with (written (d :: ds)). rewrite written_all by exact F. reflexivity.
Qed.
Lemma match_inv s h p : matchTcp s = Some (h, p) -> hostName h /\ match p with None => s = h | Some p => exists ds, p = written ds /\ decimal ds /\ s = (h ++ ":" ++ written ds)%string end.
Proof.
  unfold matchTcp. destruct (atColon s) as [a b] eqn:E. apply colon_inv in E. destruct E as [E1 E2]. destruct a as [|c a]; [discriminate|].
  destruct b as [[|d b]|].
  - discriminate.
  - destruct (allDigits (String d b)) eqn:A; [|discriminate]. intros X. injection X as <- <-. split; [split; [discriminate|exact E1]|]. destruct (all_written _ A) as (ds & W & F). exists ds. split; [exact W|].
    split; [split; [destruct ds; [discriminate|discriminate]|exact F]|]. rewrite E2, W. reflexivity.
  - intros X. injection X as <- <-. split; [split; [discriminate|exact E1]|exact E2].
Qed.
Lemma after_app p s : after p (p ++ s) = Some s.
Proof. induction p as [|c p IH]; [reflexivity|]. cbn. rewrite Ascii.eqb_refl. exact IH. Qed.
Lemma after_inv p s t : after p s = Some t -> s = (p ++ t)%string.
Proof. revert s; induction p as [|c p IH]; intros s E; cbn in E; [injection E as <-; reflexivity|]. destruct s as [|d s]; [discriminate|]. destruct (Ascii.eqb_spec c d); [|discriminate]. subst. cbn. f_equal. apply IH, E. Qed.

Lemma parse_tcp env h r ws : hostName h -> parseInitString env ("tcp://" ++ h) r ws = Some (mkCfg TCP h 29500 "" r ws).
Proof.
  intros H. unfold parseInitString. cbn [String.eqb append Ascii.eqb Bool.eqb]. change (String "t" (String "c" (String "p" (String ":" (String "/" (String "/" h))))))%char with ("tcp://" ++ h)%string. rewrite after_app, match_host by exact H. reflexivity.
Qed.
Lemma parse_tcp_port env h ds r ws : hostName h -> decimal ds ->
  parseInitString env ("tcp://" ++ h ++ ":" ++ written ds) r ws = if number ds <=? 2147483647 then Some (mkCfg TCP h (number ds) "" r ws) else None.
Proof.
  intros H D. unfold parseInitString. change (("tcp://" ++ h ++ ":" ++ written ds) =? "env://")%string with false. cbv iota. rewrite after_app, match_port by assumption.
  destruct (Z.leb_spec (number ds) 2147483647); [rewrite stoi_written by assumption|rewrite stoi_too_big by assumption]; reflexivity.
Qed.
Lemma parse_file env p r ws : parseInitString env ("file://" ++ p) r ws = Some (mkCfg FILE "" 29500 p r ws).
Proof. reflexivity. Qed.
Lemma parse_other env s r ws : ~ wellFormed s -> parseInitString env s r ws = Some noConfig.
Proof.
  intros N. unfold parseInitString. destruct (String.eqb_spec s "env://") as [->|]; [exfalso; apply N; constructor|].
  destruct (after "tcp://" s) as [t|] eqn:A.
  - apply after_inv in A. destruct (matchTcp t) as [[h p]|] eqn:M; [|reflexivity]. exfalso. apply N. destruct (match_inv _ _ _ M) as [H P]. rewrite A. destruct p as [p|].
    + destruct P as (ds & _ & D & ->). apply WTcpPort; assumption.
    + rewrite P. apply WTcp, H.
  - destruct (after "file://" s) as [p|] eqn:B; [|reflexivity]. exfalso. apply N. apply after_inv in B. rewrite B. constructor.
Qed.
(** A group made from a configuration. *)
Lemma init_ok env c s r ws timeout wait st : parseInitString env s r ws = Some c -> rank c <> -1 -> worldSize c <> -1 -> createStore c = Some st ->
  exists g, initProcessGroup env None NCCL s r ws timeout wait = Returns true (Some g) /\ groupOn st (rank c) (worldSize c) g.
Proof.
  intros P R W S. unfold initProcessGroup. rewrite P, (proj2 (Z.eqb_neq _ _) R), (proj2 (Z.eqb_neq _ _) W). cbn [orb]. unfold createStore in S.
  destruct (method c) eqn:M; [discriminate| | |]; (eexists; split; [reflexivity|]); (split; [unfold createStore; cbn; rewrite M; exact S|]); cbn; repeat split; eexists; repeat split.
Qed.
