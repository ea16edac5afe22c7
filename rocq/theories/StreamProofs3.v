(** Proofs about StreamModel: one step of one rank. *)
From Coq Require Import List Bool Arith Lia FunctionalExtensionality.
From Verif Require Import CollModel StreamModel StreamSpec StreamProofs StreamProofs2.
Import ListNotations.

Section Rank.
Context {V : Type}.
Implicit Types (p q : list (hcmd V)) (L Li a b : list (el V)) (r : rank V).

Definition valid (n : nat) p : Prop := forall q w q2, p = q ++ HWait w :: q2 -> w < n + length (colls q).
Record tracksAt r L Li (n : nat) : Prop := mkT {
  t_L : L = Li ++ els n (prog r);
  t_noread : forall h, ~ In (EH h) Li;
  t_compute : compute r = compq Li;
  t_comm : comm r = commq Li;
  t_ev : nextEv r = 2 * n;
  t_works : works r = evs n;
  t_rec : forall e, In e (works r) -> In e (recorded r);
  t_valid : valid n (prog r);
  t_ordered : ordered L (fired r)
}.
Definition tracks r L : Prop := exists Li n, tracksAt r L Li n.
(** A call by itself. *)
Definition runCall (x : hcmd V) (d : (nat -> V) * list V) : (nat -> V) * list V :=
  match x with
  | HKernel k => (runKernel k (fst d), snd d)
  | HRead a => (fst d, snd d ++ [fst d a])
  | _ => d
  end.
Definition isLocal (x : hcmd V) : Prop := match x with HKernel _ | HRead _ => True | _ => False end.
Definition data r : (nat -> V) * list V := (memory r, seen r).
Definition moved r L r' L' : Prop :=
  (acts L' = acts L /\ data r' = data r) \/
  (exists pre x post, acts L = map HColl pre ++ x :: post /\ acts L' = map HColl pre ++ post /\ isLocal x /\ (forall c, In c pre -> ~ touches x c) /\ data r' = runCall x (data r)).

Lemma valid_step n x p : valid n (x :: p) -> valid (nc x + n) p.
Proof. intros H a w b E. specialize (H (x :: a) w b). rewrite E in H. specialize (H eq_refl). destruct x; cbn in *; lia. Qed.
Lemma has_In l e : has l e = true <-> In e l.
Proof. unfold has. rewrite existsb_exists. split; [intros (x & I & E); apply Nat.eqb_eq in E; subst; auto|intros I; exists e; split; [auto|apply Nat.eqb_refl]]. Qed.
Lemma evs_S n : evs (S n) = evs n ++ [2 * n + 1].
Proof. unfold evs. rewrite seq_S, map_app. reflexivity. Qed.
Lemma evs_nth n w : nth_error (evs n) w = if w <? n then Some (2 * w + 1) else None.
Proof.
  revert w; induction n as [|n IH]; intros w; [destruct w; reflexivity|]. rewrite evs_S.
  assert (LE : length (evs n) = n) by (unfold evs; rewrite map_length, seq_length; reflexivity).
  destruct (Nat.ltb_spec w (S n)); destruct (Nat.lt_ge_cases w n).
  - rewrite nth_error_app1 by lia. rewrite IH. destruct (Nat.ltb_spec w n); [reflexivity|lia].
  - rewrite nth_error_app2 by lia. rewrite LE. replace w with n by lia. rewrite Nat.sub_diag. reflexivity.
  - lia.
  - apply nth_error_None. rewrite app_length, LE. cbn. lia.
Qed.
Lemma compq_first Li i (q : list (item V)) : compq Li = i :: q -> exists a x b, Li = a ++ x :: b /\ compq a = [] /\ onC x = [i] /\ compq b = q.
Proof.
  induction Li as [|y Li IH]; intros E; [discriminate|]. unfold compq in E; cbn in E. fold (compq Li) in E.
  destruct (onC y) as [|j t] eqn:Y.
  - destruct (IH E) as (a & x & b & -> & A & X & B). exists (y :: a), x, b. repeat split; auto. unfold compq; cbn. rewrite Y. exact A.
  - assert (t = []) by (destruct y; cbn in Y; congruence). subst t. cbn in E. injection E as -> <-. exists [], y, Li. auto.
Qed.
Lemma commq_first Li i (q : list (item V)) : commq Li = i :: q -> exists a x b, Li = a ++ x :: b /\ commq a = [] /\ onN x = [i] /\ commq b = q.
Proof.
  induction Li as [|y Li IH]; intros E; [discriminate|]. unfold commq in E; cbn in E. fold (commq Li) in E.
  destruct (onN y) as [|j t] eqn:Y.
  - destruct (IH E) as (a & x & b & -> & A & X & B). exists (y :: a), x, b. repeat split; auto. unfold commq; cbn. rewrite Y. exact A.
  - assert (t = []) by (destruct y; cbn in Y; congruence). subst t. cbn in E. injection E as -> <-. exists [], y, Li. auto.
Qed.
(** Without computing and reading, only collectives are left. *)
Fixpoint ncs (L : list (el V)) : list coll := match L with [] => [] | NC c :: L => c :: ncs L | _ :: L => ncs L end.
Lemma ncs_in L c : In c (ncs L) -> In (NC c) L.
Proof. induction L as [|x L IH]; [auto|]. destruct x; cbn; intuition congruence. Qed.
Lemma acts_ncs a : compq a = [] -> (forall h, ~ In (EH h) a) -> acts a = map HColl (ncs a).
Proof.
  induction a as [|x a IH]; intros E N; [reflexivity|]. unfold compq in E; cbn in E. apply app_eq_nil in E. destruct E as [E1 E2].
  assert (A : acts a = map HColl (ncs a)) by (apply IH; [exact E2|intros h I; apply (N h); right; exact I]).
  unfold acts in *. destruct x; cbn in *; try discriminate; rewrite ?A; auto. exfalso. eapply N. left. reflexivity.
Qed.
Lemma no_clash a x b fired c : ordered (a ++ x :: b) fired -> compq a = [] -> In c (ncs a) -> ~ clash x c.
Proof.
  intros O E I CL. apply ncs_in in I. destruct (in_split _ _ I) as (u & v & ->).
  destruct (o_wait _ _ O u c v x b) as (y & e & z & -> & J); [rewrite <- app_assoc; reflexivity|exact CL|].
  assert (K : In (EW e) (u ++ NC c :: y ++ NR e :: z)) by (rewrite in_app_iff; right; right; rewrite in_app_iff; right; right; exact J).
  apply (compq_nil_in _ _ E) in K. discriminate.
Qed.

Lemma tracks_remove r L Li n a x b r' :
  tracksAt r L Li n -> Li = a ++ x :: b -> ready a x (fired r) ->
  prog r' = prog r -> compute r' = compq (a ++ b) -> comm r' = commq (a ++ b) -> nextEv r' = nextEv r -> works r' = works r -> recorded r' = recorded r -> fired r' = rec1 x ++ fired r ->
  tracksAt r' ((a ++ b) ++ els n (prog r)) (a ++ b) n.
Proof.
  intros T -> RD E1 E2 E3 E4 E5 E6 E7. pose proof T.(t_L _ _ _ _) as EL. destruct T as [TL T1 T2 T3 T4 T5 T6 T7 T8]. constructor; rewrite ?E1, ?E4, ?E5, ?E6, ?E7; auto.
  - intros h I. apply (T1 h). rewrite in_app_iff in *. cbn. tauto.
  - rewrite <- app_assoc. apply ordered_remove; [|exact RD]. rewrite EL in T8. rewrite <- app_assoc in T8. exact T8.
Qed.

Lemma waitStream_eq p cq nq ne rc fd ws (m : nat -> V) sn :
  waitStream (mkR p cq nq ne rc fd ws m sn) = mkR p (cq ++ [SRecord ne]) (nq ++ [SWait ne]) (S ne) (ne :: rc) fd ws m sn.
Proof.
  unfold waitStream, newEvent; cbn [nextEv]. unfold blockN.
  assert (E : has (recorded (recordC (mkR p cq nq (S ne) rc fd ws m sn) ne)) ne = true) by (apply has_In; left; reflexivity).
  cbv beta iota zeta delta [prog compute comm nextEv recorded fired works memory seen] in E |- *. rewrite E. reflexivity.
Qed.
Lemma startColl_eq p cq nq ne rc fd ws (m : nat -> V) sn c :
  startColl (mkR p cq nq ne rc fd ws m sn) c =
  mkR p (cq ++ [SRecord ne]) (((nq ++ [SWait ne]) ++ [SColl c]) ++ [SRecord (S ne)]) (S (S ne)) (S ne :: ne :: rc) fd (ws ++ [S ne]) m sn.
Proof. unfold startColl. rewrite waitStream_eq. reflexivity. Qed.

Theorem hostStep_tracks r L r' : tracks r L -> hostStep r = Some r' -> exists L', tracks r' L' /\ moved r L r' L'.
Proof.
  intros (Li & n & T) H. destruct r as [p cq nq ne rc fd ws m sn]. destruct T as [TL T1 T2 T3 T4 T5 T6 T7 T8]. cbn in *.
  destruct p as [|x p]; [discriminate|]. unfold hostStep in H; cbn [prog] in H; cbv zeta in H. destruct x as [k|c|w|h].
  - injection H as <-. exists L. split; [|left; auto]. exists (Li ++ [EK k]), n. cbn. constructor; cbn; auto.
    + rewrite TL, <- app_assoc. reflexivity.
    + intros h I. apply in_app_iff in I. destruct I as [I|[I|[]]]; [eapply T1; eauto|discriminate].
    + rewrite compq_app, T2. reflexivity.
    + rewrite commq_app, T3. cbn. rewrite app_nil_r. reflexivity.
    + apply (valid_step _ _ _ T7).
  - unfold withProg in H. cbn [compute comm nextEv recorded fired works memory seen] in H. rewrite startColl_eq in H. injection H as <-. exists L. split; [|left; auto].
    exists (Li ++ [ER (2 * n); NW (2 * n); NC c; NR (2 * n + 1)]), (S n). subst ne. constructor; cbn [prog compute comm nextEv recorded fired works memory seen]; auto.
    + rewrite TL, <- app_assoc. reflexivity.
    + intros h I. apply in_app_iff in I. destruct I as [I|I]; [eapply T1; eauto|]. cbn in I. intuition discriminate.
    + rewrite compq_app, T2. reflexivity.
    + rewrite commq_app, T3, <- !app_assoc. cbn [app]. replace (2 * n + 1) with (S (2 * n)) by lia. reflexivity.
    + lia.
    + rewrite evs_S, T5. do 2 f_equal. lia.
    + intros e I. apply in_app_iff in I. destruct I as [I|[I|[]]]; [right; right; apply T6; exact I|left; auto].
    + apply (valid_step _ _ _ T7).
  - unfold wait in H. cbn in H. assert (X := T7 [] w p eq_refl). cbn in X. rewrite T5, evs_nth in H.
    destruct (Nat.ltb_spec w n) as [_|F]; [|lia]. cbn [app] in H.
    unfold blockC in H. cbn [recorded] in H.
    assert (B : has rc (2 * w + 1) = true).
    { apply has_In. apply T6. rewrite T5. apply (nth_error_In _ w). rewrite evs_nth. destruct (Nat.ltb_spec w n); [reflexivity|lia]. }
    unfold withProg in H; cbn [recorded] in H. rewrite B in H. unfold enqueueC in H; cbn [prog compute comm nextEv recorded fired works memory seen] in H; injection H as <-. exists L. split; [|left; auto].
    exists (Li ++ [EW (2 * w + 1)]), n. constructor; cbn [prog compute comm nextEv recorded fired works memory seen]; auto; try (intros; subst; auto; fail).
    + rewrite TL, <- app_assoc. reflexivity.
    + intros h I. apply in_app_iff in I. destruct I as [I|I]; [eapply T1; eauto|]. cbn in I. intuition discriminate.
    + rewrite compq_app, T2. reflexivity.
    + rewrite commq_app, T3. cbn. rewrite app_nil_r. reflexivity.
    + apply (valid_step _ _ _ T7).
  - unfold hostRead in H. cbn in H. destruct cq as [|]; [|discriminate]. injection H as <-.
    assert (EL : L = Li ++ EH h :: els n p) by exact TL.
    exists (Li ++ els n p). split.
    + exists Li, n. constructor; cbn [prog compute comm nextEv recorded fired works memory seen]; auto.
      * apply (valid_step _ _ _ T7).
      * rewrite EL in T8. apply (ordered_remove _ _ _ _ T8). split; [exact I|]. split; [intros F; exfalso; apply F; reflexivity|]. split; [intros F; exfalso; apply F; reflexivity|]. intros; auto.
    + right. exists (ncs Li), (HRead h), (acts (els n p)). rewrite EL, !acts_app. rewrite (acts_ncs Li) by auto.
      split; [reflexivity|]. split; [reflexivity|]. split; [exact I|]. split; [|reflexivity].
      intros c J. rewrite EL in T8. exact (no_clash _ _ _ _ _ T8 (eq_sym T2) J).
Qed.

Theorem computeStep_tracks r L r' : tracks r L -> computeStep r = Some r' -> exists L', tracks r' L' /\ moved r L r' L'.
Proof.
  intros (Li & n & T) H. unfold computeStep in H. destruct (compute r) as [|i q] eqn:EC; [discriminate|].
  pose proof (t_compute _ _ _ _ T) as TC. rewrite EC in TC. symmetry in TC. destruct (compq_first _ _ _ TC) as (a & x & b & EL & CA & OX & CB).
  assert (ON : onN x = []) by (destruct x; cbn in OX; try discriminate; reflexivity).
  assert (Q : compq (a ++ b) = q) by (rewrite compq_app, CA, CB; reflexivity).
  assert (N : comm r = commq (a ++ b)) by (rewrite (t_comm _ _ _ _ T), EL, !commq_app; cbn; rewrite ON; reflexivity).
  assert (RD : gate x (fired r) -> ready a x (fired r)).
  { intros G. split; [exact G|]. split; [auto|]. split; [rewrite ON; congruence|]. intros h ->. exact CA. }
  assert (AL : acts L = acts a ++ act1 x ++ acts (b ++ els n (prog r))) by (rewrite (t_L _ _ _ _ T), EL; unfold acts; rewrite !flat_map_app; cbn; rewrite ?flat_map_app, <- ?app_assoc; reflexivity).
  assert (NR : forall h, ~ In (EH h) a) by (intros h I; apply (t_noread _ _ _ _ T h); rewrite EL; apply in_app_iff; auto).
  destruct x as [k|e|e|e|c|e|h]; cbn in OX; try discriminate; injection OX as <-.
  - injection H as <-. eexists. split; [exists (a ++ b), n; eapply tracks_remove; eauto; apply RD; exact I|]. right.
    exists (ncs a), (HKernel k), (acts (b ++ els n (prog r))). rewrite AL, <- app_assoc, (acts_app a), (acts_ncs a) by auto.
    split; [reflexivity|]. split; [reflexivity|]. split; [exact I|]. split; [|reflexivity].
    intros c J. pose proof (t_ordered _ _ _ _ T) as O. rewrite (t_L _ _ _ _ T), EL, <- app_assoc in O. exact (no_clash _ _ _ _ _ O CA J).
  - injection H as <-. eexists. split; [exists (a ++ b), n; eapply tracks_remove; eauto; apply RD; exact I|]. left.
    split; [|reflexivity]. rewrite AL, <- app_assoc, (acts_app a). reflexivity.
  - destruct (has (fired r) e) eqn:HF; [|discriminate]. apply has_In in HF. injection H as <-. eexists. split; [exists (a ++ b), n; eapply tracks_remove; eauto|]. left.
    split; [|reflexivity]. rewrite AL, <- app_assoc, (acts_app a). reflexivity.
Qed.

Lemma comm_setting r L Li n i (q : list (item V)) : tracksAt r L Li n -> comm r = i :: q ->
  exists a x b, Li = a ++ x :: b /\ commq a = [] /\ onN x = [i] /\ onC x = [] /\ commq (a ++ b) = q /\ compute r = compq (a ++ b) /\
  (gate x (fired r) -> ready a x (fired r)) /\ acts L = acts a ++ act1 x ++ acts (b ++ els n (prog r)).
Proof.
  intros T EC. pose proof (t_comm _ _ _ _ T) as TC. rewrite EC in TC. symmetry in TC. destruct (commq_first _ _ _ TC) as (a & x & b & EL & CA & OX & CB).
  assert (ON : onC x = []) by (destruct x; cbn in OX; try discriminate; reflexivity).
  exists a, x, b. repeat split; auto.
  - rewrite commq_app, CA, CB. reflexivity.
  - rewrite (t_compute _ _ _ _ T), EL, !compq_app. cbn. rewrite ON. reflexivity.
  - rewrite ON. congruence.
  - intros h ->. discriminate.
  - rewrite (t_L _ _ _ _ T), EL; unfold acts; rewrite !flat_map_app; cbn; rewrite ?flat_map_app, <- ?app_assoc; reflexivity.
Qed.
Theorem commStep_tracks r L r' : tracks r L -> commStep r = Some r' -> exists L', tracks r' L' /\ moved r L r' L'.
Proof.
  intros (Li & n & T) H. unfold commStep in H. destruct (comm r) as [|i q] eqn:EC; [discriminate|].
  destruct (comm_setting _ _ _ _ _ _ T EC) as (a & x & b & EL & CA & OX & ON & Q & N & RD & AL).
  destruct x as [k|e|e|e|c|e|h]; cbn in OX; try discriminate; injection OX as <-; try discriminate.
  - destruct (has (fired r) e) eqn:HF; [|discriminate]. apply has_In in HF. injection H as <-. eexists. split; [exists (a ++ b), n; eapply tracks_remove; eauto|]. left.
    split; [|reflexivity]. rewrite AL, <- app_assoc, (acts_app a). reflexivity.
  - injection H as <-. eexists. split; [exists (a ++ b), n; eapply tracks_remove; eauto; apply RD; exact I|]. left.
    split; [|reflexivity]. rewrite AL, <- app_assoc, (acts_app a). reflexivity.
Qed.
(** A collective that is first in the communication stream is the first thing
    left to do. *)
Theorem meet_tracks r L c sem sent i : tracks r L -> atColl r = Some c ->
  exists L', tracks (received sem sent i r c) L' /\ acts L = HColl c :: acts L'.
Proof.
  intros (Li & n & T) H. unfold atColl in H. destruct (comm r) as [|y q] eqn:EC; [discriminate|].
  destruct (comm_setting _ _ _ _ _ _ T EC) as (a & x & b & EL & CA & OX & ON & Q & N & RD & AL).
  destruct y; try discriminate. injection H as ->. destruct x; cbn in OX; try discriminate. injection OX as ->.
  assert (CP : compq a = []).
  { pose proof (t_ordered _ _ _ _ T) as O. rewrite (t_L _ _ _ _ T), EL, <- app_assoc in O.
    destruct (o_nc _ _ O a c _ eq_refl) as [E|(a1 & e & E)]; [exact E|]. rewrite E, commq_app in CA. apply app_eq_nil in CA. destruct CA; discriminate. }
  assert (NR : forall h, ~ In (EH h) a) by (intros h I; apply (t_noread _ _ _ _ T h); rewrite EL; apply in_app_iff; auto).
  assert (AN : acts a = []).
  { rewrite (acts_ncs a CP NR). destruct (ncs a) as [|d l] eqn:E; [reflexivity|]. assert (J : In d (ncs a)) by (rewrite E; left; reflexivity).
    apply ncs_in in J. apply (commq_nil_in _ _ CA) in J. discriminate. }
  eexists. split; [exists (a ++ b), n; eapply tracks_remove; eauto; try (apply RD; exact I); unfold received; rewrite EC; symmetry; exact Q|].
  rewrite AL, AN, <- app_assoc, (acts_app a), AN. reflexivity.
Qed.
Lemma tracks_start p m : waitsFirst p -> tracks (start1 p m) (els 0 p).
Proof.
  intros W. exists [], 0. constructor; cbn; auto; try (intros; tauto).
  - intros a w b E. destruct W as [_ W]. apply (W _ _ _ E).
  - apply ordered_start, W.
Qed.
End Rank.
