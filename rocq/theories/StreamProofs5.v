(** Proofs about StreamModel: all ranks. *)
From Coq Require Import List Bool Arith Lia FunctionalExtensionality.
From Verif Require Import CollModel StreamModel StreamSpec StreamProofs StreamProofs2 StreamProofs3 StreamProofs4.
Import ListNotations.

Section All.
Context {V : Type} (sem : collOp -> nat -> list V -> V -> V).
Implicit Types (rs : list (rank V)) (Ls : list (list (el V))).

Definition abs1 (r : rank V) (L : list (el V)) : solo V := (acts L, data r).
Fixpoint abs rs Ls : list (solo V) := match rs, Ls with r :: rs, L :: Ls => abs1 r L :: abs rs Ls | _, _ => [] end.
Lemma abs_app rs1 rs2 Ls1 Ls2 : length rs1 = length Ls1 -> abs (rs1 ++ rs2) (Ls1 ++ Ls2) = abs rs1 Ls1 ++ abs rs2 Ls2.
Proof. revert Ls1; induction rs1 as [|r rs1 IH]; intros [|L Ls1] E; try discriminate; [reflexivity|]. cbn. rewrite IH by (cbn in E; lia). reflexivity. Qed.
Lemma onRank_split f i rs rs' : onRank f i rs = Some rs' -> exists rs1 r r' rs2, rs = rs1 ++ r :: rs2 /\ rs' = rs1 ++ r' :: rs2 /\ f r = Some r' /\ length rs1 = i.
Proof.
  revert i rs'; induction rs as [|r rs IH]; intros i rs' E; cbn in E; [discriminate|]. destruct i as [|i].
  - destruct (f r) as [r'|] eqn:F; [|discriminate]. injection E as <-. exists [], r, r', rs. auto.
  - destruct (onRank f i rs) as [l|] eqn:F; [|discriminate]. injection E as <-. destruct (IH _ _ F) as (rs1 & r0 & r' & rs2 & -> & -> & G & H).
    exists (r :: rs1), r0, r', rs2. cbn. auto.
Qed.
Lemma onRank_some f rs1 r rs2 r' : f r = Some r' -> onRank f (length rs1) (rs1 ++ r :: rs2) = Some (rs1 ++ r' :: rs2).
Proof. intros E. induction rs1 as [|x rs1 IH]; cbn; [rewrite E|rewrite IH]; reflexivity. Qed.
Definition step1 (f : rank V -> option (rank V)) : Prop := forall r L r', tracks r L -> f r = Some r' -> exists L', tracks r' L' /\ moved r L r' L'.
Lemma moved_same n (rs1 rs2 : list (solo V)) r L r' L' : moved r L r' L' -> oneByOne sem n (rs1 ++ abs1 r L :: rs2) = oneByOne sem n (rs1 ++ abs1 r' L' :: rs2).
Proof.
  unfold abs1. intros [[E1 E2]|(pre & x & post & E1 & E2 & E3 & E4 & E5)].
  - rewrite E1, E2. reflexivity.
  - rewrite E1, E2, E5. apply commute; assumption.
Qed.
Definition collsLeft (L : list (el V)) : list collOp := map cop (colls (acts L)).
Lemma moved_colls r L r' L' : moved r L r' L' -> collsLeft L' = collsLeft L.
Proof.
  unfold collsLeft. intros [[E1 E2]|(pre & x & post & E1 & E2 & E3 & _)]; [rewrite E1; reflexivity|]. rewrite E1, E2, !colls_app. destruct x; try destruct E3; reflexivity.
Qed.
Lemma onRank_tracks f i rs Ls rs' : step1 f -> Forall2 tracks rs Ls -> onRank f i rs = Some rs' ->
  exists Ls', Forall2 tracks rs' Ls' /\ (forall n, oneByOne sem n (abs rs Ls) = oneByOne sem n (abs rs' Ls')) /\ map collsLeft Ls' = map collsLeft Ls.
Proof.
  intros S T E. destruct (onRank_split _ _ _ _ E) as (rs1 & r & r' & rs2 & -> & -> & F & _).
  apply Forall2_app_inv_l in T. destruct T as (Ls1 & Ls0 & T1 & T2 & ->). inversion T2 as [|? L ? Ls2 T3 T4]; subst.
  destruct (S _ _ _ T3 F) as (L' & T5 & M). exists (Ls1 ++ L' :: Ls2).
  assert (LE : length rs1 = length Ls1) by (clear -T1; induction T1; cbn; congruence).
  split; [apply Forall2_app; auto|]. split; [|rewrite !map_app; cbn; rewrite (moved_colls _ _ _ _ M); reflexivity].
  intros n. rewrite !abs_app by exact LE. cbn [abs]. apply moved_same, M.
Qed.

Lemma meet_all sent rs Ls cs i : Forall2 tracks rs Ls -> allAt rs = Some cs ->
  exists Ls', Forall2 tracks (receiveAll sem sent i rs cs) Ls' /\ heads (map till (abs rs Ls)) = Some cs /\
    deliver sem sent i (map till (abs rs Ls)) cs = abs (receiveAll sem sent i rs cs) Ls' /\
    sentBy (map till (abs rs Ls)) cs = map (fun rc => memory (fst rc) (cin (snd rc))) (combine rs cs) /\
    map collsLeft Ls = map (fun cl => cop (fst cl) :: snd cl) (combine cs (map collsLeft Ls')) /\ length cs = length rs /\ length Ls' = length rs.
Proof.
  intros T. revert cs i. induction T as [|r L rs Ls T1 T IH]; intros cs i E; cbn in E.
  - injection E as <-. exists []. repeat split; constructor.
  - destruct (atColl r) as [c|] eqn:A; [|discriminate]. destruct (allAt rs) as [cs'|]; [|discriminate]. injection E as <-.
    destruct (IH cs' (S i) eq_refl) as (Ls' & H1 & H2 & H3 & H4 & H5 & H6 & H7). destruct (meet_tracks _ _ _ sem sent i T1 A) as (L' & T2 & E2).
    exists (L' :: Ls'). cbn [receiveAll abs map].
    assert (TL : till (abs1 r L) = (HColl c :: acts L', data r)) by (unfold abs1; rewrite E2; reflexivity).
    rewrite TL. repeat split.
    + constructor; auto.
    + cbn. rewrite H2. reflexivity.
    + cbn [deliver data]. rewrite H3. reflexivity.
    + unfold sentBy in *. cbn [combine map fst snd]. rewrite H4. reflexivity.
    + cbn [combine map fst snd]. rewrite H5. unfold collsLeft at 1. rewrite E2. reflexivity.
    + cbn. rewrite H6. reflexivity.
    + cbn. rewrite H7. reflexivity.
Qed.
Lemma sameOp_all c cs d : sameOp (c :: cs) = true -> In d (c :: cs) -> cop d = cop c.
Proof. cbn. rewrite forallb_forall. intros H [->|I]; [reflexivity|]. specialize (H _ I). destruct (collOp_eq_dec (cop d) (cop c)); [assumption|discriminate]. Qed.
Definition alike (l : list (list collOp)) : Prop := forall a b, In a l -> In b l -> a = b.

Theorem step_tracks a rs Ls rs' : Forall2 tracks rs Ls -> step sem a rs = Some rs' ->
  exists Ls' k, Forall2 tracks rs' Ls' /\ (forall n, oneByOne sem (k + n) (abs rs Ls) = oneByOne sem n (abs rs' Ls')) /\
  (alike (map collsLeft Ls) -> alike (map collsLeft Ls')).
Proof.
  intros T E. destruct a; cbn [step] in E.
  1,2,3: (eapply onRank_tracks in E; [|first [exact hostStep_tracks|exact computeStep_tracks|exact commStep_tracks]|exact T];
    destruct E as (Ls' & H1 & H2 & H3); exists Ls', 0; rewrite H3; auto).
  unfold rendezvous in E. destruct (allAt rs) as [cs|] eqn:A; [|discriminate]. destruct (sameOp cs) eqn:B; [|discriminate]. injection E as <-.
  destruct (meet_all (map (fun rc => memory (fst rc) (cin (snd rc))) (combine rs cs)) rs Ls cs 0 T A) as (Ls' & H1 & H2 & H3 & H4 & H5 & H6 & H7).
  exists Ls', 1. split; [exact H1|]. split.
  - intros n. cbn [Nat.add]. rewrite oneByOne_S, H2. unfold agree. unfold sameOp in B. rewrite B. rewrite H4, H3. reflexivity.
  - rewrite H5. intros AL x y I J.
    assert (G : forall x, In x (map collsLeft Ls') -> exists c, In c cs /\ In (cop c :: x) (map (fun cl : coll * list collOp => cop (fst cl) :: snd cl) (combine cs (map collsLeft Ls')))).
    { assert (LE : length cs = length (map collsLeft Ls')) by (rewrite map_length; lia). revert LE. generalize (map collsLeft Ls'). clear. induction cs as [|c cs IH]; intros [|l ls] LE x I; try discriminate; [destruct I|].
      destruct I as [->|I]; [exists c; cbn; auto|]. destruct (IH ls ltac:(cbn in LE; lia) x I) as (d & D1 & D2). exists d. cbn. auto. }
    destruct (G _ I) as (c1 & _ & G1). destruct (G _ J) as (c2 & _ & G2). specialize (AL _ _ G1 G2). congruence.
Qed.
Theorem exec_tracks sch rs Ls rs' : Forall2 tracks rs Ls -> exec sem sch rs = Some rs' ->
  exists Ls' k, Forall2 tracks rs' Ls' /\ (forall n, oneByOne sem (k + n) (abs rs Ls) = oneByOne sem n (abs rs' Ls')) /\
  (alike (map collsLeft Ls) -> alike (map collsLeft Ls')).
Proof.
  revert rs Ls; induction sch as [|a sch IH]; intros rs Ls T E; cbn in E.
  - injection E as <-. exists Ls, 0. auto.
  - destruct (step sem a rs) as [rs1|] eqn:S; [|discriminate]. destruct (step_tracks _ _ _ _ T S) as (Ls1 & k1 & T1 & O1 & A1).
    destruct (IH _ _ T1 E) as (Ls2 & k2 & T2 & O2 & A2). exists Ls2, (k1 + k2). split; [exact T2|]. split; [|auto].
    intros n. rewrite <- O2, <- O1. f_equal. lia.
Qed.

Lemma done_nothing (r : rank V) L : tracks r L -> done1 r -> acts L = [].
Proof.
  intros (Li & n & T) (D1 & D2 & D3). rewrite (t_L _ _ _ _ T), D1. cbn. rewrite app_nil_r.
  rewrite (t_compute _ _ _ _ T) in D2. rewrite (t_comm _ _ _ _ T) in D3. pose proof (t_noread _ _ _ _ T) as N.
  destruct Li as [|x Li]; [reflexivity|]. exfalso. apply (compq_nil_in _ x) in D2; [|left; reflexivity]. apply (commq_nil_in _ x) in D3; [|left; reflexivity].
  destruct x; try discriminate. eapply N. left. reflexivity.
Qed.
Lemma start_tracks (pms : list (list (hcmd V) * (nat -> V))) : (forall p, In p (map fst pms) -> waitsFirst p) -> Forall2 tracks (start pms) (map (fun pm => els 0 (fst pm)) pms).
Proof. intros W. induction pms as [|[p m] pms IH]; constructor; [apply tracks_start, W; left; reflexivity|apply IH; intros q I; apply W; right; exact I]. Qed.
Lemma start_abs (pms : list (list (hcmd V) * (nat -> V))) : abs (start pms) (map (fun pm => els 0 (fst pm)) pms) = map stripped (begin pms).
Proof. induction pms as [|[p m] pms IH]; [reflexivity|]. cbn [start begin map abs fst snd]. unfold start, begin in IH. rewrite IH. unfold abs1, stripped. cbn [fst snd]. rewrite acts_els. reflexivity. Qed.
Lemma oneByOne_nothing rs Ls : Forall2 tracks rs Ls -> Forall done1 rs -> oneByOne sem 0 (abs rs Ls) = Some (map data rs).
Proof.
  intros T D. cbn [oneByOne]. change (map (fun r : solo V => untilColl (fst r) (fst (snd r)) (snd (snd r))) (abs rs Ls)) with (map till (abs rs Ls)).
  assert (E : map till (abs rs Ls) = map (fun r => ([], data r)) rs).
  { clear -T D. induction T as [|r L rs Ls T1 T IH]; [reflexivity|]. inversion D; subst. cbn [abs map]. rewrite IH by assumption. unfold abs1, till.
    rewrite (done_nothing _ _ T1) by assumption. reflexivity. }
  rewrite E. clear. replace (forallb _ _) with true; [rewrite map_map; reflexivity|]. symmetry. apply forallb_forall. intros x I. apply in_map_iff in I. destruct I as (r & <- & _). reflexivity.
Qed.
Lemma untilColl_colls (p : list (hcmd V)) m l : colls (fst (untilColl p m l)) = colls p.
Proof. revert m l; induction p as [|[] p IH]; intros m l; cbn; auto. Qed.
Lemma oneByOne_count n (rs : list (solo V)) ds : oneByOne sem n rs = Some ds -> forall r, In r rs -> length (colls (fst r)) = n.
Proof.
  revert rs ds; induction n as [|n IH]; intros rs ds E r I.
  - cbn [oneByOne] in E. destruct (forallb _ _) eqn:F in E; [|discriminate]. rewrite forallb_forall in F.
    specialize (F _ (in_map _ _ _ I)). cbn in F. rewrite <- (untilColl_colls (fst r) (fst (snd r)) (snd (snd r))). destruct (fst (untilColl _ _ _)); [reflexivity|discriminate].
  - rewrite oneByOne_S in E. destruct (heads (map till rs)) as [cs|] eqn:H; [|discriminate]. destruct (agree cs); [|discriminate].
    assert (X : forall sent i, exists q d, In (q, d) (deliver sem sent i (map till rs) cs) /\ length (colls (fst r)) = S (length (colls q))).
    { clear -H I. revert cs H; induction rs as [|[p [m l]] rs IHr]; intros cs H sent i; [destruct I|]. cbn [map] in H. unfold till at 1 in H. cbn [fst snd] in H.
      pose proof (untilColl_colls p m l) as UC. cbn [map]. unfold till at 1. cbn [fst snd]. destruct (untilColl p m l) as [q [m' l']] eqn:U. cbn [fst heads] in *.
      destruct q as [|[] q]; try discriminate. destruct (heads (map till rs)) as [cs'|]; [|discriminate]. cbn in H. injection H as <-. cbn [deliver tl].
      destruct I as [<-|I].
      - eexists _, _. split; [left; reflexivity|]. cbn [fst]. rewrite <- UC. reflexivity.
      - destruct (IHr I cs' eq_refl sent (S i)) as (q2 & d2 & A & B). exists q2, d2. split; [right; exact A|exact B]. }
    destruct (X (sentBy (map till rs) cs) 0) as (q & d & A & B). specialize (IH _ _ E _ A). cbn in IH. lia.
Qed.

Theorem finished_same (pms : list (list (hcmd V) * (nat -> V))) sch rs : (forall p, In p (map fst pms) -> waitsFirst p) -> exec sem sch (start pms) = Some rs -> Forall done1 rs ->
  exists n ds, (forall p, In p (map fst pms) -> length (colls p) = n) /\ oneByOne sem n (begin pms) = Some ds /\ Forall2 sameResult rs ds.
Proof.
  intros W E D. destruct (exec_tracks _ _ _ _ (start_tracks pms W) E) as (Ls & k & T & O & _).
  specialize (O 0). rewrite start_abs, oneByOne_noWait, (oneByOne_nothing _ _ T D), Nat.add_0_r in O.
  exists k, (map data rs). split; [|split; [exact O|]].
  - intros p I. apply in_map_iff in I. destruct I as ([q m] & <- & I). apply (oneByOne_count _ _ _ O (q, (m, []))). apply in_map_iff. exists (q, m). auto.
  - clear. induction rs; constructor; [split; reflexivity|assumption].
Qed.

(** * Something can always be done *)
Lemma front (r : rank V) L : tracks r L -> done1 r \/ (exists a f, (forall i : nat, a i = Host i /\ f = hostStep \/ a i = Compute i /\ f = computeStep \/ a i = Comm i /\ f = commStep) /\ exists r' : rank V, f r = Some r') \/ (exists c, atColl r = Some c /\ exists L', acts L = HColl c :: L').
Proof.
  intros (Li & n & T). destruct Li as [|x Li].
  - pose proof (t_compute _ _ _ _ T) as C. pose proof (t_comm _ _ _ _ T) as N. cbn in C, N.
    destruct (prog r) as [|x p] eqn:P; [left; split; auto|]. right. left. exists Host, hostStep. split; [intros i; auto|].
    unfold hostStep. rewrite P. destruct x; try (eexists; reflexivity).
    + unfold wait, withProg. cbn [works]. rewrite (t_works _ _ _ _ T), evs_nth. pose proof (t_valid _ _ _ _ T) as W. rewrite P in W. specialize (W [] w p eq_refl). cbn in W.
      destruct (Nat.ltb_spec w n); [eexists; reflexivity|lia].
    + unfold hostRead, withProg. cbn [compute]. rewrite C. eexists; reflexivity.
  - right. pose proof (t_compute _ _ _ _ T) as C. pose proof (t_comm _ _ _ _ T) as N. pose proof (t_ordered _ _ _ _ T) as O. pose proof (t_L _ _ _ _ T) as EL.
    destruct x as [k|e|e|e|c|e|h]; cbn in C, N.
    + left. exists Compute, computeStep. split; [intros i; auto|]. unfold computeStep. rewrite C. eexists; reflexivity.
    + left. exists Compute, computeStep. split; [intros i; auto|]. unfold computeStep. rewrite C. eexists; reflexivity.
    + left. exists Compute, computeStep. split; [intros i; auto|]. unfold computeStep. rewrite C. destruct (o_ew _ _ O [] e _ EL) as [I|[]]. apply has_In in I. rewrite I. eexists; reflexivity.
    + left. exists Comm, commStep. split; [intros i; auto|]. unfold commStep. rewrite N. destruct (o_nw _ _ O [] e _ EL) as [I|[]]. apply has_In in I. rewrite I. eexists; reflexivity.
    + right. exists c. unfold atColl. rewrite N. split; [reflexivity|]. rewrite EL. cbn. eauto.
    + left. exists Comm, commStep. split; [intros i; auto 6|]. unfold commStep. rewrite N. eexists; reflexivity.
    + exfalso. apply (t_noread _ _ _ _ T h). left. reflexivity.
Qed.
Lemma step_or_stop rs Ls : Forall2 tracks rs Ls ->
  (exists a rs', step sem a rs = Some rs') \/ Forall2 (fun r L => done1 r \/ exists c, atColl r = Some c /\ exists L', acts L = HColl c :: L') rs Ls.
Proof.
  intros T. enough (G : forall rs1, (exists a rs', step sem a (rs1 ++ rs) = Some rs') \/ Forall2 (fun r L => done1 r \/ exists c, atColl r = Some c /\ exists L', acts L = HColl c :: L') rs Ls) by exact (G []).
  induction T as [|r L rs Ls T1 T IH]; intros rs1; [right; constructor|].
  destruct (front _ _ T1) as [D|[(a & f & H & r' & E)|C]].
  - destruct (IH (rs1 ++ [r])) as [X|X]; [left; rewrite <- app_assoc in X; exact X|right; constructor; auto].
  - left. exists (a (length rs1)), (rs1 ++ r' :: rs). destruct (H (length rs1)) as [[-> ->]|[[-> ->]|[-> ->]]]; cbn [step]; apply onRank_some, E.
  - destruct (IH (rs1 ++ [r])) as [X|X]; [left; rewrite <- app_assoc in X; exact X|right; constructor; auto].
Qed.
Theorem progress (pms : list (list (hcmd V) * (nat -> V))) sch rs : (forall p, In p (map fst pms) -> waitsFirst p) -> sameCalls (map fst pms) -> exec sem sch (start pms) = Some rs ->
  Forall done1 rs \/ exists a rs', step sem a rs = Some rs'.
Proof.
  intros W SC E. destruct (exec_tracks _ _ _ _ (start_tracks pms W) E) as (Ls & k & T & _ & A).
  assert (AL : alike (map collsLeft Ls)).
  { apply A. rewrite map_map. intros x y I J. apply in_map_iff in I, J. destruct I as ([p m] & <- & I). destruct J as ([q m'] & <- & J). unfold collsLeft. cbn [fst]. rewrite !acts_els.
    assert (NW : forall p : list (hcmd V), colls (noWait p) = colls p) by (clear; unfold noWait; induction p as [|[] p IH]; cbn; rewrite ?IH; reflexivity). rewrite !NW.
    apply SC; [exact (in_map fst _ _ I)|exact (in_map fst _ _ J)]. }
  destruct (step_or_stop _ _ T) as [X|X]; [right; exact X|].
  destruct rs as [|r0 rs]; [left; constructor|].
  inversion X as [|? L0 ? Ls0 X0 X1]; subst. inversion T as [|? ? ? ? T0 T1]; subst. destruct X0 as [D|(c & A0 & L' & E0)].
  - left. constructor; [exact D|].
    assert (CL : collsLeft L0 = []) by (unfold collsLeft; rewrite (done_nothing _ _ T0 D); reflexivity).
    assert (Z : forall L, In L Ls0 -> collsLeft L = []) by (intros L I; rewrite <- CL; apply AL; cbn; auto; right; apply in_map; exact I).
    clear -X1 T1 Z. induction X1 as [|r L rs Ls H X IH]; constructor.
    + destruct H as [D|(c & _ & L' & E)]; [exact D|]. exfalso. specialize (Z L (or_introl eq_refl)). unfold collsLeft in Z. rewrite E in Z. discriminate.
    + inversion T1; subst. apply IH; [assumption|]. intros L1 I. apply Z. right. exact I.
  - right. exists Meet. cbn [step]. unfold rendezvous.
    assert (CL : exists l, collsLeft L0 = cop c :: l) by (unfold collsLeft; rewrite E0; cbn; eauto). destruct CL as (l & CL).
    assert (Z : forall L, In L Ls0 -> collsLeft L = cop c :: l) by (intros L I; rewrite <- CL; apply AL; cbn; auto; right; apply in_map; exact I).
    assert (M : exists cs, allAt rs = Some cs /\ forall d, In d cs -> cop d = cop c).
    { clear -X1 T1 Z. induction X1 as [|r L rs Ls H X IH]; [exists []; split; [reflexivity|intros ? []]|]. inversion T1; subst.
      destruct IH as (cs & A & B); [assumption|intros L1 I; apply Z; right; exact I|]. specialize (Z L (or_introl eq_refl)).
      destruct H as [D|(d & A0 & L' & E)].
      - exfalso. unfold collsLeft in Z. rewrite (done_nothing r L) in Z by assumption. discriminate.
      - exists (d :: cs). cbn. rewrite A0, A. split; [reflexivity|]. intros x [<-|I]; [|auto]. unfold collsLeft in Z. rewrite E in Z. cbn in Z. congruence. }
    destruct M as (cs & M1 & M2). cbn [allAt]. rewrite A0, M1.
    assert (B : sameOp (c :: cs) = true) by (cbn; apply forallb_forall; intros d I; rewrite (M2 _ I); destruct (collOp_eq_dec (cop c) (cop c)); congruence).
    rewrite B. eexists; reflexivity.
Qed.
End All.
