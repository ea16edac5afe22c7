(** Proofs about StreamModel: what is left to do, done one by one, gives the same
    result after every step. *)
From Coq Require Import List Bool Arith Lia FunctionalExtensionality.
From Verif Require Import CollModel StreamModel StreamSpec StreamProofs StreamProofs2 StreamProofs3.
Import ListNotations.

Section OneByOne.
Context {V : Type} (sem : collOp -> nat -> list V -> V -> V).
Implicit Types (rs : list (solo V)).

Definition till (r : solo V) : solo V := untilColl (fst r) (fst (snd r)) (snd (snd r)).
Definition sentBy rs (cs : list coll) : list V := map (fun rc : solo V * coll => fst (snd (fst rc)) (cin (snd rc))) (combine rs cs).
Lemma heads_length rs cs : heads rs = Some cs -> length cs = length rs.
Proof.
  revert cs; induction rs as [|[p d] rs IH]; intros cs E; cbn in E; [injection E as <-; reflexivity|].
  destruct p as [|[] p]; try discriminate. destruct (heads rs); [|discriminate]. injection E as <-. cbn. f_equal. auto.
Qed.
Lemma heads_app rs1 rs2 : heads (rs1 ++ rs2) = match heads rs1, heads rs2 with Some a, Some b => Some (a ++ b) | _, _ => None end.
Proof.
  induction rs1 as [|[p d] rs1 IH]; cbn; [destruct (heads rs2); reflexivity|].
  destruct p as [|[] p]; try reflexivity. rewrite IH. destruct (heads rs1), (heads rs2); reflexivity.
Qed.
Lemma deliver_app sent i rs1 rs2 cs1 cs2 : length cs1 = length rs1 ->
  deliver sem sent i (rs1 ++ rs2) (cs1 ++ cs2) = deliver sem sent i rs1 cs1 ++ deliver sem sent (length rs1 + i) rs2 cs2.
Proof.
  revert i cs1; induction rs1 as [|[p [m l]] rs1 IH]; intros i [|c cs1] E; try discriminate; [reflexivity|].
  cbn. rewrite IH by (cbn in E; lia). f_equal. f_equal. f_equal. lia.
Qed.
Lemma sentBy_app rs1 rs2 cs1 cs2 : length cs1 = length rs1 -> sentBy (rs1 ++ rs2) (cs1 ++ cs2) = sentBy rs1 cs1 ++ sentBy rs2 cs2.
Proof.
  revert cs1; induction rs1 as [|r rs1 IH]; intros [|c cs1] E; try discriminate; [reflexivity|]. unfold sentBy in *. cbn. rewrite IH by (cbn in E; lia). reflexivity.
Qed.
Lemma oneByOne_S n rs : oneByOne sem (S n) rs = match heads (map till rs) with Some cs => if agree cs then oneByOne sem n (deliver sem (sentBy (map till rs) cs) 0 (map till rs) cs) else None | None => None end.
Proof. reflexivity. Qed.
Lemma till_run x p d : isLocal x -> till (x :: p, d) = till (p, runCall x d).
Proof. destruct x; intros H; destruct H; destruct d; reflexivity. Qed.

Theorem commute n rs1 rs2 pre x post d : isLocal x -> (forall c, In c pre -> ~ touches x c) ->
  oneByOne sem n (rs1 ++ (map HColl pre ++ x :: post, d) :: rs2) = oneByOne sem n (rs1 ++ (map HColl pre ++ post, runCall x d) :: rs2).
Proof.
  revert rs1 rs2 pre d; induction n as [|n IH]; intros rs1 rs2 pre d HL HC; destruct pre as [|c pre].
  - cbn [oneByOne map app]. rewrite !map_app. cbn [map]. pose proof (till_run x post d HL) as E. unfold till in E. cbn [fst snd] in *. rewrite E. reflexivity.
  - cbn [oneByOne]. rewrite !map_app, !forallb_app. cbn. rewrite !andb_false_r. reflexivity.
  - rewrite !oneByOne_S, !map_app. cbn [map app]. rewrite (till_run x post d HL). reflexivity.
  - rewrite !oneByOne_S, !map_app. cbn [map app]. destruct d as [m l].
    set (u := map till rs1). set (v := map till rs2).
    change (till (HColl c :: map HColl pre ++ x :: post, (m, l))) with (HColl c :: map HColl pre ++ x :: post, (m, l)).
    replace (till (HColl c :: map HColl pre ++ post, runCall x (m, l))) with (HColl c :: map HColl pre ++ post, runCall x (m, l)) by (destruct (runCall x (m, l)); reflexivity).
    rewrite !heads_app. cbn [heads]. destruct (heads u) as [cu|] eqn:EU; [|reflexivity]. destruct (heads v) as [cv|] eqn:EV; [|reflexivity]. cbn [option_map].
    destruct (agree (cu ++ c :: cv)); [|reflexivity].
    assert (LU := heads_length _ _ EU). rewrite !sentBy_app, !deliver_app by exact LU.
    assert (NT : ~ touches x c) by (apply HC; left; reflexivity).
    assert (S1 : fst (runCall x (m, l)) (cin c) = m (cin c)).
    { destruct x; cbn; auto. unfold runKernel, upd. destruct (Nat.eqb_spec (cin c) (kout k)) as [E|E]; [exfalso; apply NT; cbn; auto|reflexivity]. }
    assert (S2 : sentBy ((HColl c :: map HColl pre ++ post, runCall x (m, l)) :: v) (c :: cv) = sentBy ((HColl c :: map HColl pre ++ x :: post, (m, l)) :: v) (c :: cv))
      by (unfold sentBy; cbn [combine map fst snd]; rewrite S1; reflexivity).
    rewrite S2. set (sent := sentBy u cu ++ _).
    cbn [deliver]. destruct (runCall x (m, l)) as [m' l'] eqn:ER. cbn [tl].
    rewrite IH; [|exact HL|intros d I; apply HC; right; exact I]. do 2 f_equal. f_equal. f_equal.
    destruct x as [k| |w|a]; try destruct HL; cbn in ER; injection ER as <- <-; unfold runCall; cbn [fst snd].
    + f_equal. unfold runKernel, upd. cbn in NT. apply functional_extensionality. intros b.
      assert (KI : map (fun b0 => if b0 =? cout c then sem (cop c) (length u + 0) sent (m (cout c)) else m b0) (kin k) = map m (kin k)).
      { apply map_ext_in. intros y I. destruct (Nat.eqb_spec y (cout c)) as [->|]; [exfalso; apply NT; auto|reflexivity]. }
      rewrite KI. destruct (Nat.eqb_spec b (kout k)) as [->|NE]; destruct (Nat.eqb_spec (kout k) (cout c)) as [F|F]; try (exfalso; apply NT; auto; fail).
      * reflexivity.
      * destruct (Nat.eqb_spec b (cout c)) as [->|]; [|reflexivity]. destruct (Nat.eqb_spec (cout c) (kout k)); [congruence|reflexivity].
    + f_equal. destruct (Nat.eqb_spec a (cout c)) as [E|E]; [exfalso; apply NT; exact E|reflexivity].
Qed.

(** Waiting is nothing when one thing is done after the other. *)
Definition noWait (p : list (hcmd V)) : list (hcmd V) := filter (fun x => match x with HWait _ => false | _ => true end) p.
Lemma untilColl_noWait p m l : untilColl (noWait p) m l = (noWait (fst (untilColl p m l)), snd (untilColl p m l)).
Proof. revert m l; induction p as [|[] p IH]; intros m l; cbn; auto. Qed.
Lemma untilColl_head (p : list (hcmd V)) m l : match fst (untilColl p m l) with [] => True | HColl _ :: _ => True | _ => False end.
Proof. revert m l; induction p as [|[] p IH]; intros m l; cbn; auto; apply IH. Qed.
Definition stripped (r : solo V) : solo V := (noWait (fst r), snd r).
Lemma till_stripped r : till (stripped r) = stripped (till r).
Proof. destruct r as [p [m l]]. unfold till, stripped. cbn. apply untilColl_noWait. Qed.
Lemma heads_stripped rs : heads (map stripped (map till rs)) = heads (map till rs).
Proof.
  induction rs as [|[p [m l]] rs IH]; [reflexivity|]. cbn [map]. unfold till at 1 3. cbn [fst snd].
  pose proof (untilColl_head p m l) as H. destruct (untilColl p m l) as [q d]. unfold stripped at 1. cbn [fst snd] in *.
  destruct q as [|[] q]; try destruct H; cbn; rewrite ?IH; reflexivity.
Qed.
Lemma deliver_stripped sent i rs cs : heads (map till rs) = Some cs -> deliver sem sent i (map stripped (map till rs)) cs = map stripped (deliver sem sent i (map till rs) cs).
Proof.
  revert i cs; induction rs as [|[p [m l]] rs IH]; intros i cs E; [reflexivity|]. cbn [map] in *. unfold till at 1 3. unfold till at 1 in E. cbn [fst snd] in *.
  pose proof (untilColl_head p m l) as H. destruct (untilColl p m l) as [q [m' l']]. unfold stripped at 1. cbn [fst snd] in *.
  destruct q as [|[] q]; try destruct H; cbn in E; try discriminate. destruct (heads (map till rs)) as [cs'|]; [|discriminate]. cbn in E. injection E as <-.
  cbn [deliver map]. rewrite IH by reflexivity. reflexivity.
Qed.
Theorem oneByOne_noWait n rs : oneByOne sem n (map stripped rs) = oneByOne sem n rs.
Proof.
  revert rs; induction n as [|n IH]; intros rs.
  - cbn [oneByOne]. change (map (fun r : solo V => untilColl (fst r) (fst (snd r)) (snd (snd r))) (map stripped rs)) with (map till (map stripped rs)).
    change (map (fun r : solo V => untilColl (fst r) (fst (snd r)) (snd (snd r))) rs) with (map till rs).
    rewrite map_map, (map_ext _ _ till_stripped), <- (map_map till stripped).
    assert (E : forall l : list (solo V), Forall (fun r => match fst r with [] => True | HColl _ :: _ => True | _ => False end) l ->
      forallb (fun r => match fst r with [] => true | _ => false end) (map stripped l) = forallb (fun r => match fst r with [] => true | _ => false end) l).
    { induction 1 as [|[p d] l H _ IHl]; [reflexivity|]. cbn. destruct p as [|[] p]; try destruct H; cbn; auto. }
    rewrite E by (apply Forall_forall; intros r I; apply in_map_iff in I; destruct I as ([p [m l]] & <- & _); apply untilColl_head).
    rewrite map_map. destruct (forallb _ _); [|reflexivity]. f_equal.
  - rewrite !oneByOne_S. rewrite map_map, (map_ext _ _ till_stripped), <- (map_map till stripped), heads_stripped.
    destruct (heads (map till rs)) as [cs|] eqn:E; [|reflexivity]. destruct (agree cs); [|reflexivity].
    rewrite deliver_stripped by exact E. rewrite IH. do 2 f_equal. unfold sentBy.
    clear. revert cs. induction (map till rs) as [|r l IHl]; intros [|c cs]; cbn; try reflexivity. rewrite IHl. reflexivity.
Qed.
Lemma acts_els n (p : list (hcmd V)) : acts (els n p) = noWait p.
Proof. revert n; induction p as [|x p IH]; intros n; [reflexivity|]. cbn [els]. rewrite acts_app, IH. destruct x; reflexivity. Qed.
End OneByOne.
