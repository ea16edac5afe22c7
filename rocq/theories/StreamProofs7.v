(** Proofs about StreamModel: one allReduce of numbers, and data-parallel
    training. *)
From Coq Require Import List Bool Arith Lia Reals Permutation.
From Verif Require Import CollModel CollSpec CollProofs StreamModel StreamSpec StreamProofs StreamProofs2 StreamProofs3 StreamProofs4 StreamProofs5 StreamProofs6 StreamDdpModel StreamDdpSpec StreamDdpProofs.
Import ListNotations.

Lemma reducing_waits op a : waitsFirst (reducing op a).
Proof. apply (check_sound _ ([], 1)). cbn. reflexivity. Qed.
Lemma reducing_heads op a (ms : list (nat -> list R)) : heads (map (fun m => (reducing op a, (m, @nil (list R)))) ms) = Some (map (fun _ => mkC (CAllReduce op) a a) ms).
Proof. induction ms as [|m ms IH]; [reflexivity|]. cbn [map heads reducing]. fold (reducing op a). rewrite IH. reflexivity. Qed.
Lemma reducing_agree op a (ms : list (nat -> list R)) : ms <> [] -> agree (map (fun _ => mkC (CAllReduce op) a a) ms) = true.
Proof. destruct ms as [|m ms]; [congruence|]. intros _. cbn. apply forallb_forall. intros d I. apply in_map_iff in I. destruct I as (_ & <- & _). cbn. destruct (reduceOpType_eq_dec op op); [reflexivity|congruence]. Qed.
Lemma reducing_sent op a (ms : list (nat -> list R)) :
  map (fun rc : solo (list R) * coll => fst (snd (fst rc)) (cin (snd rc))) (combine (map (fun m => (reducing op a, (m, @nil (list R)))) ms) (map (fun _ => mkC (CAllReduce op) a a) ms)) = map (fun m => m a) ms.
Proof. induction ms as [|m ms IH]; [reflexivity|]. cbn [map combine]. rewrite IH. reflexivity. Qed.
Definition got (op : reduceOpType) (a : nat) (sent : list (list R)) (m : nat -> list R) : list R := map (fun k => reduced op (map (fun b : list R => nth k b 0%R) sent)) (seq 0 (length (m a))).
Lemma reducing_deliver op a sent (ms : list (nat -> list R)) : forall i,
  deliver ncclSem sent i (map (fun m => (reducing op a, (m, @nil (list R)))) ms) (map (fun _ => mkC (CAllReduce op) a a) ms)
  = map (fun m => ([HWait 0; HRead a], ((fun b => if b =? a then got op a sent m else m b), @nil (list R)))) ms.
Proof. induction ms as [|m ms IH]; intros i; [reflexivity|]. cbn [map deliver]. rewrite IH. reflexivity. Qed.
Lemma reducing_result op a (ms : list (nat -> list R)) ds : ms <> [] -> oneByOne ncclSem 1 (begin (map (fun m => (reducing op a, m)) ms)) = Some ds ->
  ds = map (fun m => ((fun b => if b =? a then got op a (map (fun m => m a) ms) m else m b), [got op a (map (fun m => m a) ms) m])) ms.
Proof.
  intros N E. cbn [oneByOne] in E.
  assert (T : map (fun r : solo (list R) => untilColl (fst r) (fst (snd r)) (snd (snd r))) (begin (map (fun m => (reducing op a, m)) ms)) = map (fun m => (reducing op a, (m, @nil (list R)))) ms).
  { unfold begin. rewrite !map_map. reflexivity. }
  rewrite T, reducing_heads, reducing_agree, reducing_sent, reducing_deliver in E by exact N. rewrite !map_map in E. cbn [fst snd untilColl app] in E.
  destruct (forallb _ _); [|discriminate]. injection E as <-. apply map_ext. intros m. rewrite Nat.eqb_refl. reflexivity.
Qed.
Theorem reducing_all op a ms n sch rs : op <> UNUSED -> ms <> [] -> (forall m, In m ms -> length (m a) = n) ->
  exec ncclSem sch (start (map (fun m => (reducing op a, m)) ms)) = Some rs -> Forall done1 rs ->
  exists b, length b = n /\ (forall i, i < n -> reduction op (map (fun m => nth i (m a) 0%R) ms) (nth i b 0%R)) /\ Forall2 (fun m r => seen r = [b] /\ forall x, memory r x = if x =? a then b else m x) ms rs.
Proof.
  intros U N L E D. destruct (finished_same ncclSem (map (fun m => (reducing op a, m)) ms) sch rs) as (k & ds & K & O & S); [|exact E|exact D|].
  - intros p I. rewrite map_map in I. apply in_map_iff in I. destruct I as (m & <- & _). apply reducing_waits.
  - assert (k = 1) as -> by (destruct ms as [|m ms]; [congruence|]; rewrite <- (K (reducing op a) (or_introl eq_refl)); reflexivity).
    apply reducing_result in O; [|exact N]. set (sent := map (fun m => m a) ms) in O.
    set (b := map (fun k => reduced op (map (fun b : list R => nth k b 0%R) sent)) (seq 0 n)). exists b. split; [unfold b; rewrite map_length, seq_length; reflexivity|]. split.
    + intros i Hi. unfold b. rewrite (nth_indep _ 0%R (reduced op (map (fun b : list R => nth 0 b 0%R) sent))) by (rewrite map_length, seq_length; exact Hi).
      rewrite (map_nth (fun k => reduced op (map (fun b : list R => nth k b 0%R) sent)) (seq 0 n) 0 i), seq_nth by exact Hi. cbn [Nat.add]. unfold reduced, sent. rewrite map_map.
      destruct (getNcclReduceOp op) as [o|] eqn:G; [|destruct op; cbn in G; congruence]. apply red_spec; [exact G|]. destruct ms; [congruence|discriminate].
    + assert (G : forall m, In m ms -> got op a sent m = b) by (intros m I; unfold got, b; rewrite (L m I); reflexivity). subst ds. clearbody sent b. clear -G S.
      revert rs S. induction ms as [|m ms IH]; intros rs S; inversion S as [|r ? rs' ? [S1 S2] S3]; subst; constructor; [|apply IH; [intros m' I; apply G; right; exact I|assumption]].
      cbn [fst snd] in S1, S2. rewrite (G m (or_introl eq_refl)) in S2. split; [exact S2|]. intros x. rewrite S1, (G m (or_introl eq_refl)). reflexivity.
Qed.

(** * Data-parallel training *)
Section Ddp.
Context {V : Type} (sem : collOp -> nat -> list V -> V -> V).
Lemma follows_waits n k (rt : reducer V * list (list (tev V))) (p : list (hcmd V)) : follows n k rt p -> waitsFirst p /\ map cop (colls p) = repeat (CAllReduce SUM) (n * k).
Proof.
  destruct rt as [rd its]. intros (O & I & <- & <- & st & E). cbn [fst snd] in *. destruct (training_waits rd O its I) as (cs & st' & E' & W & C). rewrite E in E'. injection E' as <- <-. auto.
Qed.
Theorem follows_exists (rd : reducer V) its : ownBuffers rd -> (forall it, In it its -> iteration rd it) -> exists p, follows (length its) (length (sizes rd)) (rd, its) p.
Proof. intros O I. destruct (training_waits rd O its I) as (cs & st' & E & _). exists cs. split; [exact O|]. split; [exact I|]. split; [reflexivity|]. split; [reflexivity|]. exists st'. exact E. Qed.
Theorem ddp_same n k (jobs : list (reducer V * list (list (tev V)))) (pms : list (list (hcmd V) * (nat -> V))) sch rs : Forall2 (follows n k) jobs (map fst pms) -> exec sem sch (start pms) = Some rs ->
  (exists sch' rs', exec sem (sch ++ sch') (start pms) = Some rs' /\ Forall done1 rs') /\
  (Forall done1 rs -> jobs <> [] -> exists ds, oneByOne sem (n * k) (begin pms) = Some ds /\ Forall2 sameResult rs ds).
Proof.
  intros F E. assert (W : forall p, In p (map fst pms) -> waitsFirst p /\ map cop (colls p) = repeat (CAllReduce SUM) (n * k)).
  { intros p I. clear E. induction F as [|rt q js qs H F IH]; [destruct I|]. destruct I as [<-|I]; [eapply follows_waits; exact H|apply IH; exact I]. }
  split.
  - apply (completes sem pms sch rs); [intros p I; apply W; exact I| |exact E]. intros p q I J. destruct (W p I) as [_ ->], (W q J) as [_ ->]. reflexivity.
  - intros D N. destruct (finished_same sem pms sch rs (fun p I => proj1 (W p I)) E D) as (m & ds & K & O & S). exists ds. split; [|exact S].
    destruct F as [|rt p js ps H F]; [congruence|]. destruct (W p (or_introl eq_refl)) as [_ C]. specialize (K p (or_introl eq_refl)).
    assert (X : m = n * k) by (rewrite <- K, <- (map_length cop), C; apply repeat_length). rewrite <- X. exact O.
Qed.
End Ddp.
