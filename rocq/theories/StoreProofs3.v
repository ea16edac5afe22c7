From Coq Require Import ZArith List Bool Arith Lia ZifyBool ZifyNat Permutation.
From Verif Require Import StoreModel StoreSpec StoreProofs StoreProofs2.
Import ListNotations.
Open Scope Z_scope.

Lemma results_len : forall k l, length (results k l) = length (amounts k l).
Proof. induction l as [|[o r] l IH]; auto. cbn. destruct (isAdd k o); cbn; auto. Qed.
Lemma amounts_in : forall k l n, In n (amounts k l) -> exists r, In (OAdd k n, r) l.
Proof.
  induction l as [|[o r] l IH]; intros n H; [destruct H|]. cbn in H. destruct (isAdd k o) as [n'|] eqn:E.
  - destruct H as [->|H]; [|destruct (IH n H); eexists; right; eauto]. destruct o; cbn in E; try discriminate. destruct (key_eqb k k0) eqn:EK; [|discriminate]. apply key_eqb_eq in EK. injection E as ->. subst. eexists. left. reflexivity.
  - destruct (IH n H); eexists; right; eauto.
Qed.
Definition counter_only (k : key) (tr : list event) : Prop := forall c o, In (EInv c o) tr -> touches k o -> exists n, o = OAdd k n.
Lemma add_totals : forall acts s tr k, run init acts = Some (s, tr) -> counter_only k tr ->
  exists l, visible l = tr /\ (forall c, exists p, phases c l p) /\ (exists m, seq_run (fun _ => None) (points l) m) /\
    results k (points l) = map RInt (totals 0 (amounts k (points l))).
Proof.
  intros acts s tr k H HC. destruct (store_linearizable _ _ _ H) as (l & HV & HP & m & HS). exists l. repeat split; eauto.
  apply (seq_totals k (points l) m HS). intros o r HI HT. destruct (points_invoked l HP o r HI) as [c Hc]. rewrite HV in Hc. eauto.
Qed.
Lemma adders : forall acts s tr k, run init acts = Some (s, tr) -> (forall c o, In (EInv c o) tr -> touches k o -> o = OAdd k 1) ->
  NoDup (answers k tr) /\ (forall r, In r (answers k tr) -> exists z, r = RInt z /\ 1 <= z <= Z.of_nat (invoked k tr)) /\
  (length (answers k tr) = invoked k tr -> Permutation (answers k tr) (map (fun i => RInt (Z.of_nat i)) (seq 1 (invoked k tr)))).
Proof.
  intros acts s tr k H HC. destruct (add_totals acts s tr k H) as (l & HV & HP & (m & HS) & HR). { intros c o HI HT. exists 1. eauto. }
  assert (H1 : Forall (fun n => n = 1) (amounts k (points l))).
  { apply Forall_forall. intros n Hn. apply amounts_in in Hn. destruct Hn as [r Hn]. destruct (points_invoked l HP _ _ Hn) as [c Hc]. rewrite HV in Hc. apply HC in Hc; [|reflexivity]. injection Hc as ->. reflexivity. }
  rewrite totals_one in HR by auto. rewrite <- results_len in HR. rewrite map_map in HR. cbn beta in HR.
  destruct (answers_points k l HP) as (pend & wt & HPm & _ & _ & _ & _ & HN). rewrite HV in *.
  assert (HND : NoDup (results k (points l))). { rewrite HR. apply FinFun.Injective_map_NoDup; [|apply seq_NoDup]. intros a b E. injection E as E. lia. }
  assert (HND' : NoDup (answers k tr ++ map snd pend)) by (eapply Permutation_NoDup; eauto).
  split; [|split].
  - clear - HND'. induction (answers k tr) as [|x y IH]; [constructor|]. cbn in HND'. inversion HND'; subst. constructor; auto. intros HI. apply H1. apply in_or_app. auto.
  - intros r Hr. assert (HI : In r (results k (points l))) by (eapply Permutation_in; [apply Permutation_sym; exact HPm|apply in_or_app; auto]). rewrite HR in HI. apply in_map_iff in HI. destruct HI as (i & <- & Hi). apply in_seq in Hi. eexists. split; [reflexivity|]. lia.
  - intros HL. pose proof (Permutation_length HPm) as HPL. rewrite app_length in HPL. assert (wt = []) by (destruct wt; auto; cbn in HN; lia). subst wt. cbn in HN. rewrite Nat.add_0_r in HN. assert (pend = []) by (rewrite map_length in HPL; destruct pend; auto; cbn in HPL; lia). subst pend. cbn in HPm. rewrite app_nil_r in HPm.
    rewrite HN. eapply Permutation_trans; [apply Permutation_sym; exact HPm|]. rewrite HR at 1. apply Permutation_refl'. apply map_ext. intros. reflexivity.
Qed.

(** * No crash *)
Lemma exec_ok : forall s c o, thr s c = Got o ->
  (forall k n, o = OAdd k n -> exists z, in64 z = true /\ in64 (z + n) = true /\ ((find (kv s) k = None \/ find (kv s) k = Some []) /\ z = 0 \/ exists v, find (kv s) k = Some v /\ reads_as v z)) ->
  exists s', act s (AExec c) = Some (s', []).
Proof.
  intros s c o HT H. cbn [act]. rewrite HT. destruct o as [k v|k|k n|ks|ks|k|]; cbn [runOp]; try (eexists; reflexivity).
  - destruct (find (kv s) k); eexists; reflexivity.
  - destruct (H k n eq_refl) as (z & Hz & Hzn & HV). rewrite Z.add_comm in Hzn.
    assert (E : (match find (kv s) k with Some (b :: v) => stoll (b :: v) | _ => Some 0 end) = Some z).
    { destruct HV as [[[->| ->] ->]|(v & -> & HR)]; auto. destruct v as [|b v]; [|apply stoll_complete; auto]. exfalso. destruct HR as (ws & sg & ds & junk & HE & _ & _ & HN & _). symmetry in HE. apply app_eq_nil in HE. destruct HE as [_ HE]. apply app_eq_nil in HE. destruct HE as [_ HE]. apply app_eq_nil in HE. destruct HE. contradiction. }
    rewrite E, Hzn. eexists. reflexivity.
  - cbv zeta. destruct (filter (fun k => negb (present (kv s) k)) ks); eexists; reflexivity.
Qed.
(** Invariant of a key used as a counter. *)
Record count_inv (k : key) (A : Z) (s : sys) (b : nat) : Prop := {
  ci_thr : forall c o, thr s c = Got o -> touches k o -> exists n, o = OAdd k n /\ Z.abs n <= A;
  ci_val : find (kv s) k = None \/ exists t z, find (kv s) k = Some t /\ is_decimal t z /\ Z.abs z <= A * Z.of_nat b
}.
Lemma notify_got : forall s k c o, thr (notify s k) c = Got o -> thr s c = Got o.
Proof. intros s k c o. cbn. destruct (thr s c); auto. destruct (isReg (cvs s) k c); discriminate. Qed.
Lemma act_count : forall k A s b a s' ev, 0 <= A -> count_inv k A s b -> act s a = Some (s', ev) ->
  (forall c o, a = AInvoke c o -> touches k o -> exists n, o = OAdd k n /\ Z.abs n <= A) -> A * Z.of_nat (S b) < 2 ^ 63 -> count_inv k A s' (S b).
Proof.
  intros k A s b a s' ev HA [HT HV] H HI HB.
  assert (HV' : find (kv s) k = None \/ exists t z, find (kv s) k = Some t /\ is_decimal t z /\ Z.abs z <= A * Z.of_nat (S b)).
  { destruct HV as [HV|(t & z & E & D & L)]; auto. right. exists t, z. repeat split; auto. lia. }
  destruct a as [c o|c|c|c|c|c]; cbn [act] in H.
  - destruct (thr s c) eqn:ET; try discriminate. injection H as <- <-. constructor; auto. intros c' o' HG. cbn in HG. unfold setThr in HG. destruct (c' =? c)%nat; [injection HG as <-; eauto|eauto].
  - destruct (thr s c) as [|o| | | | |] eqn:ET; try discriminate. destruct (runOp s c o) as [s1|] eqn:ER; [|discriminate]. injection H as <- <-.
    assert (HS : forall f c' o', setThr f c (Done o RDone) c' = Got o' -> f c' = Got o') by (intros f c' o'; unfold setThr; destruct (c' =? c)%nat; [discriminate|auto]).
    destruct o as [k0 v|k0|k0 n|ks|ks|k0|]; cbn [runOp] in ER.
    + injection ER as <-. constructor.
      * intros c' o' HG. cbn [thr withThr] in HG. unfold setThr in HG. destruct (c' =? c)%nat; [discriminate|]. apply notify_got in HG. cbn in HG. eauto.
      * cbn [kv withThr notify withKv]. destruct (list_eq_dec Z.eq_dec k k0) as [<-|N]; [|rewrite find_put_other by auto; auto]. destruct (HT c _ ET) as (n & E & _); [reflexivity|discriminate].
    + destruct (find (kv s) k0); injection ER as <-; constructor; auto; intros c' o' HG; cbn in HG; unfold setThr in HG; destruct (c' =? c)%nat; try discriminate; eauto.
    + set (cur := match find (kv s) k0 with Some (b0 :: v) => stoll (b0 :: v) | _ => Some 0 end) in *. destruct cur as [z|] eqn:EC; [|discriminate]. destruct (in64 (n + z)) eqn:E64; [|discriminate]. injection ER as <-. constructor.
      * intros c' o' HG. cbn [thr withThr] in HG. unfold setThr in HG. destruct (c' =? c)%nat; [discriminate|]. apply notify_got in HG. cbn in HG. eauto.
      * cbn [kv withThr notify withKv]. destruct (list_eq_dec Z.eq_dec k k0) as [<-|N]; [|rewrite find_put_other by auto; auto]. rewrite find_put_same. right. exists (to_string (n + z)), (n + z). split; auto. split; [apply to_string_decimal; auto|].
        destruct (HT c _ ET) as (n' & E & Hn); [reflexivity|]. injection E as <-.
        assert (Hz : Z.abs z <= A * Z.of_nat b).
        { subst cur. destruct HV as [HV|(t & y & E & D & L)]; [rewrite HV in EC; injection EC as <-; cbn; nia|]. rewrite E in EC. destruct t as [|b0 v]; [injection EC as <-; cbn; nia|]. apply stoll_sound in EC. destruct EC as [EC _]. rewrite (reads_unique _ _ _ EC (decimal_reads _ _ D)). auto. }
        lia.
    + injection ER as <-; constructor; auto; intros c' o' HG; cbn in HG; unfold setThr in HG; destruct (c' =? c)%nat; try discriminate; eauto.
    + cbv zeta in ER. destruct (filter (fun k => negb (present (kv s) k)) ks); injection ER as <-; constructor; auto; intros c' o' HG; cbn in HG; unfold setThr in HG; destruct (c' =? c)%nat; try discriminate; eauto.
    + injection ER as <-. constructor; [intros c' o' HG; cbn in HG; unfold setThr in HG; destruct (c' =? c)%nat; try discriminate; eauto|]. cbn [kv withThr withKv]. destruct (list_eq_dec Z.eq_dec k k0) as [<-|N]; [|rewrite find_erase_other by auto; auto]. left. apply find_erase_same.
    + injection ER as <-; constructor; auto; intros c' o' HG; cbn in HG; unfold setThr in HG; destruct (c' =? c)%nat; try discriminate; eauto.
  - assert (HF : forall o m, count_inv k A (recheck s c o m) (S b)). { intros o m. unfold recheck. destruct (ready s o); constructor; auto; intros c' o' HG; cbn in HG; unfold setThr in HG; destruct (c' =? c)%nat; try discriminate; eauto. }
    destruct (thr s c); try discriminate; injection H as <- <-; apply HF.
  - destruct (thr s c); try discriminate. injection H as <- <-. constructor; auto; intros c' o' HG; cbn in HG; unfold setThr in HG; destruct (c' =? c)%nat; try discriminate; eauto.
  - destruct (thr s c); try discriminate. injection H as <- <-. constructor; auto; intros c' o' HG; cbn in HG; unfold setThr in HG; destruct (c' =? c)%nat; try discriminate; eauto.
  - destruct (thr s c) as [| | | | |o r|] eqn:ET; try discriminate. destruct r; injection H as <- <-; constructor; auto; intros c' o' HG; cbn in HG; unfold setThr in HG; destruct (c' =? c)%nat; try discriminate; eauto.
Qed.
Lemma run_count : forall acts k A s b s' tr, 0 <= A -> count_inv k A s b -> run s acts = Some (s', tr) ->
  (forall c o, In (AInvoke c o) acts -> touches k o -> exists n, o = OAdd k n /\ Z.abs n <= A) -> A * Z.of_nat (b + length acts) < 2 ^ 63 -> count_inv k A s' (b + length acts).
Proof.
  induction acts as [|a acts IH]; intros k A s b s' tr HA HI H HC HB; cbn [run] in H.
  - injection H as <- <-. cbn. rewrite Nat.add_0_r. auto.
  - destruct (act s a) as [[s1 e1]|] eqn:E; [|discriminate]. destruct (run s1 acts) as [[s2 e2]|] eqn:E2; [|discriminate]. injection H as <- <-. cbn [length] in *. replace (b + S (length acts))%nat with (S b + length acts)%nat in * by lia.
    apply (IH k A s1 (S b) s2 e2); auto. 2:{ intros c o Hc. apply (HC c o). right. auto. } apply (act_count k A s b a s1 e1); auto. { intros c o -> HT. apply (HC c o); auto. left. auto. } assert (A * Z.of_nat (S b) <= A * Z.of_nat (S b + length acts)) by (apply Z.mul_le_mono_nonneg_l; lia). lia.
Qed.
Lemma counter_runs : forall acts s tr k A c n, run init acts = Some (s, tr) -> 0 <= A ->
  (forall c o, In (AInvoke c o) acts -> touches k o -> exists n, o = OAdd k n /\ Z.abs n <= A) -> A * Z.of_nat (S (length acts)) < 2 ^ 63 ->
  thr s c = Got (OAdd k n) -> exists s', act s (AExec c) = Some (s', []).
Proof.
  intros acts s tr k A c n H HA HC HB HT.
  assert (HI : count_inv k A s (length acts)).
  { apply (run_count acts k A init 0 s tr); auto; [constructor; cbn; [discriminate|auto]|cbn [Nat.add]; lia]. }
  destruct HI as [CT CV].
  apply (exec_ok s c _ HT). intros k' n' E. injection E as <- <-. destruct (CT c _ HT) as (n' & E & Hn); [reflexivity|]. injection E as <-.
  destruct CV as [CV|(t & z & E & D & L)].
  - exists 0. rewrite CV. repeat split; auto. apply in64_iff. lia.
  - exists z. split; [apply in64_iff; lia|]. split; [apply in64_iff; lia|]. right. exists t. split; auto. apply decimal_reads. auto.
Qed.

(** * The accept loop *)
Lemma accept_ok : forall n t, (n + t <= 129)%nat -> acceptMany n t = Some (n + t)%nat.
Proof.
  induction n as [|n IH]; intros t H; [reflexivity|]. cbn [acceptMany]. unfold acceptOne. cbn [lockMutex]. destruct (Nat.ltb_spec 128 t); [lia|]. rewrite IH by lia. f_equal. lia.
Qed.
Lemma accept_stuck : forall n t, (129 < n + t)%nat -> (0 < n)%nat -> acceptMany n t = None.
Proof.
  induction n as [|n IH]; intros t H H0; [lia|]. cbn [acceptMany]. unfold acceptOne. cbn [lockMutex]. destruct (Nat.ltb_spec 128 t); [reflexivity|]. apply IH; lia.
Qed.
