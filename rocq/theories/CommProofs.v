(** Proofs about CommModel. *)
From Coq Require Import List Bool ZArith Lia FinFun.
From Verif Require Import CommModel CommSpec.
Import ListNotations.
Open Scope Z_scope.

(** * Lists *)
Lemma setNth_length {A} i (x : A) l : List.length (setNth i x l) = List.length l.
Proof. revert i; induction l as [|y l IH]; intros [|i]; cbn; [reflexivity..|rewrite IH; reflexivity]. Qed.
Lemma setNth_same {A} i (x y : A) l : nth_error l i = Some y -> nth_error (setNth i x l) i = Some x.
Proof. revert i; induction l as [|z l IH]; intros [|i] H; cbn in *; try discriminate; [reflexivity|apply IH, H]. Qed.
Lemma setNth_other {A} i j (x : A) l : i <> j -> nth_error (setNth i x l) j = nth_error l j.
Proof. revert i j; induction l as [|z l IH]; intros [|i] [|j] H; cbn; try reflexivity; [congruence|apply IH; congruence]. Qed.

Definition mem (l : list nat) (x : nat) : bool := existsb (fun y => (y =? x)%nat) l.
Definition left (seen l : list nat) : list nat := filter (fun x => negb (mem seen x)) l.
Lemma left_seen seen d l : mem seen d = true -> left seen (firsts (d :: l)) = left seen (firsts l).
Proof.
  intros H. unfold left. cbn. rewrite H. cbn. induction (firsts l) as [|x r IH]; [reflexivity|]. cbn. destruct (Nat.eqb_spec x d) as [->|]; cbn.
  - rewrite H. cbn. exact IH.
  - destruct (mem seen x); cbn; rewrite IH; reflexivity.
Qed.
Lemma mem_app a b x : mem (a ++ b) x = mem a x || mem b x. Proof. apply existsb_app. Qed.
Lemma left_new seen d l : mem seen d = false -> left seen (firsts (d :: l)) = d :: left (seen ++ [d]) (firsts l).
Proof.
  intros H. unfold left. cbn. rewrite H. cbn. f_equal. induction (firsts l) as [|x r IH]; [reflexivity|]. cbn [filter]. rewrite mem_app. cbn [mem existsb]. rewrite (Nat.eqb_sym d x), orb_false_r.
  destruct (Nat.eqb_spec x d) as [->|]; cbn [negb filter].
  - rewrite orb_true_r. cbn. exact IH.
  - rewrite orb_false_r. destruct (mem seen x); cbn; rewrite IH; reflexivity.
Qed.
Lemma left_nil l : left [] l = l. Proof. unfold left. induction l as [|x l IH]; [reflexivity|]. cbn. f_equal. exact IH. Qed.

(** * The invariant *)
Definition upto (id0 : Z) (n : nat) : list Z := map (fun k => id0 + Z.of_nat k) (seq 0 n).
Lemma upto_S id0 n : upto id0 (S n) = upto id0 n ++ [id0 + Z.of_nat n].
Proof. unfold upto. rewrite seq_S, map_app. reflexivity. Qed.
Lemma upto_length id0 n : List.length (upto id0 n) = n. Proof. unfold upto. rewrite map_length. apply seq_length. Qed.
Lemma upto_in id0 n x : In x (upto id0 n) <-> id0 <= x < id0 + Z.of_nat n.
Proof. unfold upto. rewrite in_map_iff. split; [intros (k & <- & H); apply in_seq in H; lia|intros H; exists (Z.to_nat (x - id0)); split; [lia|apply in_seq; lia]]. Qed.
Lemma upto_nodup id0 n : NoDup (upto id0 n).
Proof. unfold upto. apply FinFun.Injective_map_NoDup; [intros a b; lia|apply seq_NoDup]. Qed.
Lemma upto_nth id0 n k x : nth_error (upto id0 n) k = Some x -> x = id0 + Z.of_nat k.
Proof.
  intros H. assert (B : (k < n)%nat) by (rewrite <- (upto_length id0 n); apply nth_error_Some; congruence). unfold upto in H. rewrite nth_error_map in H.
  destruct (nth_error (seq 0 n) k) as [y|] eqn:E; [|discriminate]. injection H as <-. apply nth_error_nth with (d := O) in E. rewrite seq_nth in E by exact B. lia.
Qed.

Definition pending (p : phase) : list nat := match p with Getting d _ => [d] | _ => [] end.
Definition phaseOk (id0 : Z) (i : nat) (r : rk) : Prop :=
  match ph r with
  | Idle => counter r = List.length (made r)
  | Getting d k => i <> O /\ k = List.length (made r) /\ counter r = S k
  | Joining id => counter r = List.length (made r) /\ (0 < List.length (made r))%nat /\ id = id0 + Z.of_nat (List.length (made r)) - 1
  | Writing _ _ | Dead => False
  end.
Record rankOk (id0 : Z) (c0 : nat) (i : nat) (ask : list nat) (r : rk) : Prop := mkRankOk {
  r_ids : ids r = upto id0 (List.length (made r));
  r_le : (List.length (made r) <= c0)%nat;
  r_zero : i = O -> List.length (made r) = c0;
  r_ph : phaseOk id0 i r;
  r_ask : firsts ask = devices r ++ pending (ph r) ++ left (devices r ++ pending (ph r)) (firsts (todo r)) }.
Record inv (id0 : Z) (asks : list (list nat)) (c0 : nat) (s : state) : Prop := mkInv {
  i_kv : forall k, kv s k = if (k <? c0)%nat then Some (Whole (id0 + Z.of_nat k)) else None;
  i_id : nextId s = id0 + Z.of_nat c0;
  i_len : List.length (rks s) = List.length asks;
  i_rk : forall i r, nth_error (rks s) i = Some r -> exists l, nth_error asks i = Some l /\ rankOk id0 c0 i l r }.
Lemma inv_start id0 asks : inv id0 asks 0 (start fresh id0 asks).
Proof.
  split; cbn; [reflexivity|lia|apply map_length|]. intros i r H. rewrite nth_error_map in H. destruct (nth_error asks i) as [l|]; [|discriminate]. injection H as <-. exists l. split; [reflexivity|].
  split; cbn; try reflexivity. symmetry. apply left_nil.
Qed.
Lemma rankOk_more id0 c i l r : i <> O -> rankOk id0 c i l r -> rankOk id0 (S c) i l r.
Proof. intros N [H1 H2 H3 H4 H5]. split; [exact H1|lia|congruence|exact H4|exact H5]. Qed.
Lemma known_mem r d : known r d = mem (devices r) d.
Proof. unfold known, mem, devices. induction (made r) as [|p l IH]; [reflexivity|]. cbn. rewrite IH. reflexivity. Qed.
Lemma inv_step id0 asks c0 s i s' : inv id0 asks c0 s -> step TcpKind s i = Some s' -> exists c0', (c0 <= c0')%nat /\ inv id0 asks c0' s'.
Proof.
  intros I E. unfold step in E. destruct (nth_error (rks s) i) as [r|] eqn:R; [|discriminate]. destruct (i_rk _ _ _ _ I i r R) as (l & A & K).
  assert (ONE : forall r' c0', (c0' = c0 \/ c0' = S c0 /\ i = O) -> rankOk id0 c0' i l r' -> forall kv' n', (forall k, kv' k = if (k <? c0')%nat then Some (Whole (id0 + Z.of_nat k)) else None) -> n' = id0 + Z.of_nat c0' ->
            inv id0 asks c0' (mkSt kv' n' (setNth i r' (rks s)))).
  { intros r' c0' C K' kv' n' KV ID. split; cbn; [exact KV|exact ID|rewrite setNth_length; apply (i_len _ _ _ _ I)|]. intros j q Q. destruct (Nat.eq_dec i j) as [<-|NE].
    - rewrite (setNth_same i r' r) in Q by exact R. injection Q as <-. exists l. split; assumption.
    - rewrite setNth_other in Q by exact NE. destruct (i_rk _ _ _ _ I j q Q) as (l' & A' & K''). exists l'. split; [exact A'|]. destruct C as [->|[-> Z0]]; [exact K''|]. apply rankOk_more; [congruence|exact K'']. }
  destruct K as [K1 K2 K3 K4 K5]. unfold phaseOk in K4. destruct (ph r) eqn:P.
  - destruct (todo r) as [|d rest] eqn:T; [discriminate|]. cbn [pending app] in K5. rewrite app_nil_r in K5. rewrite known_mem in E. destruct (mem (devices r) d) eqn:M.
    + injection E as <-. exists c0. split; [lia|]. apply ONE; [left; reflexivity| |apply (i_kv _ _ _ _ I)|apply (i_id _ _ _ _ I)].
      split; cbn; [exact K1|exact K2|exact K3|exact K4|]. unfold devices in *. cbn. rewrite app_nil_r. rewrite K5, left_seen by exact M. reflexivity.
    + rewrite left_new in K5 by exact M. destruct i as [|i].
      * injection E as <-. exists (S c0). split; [lia|]. pose proof (K3 eq_refl) as L. apply ONE; [right; split; reflexivity| | |].
        -- split; cbn -[upto]; unfold ids, devices in *; cbn -[upto]; rewrite ?map_app, ?app_length; cbn [List.length map snd fst].
           ++ rewrite Nat.add_1_r, upto_S, K1, L, (i_id _ _ _ _ I). reflexivity.
           ++ lia.
           ++ intros _. lia.
           ++ unfold phaseOk; cbn; rewrite ?app_length; cbn; split; [lia|]. split; [lia|]. rewrite (i_id _ _ _ _ I). lia.
           ++ rewrite app_nil_r, <- app_assoc. exact K5.
        -- intros k. cbn [counter]. unfold setKv. rewrite K4, L, (i_id _ _ _ _ I), (i_kv _ _ _ _ I). destruct (Nat.eqb_spec k c0) as [->|]; [rewrite (proj2 (Nat.ltb_lt c0 (S c0))) by lia; reflexivity|].
           destruct (Nat.ltb_spec k c0), (Nat.ltb_spec k (S c0)); try reflexivity; lia.
        -- rewrite (i_id _ _ _ _ I). lia.
      * injection E as <-. exists c0. split; [lia|]. apply ONE; [left; reflexivity| |apply (i_kv _ _ _ _ I)|apply (i_id _ _ _ _ I)].
        split; cbn; [exact K1|exact K2|exact K3| |].
        -- unfold phaseOk; cbn. split; [congruence|]. split; [exact K4|reflexivity].
        -- unfold devices in *. cbn. exact K5.
  - contradiction.
  - destruct K4 as (N & K & C). rewrite (i_kv _ _ _ _ I) in E. destruct (Nat.ltb_spec k c0); [|discriminate]. injection E as <-. exists c0. split; [lia|]. apply ONE; [left; reflexivity| |apply (i_kv _ _ _ _ I)|apply (i_id _ _ _ _ I)].
    cbn [pending] in K5. split; cbn -[upto]; unfold ids, devices in *; cbn -[upto]; rewrite ?map_app, ?app_length; cbn [List.length map snd fst].
    + rewrite Nat.add_1_r, upto_S, K1, K. reflexivity.
    + lia.
    + intros ->. congruence.
    + unfold phaseOk; cbn; rewrite ?app_length; cbn; split; [lia|]. split; lia.
    + rewrite app_nil_r, <- app_assoc. exact K5.
  - destruct (joined (rks s) id); [|discriminate]. injection E as <-. exists c0. split; [lia|]. apply ONE; [left; reflexivity| |apply (i_kv _ _ _ _ I)|apply (i_id _ _ _ _ I)].
    split; cbn; [exact K1|exact K2|exact K3| |].
    + unfold phaseOk; cbn. apply K4.
    + exact K5.
  - contradiction.
Qed.
Lemma inv_exec id0 asks : forall l c0 s s', inv id0 asks c0 s -> exec TcpKind s l = Some s' -> exists c0', inv id0 asks c0' s'.
Proof.
  induction l as [|i l IH]; intros c0 s s' I E; cbn in E; [injection E as <-; exists c0; exact I|]. destruct (step TcpKind s i) as [s1|] eqn:S; [|discriminate]. destruct (inv_step _ _ _ _ _ _ I S) as (c1 & _ & I1). exact (IH _ _ _ I1 E).
Qed.
Lemma inv_same id0 asks c0 s : inv id0 asks c0 s -> sameComms s /\ distinctComms s.
Proof.
  intros I. split.
  - intros i j a b n x y HA HB HX HY. destruct (i_rk _ _ _ _ I _ _ HA) as (? & _ & [KA _ _ _ _]). destruct (i_rk _ _ _ _ I _ _ HB) as (? & _ & [KB _ _ _ _]). rewrite KA in HX. rewrite KB in HY. apply upto_nth in HX, HY. congruence.
  - intros i a HA. destruct (i_rk _ _ _ _ I _ _ HA) as (? & _ & [KA _ _ _ _]). rewrite KA. apply upto_nodup.
Qed.

(** * Progress *)
Lemma least (f : rk -> nat) l : l <> [] -> exists i r, nth_error l i = Some r /\ forall r', In r' l -> (f r <= f r')%nat.
Proof.
  induction l as [|x l IH]; intros H; [congruence|]. destruct l as [|y l].
  - exists O, x. split; [reflexivity|]. intros r' [<-|[]]. lia.
  - destruct IH as (i & r & N & L); [discriminate|]. destruct (le_lt_dec (f x) (f r)).
    + exists O, x. split; [reflexivity|]. intros r' [<-|Q]; [lia|]. specialize (L _ Q). lia.
    + exists (S i), r. split; [exact N|]. intros r' [<-|Q]; [lia|]. apply L, Q.
Qed.
Lemma joined_all id0 asks c0 s n : inv id0 asks c0 s -> (0 < n)%nat -> (forall r, In r (rks s) -> (n <= List.length (made r))%nat) -> joined (rks s) (id0 + Z.of_nat n - 1) = true.
Proof.
  intros I P H. apply forallb_forall. intros r R. destruct (In_nth_error _ _ R) as (i & N). destruct (i_rk _ _ _ _ I _ _ N) as (? & _ & [K _ _ _ _]).
  assert (IN : In (id0 + Z.of_nat n - 1) (ids r)) by (rewrite K; apply upto_in; specialize (H r R); lia). unfold ids in IN. apply in_map_iff in IN. destruct IN as (p & E & Q). apply existsb_exists. exists p. split; [exact Q|]. apply Z.eqb_eq, E.
Qed.
Lemma idle_moves kind s i r : nth_error (rks s) i = Some r -> ph r = Idle -> todo r <> [] -> step kind s i <> None.
Proof. intros N P T. unfold step. rewrite N, P. destruct (todo r) as [|d l]; [congruence|]. destruct (known r d); [discriminate|]. destruct i; [destruct kind|]; discriminate. Qed.
Lemma ask_length id0 c0 i l r : rankOk id0 c0 i l r -> (List.length (made r) < List.length (firsts l))%nat -> pending (ph r) = [] -> todo r <> [].
Proof. intros [_ _ _ _ K5] L P T. rewrite P, T in K5. cbn in K5. rewrite !app_nil_r in K5. rewrite K5 in L. unfold devices in L. rewrite map_length in L. lia. Qed.
Lemma quiet_done id0 asks c0 s m : inv id0 asks c0 s -> Forall (fun l => List.length (firsts l) = m) asks -> quiet TcpKind s -> finished asks s.
Proof.
  intros I M Q. destruct (rks s) as [|q0 qs] eqn:RS.
  - exists []. pose proof (i_len _ _ _ _ I) as L. rewrite RS in L. destruct asks; [|discriminate]. rewrite RS. constructor.
  - assert (NE : rks s <> []) by (rewrite RS; discriminate). clear RS q0 qs.
    assert (SIZE : forall i r l, nth_error (rks s) i = Some r -> nth_error asks i = Some l -> List.length (firsts l) = m) by (intros i r l _ A; rewrite Forall_forall in M; apply M; eapply nth_error_In, A).
    destruct (least (fun r => List.length (made r)) (rks s) NE) as (i & r & N & LE).
    destruct (i_rk _ _ _ _ I _ _ N) as (l & A & K). pose proof (SIZE _ _ _ N A) as SZ.
    assert (JOIN : forall j q id, nth_error (rks s) j = Some q -> ph q = Joining id -> List.length (made q) = List.length (made r) -> False).
    { intros j q id NQ PQ LQ. destruct (i_rk _ _ _ _ I _ _ NQ) as (l' & A' & [_ _ _ K4 _]). unfold phaseOk in K4. rewrite PQ in K4. destruct K4 as (_ & PO & ->).
      specialize (Q j). unfold step in Q. rewrite NQ, PQ, (joined_all id0 asks c0) in Q; [discriminate|exact I|exact PO|]. intros r' R'. rewrite LQ. apply LE, R'. }
    assert (ALL : List.length (made r) = m).
    { destruct (Nat.eq_dec (List.length (made r)) m) as [|NM]; [assumption|exfalso].
      assert (LT : (List.length (made r) < List.length (firsts l))%nat).
      { destruct K as [_ _ _ _ K5]. assert (X : List.length (firsts l) = List.length (firsts l)) by reflexivity. rewrite K5 in X at 2. rewrite app_length in X. unfold devices in X at 1. rewrite map_length in X. lia. }
      assert (RANK0 : forall q l', nth_error (rks s) 0 = Some q -> nth_error asks 0 = Some l' -> rankOk id0 c0 0 l' q -> List.length (made q) = List.length (made r) -> False).
      { intros q l' N0 A0 K0 L0. destruct (ph q) eqn:PQ.
        - apply (idle_moves TcpKind s 0 q N0 PQ); [|apply Q]. apply (ask_length _ _ _ _ _ K0); [rewrite L0, (SIZE _ _ _ N0 A0); lia|rewrite PQ; reflexivity].
        - destruct K0 as [_ _ _ K4 _]. unfold phaseOk in K4. rewrite PQ in K4. exact K4.
        - destruct K0 as [_ _ _ K4 _]. unfold phaseOk in K4. rewrite PQ in K4. destruct K4 as [X _]. congruence.
        - exact (JOIN _ _ _ N0 PQ L0).
        - destruct K0 as [_ _ _ K4 _]. unfold phaseOk in K4. rewrite PQ in K4. exact K4. }
      destruct (ph r) eqn:P.
      - apply (idle_moves TcpKind s i r N P); [|apply Q]. apply (ask_length _ _ _ _ _ K LT). rewrite P. reflexivity.
      - destruct K as [_ _ _ K4 _]. unfold phaseOk in K4. rewrite P in K4. exact K4.
      - assert (K' := K). destruct K as [_ K2 _ K4 _]. unfold phaseOk in K4. rewrite P in K4. destruct K4 as (N0 & KK & _). pose proof (Q i) as QI. unfold step in QI. rewrite N, P, (i_kv _ _ _ _ I) in QI.
        destruct (Nat.ltb_spec k c0); [discriminate|]. destruct (nth_error (rks s) 0) as [q|] eqn:E0; [|destruct (rks s); [congruence|discriminate]].
        destruct (i_rk _ _ _ _ I _ _ E0) as (l' & A0 & K0). apply (RANK0 q l' eq_refl A0 K0). pose proof (r_zero _ _ _ _ _ K0 eq_refl). lia.
      - exact (JOIN _ _ _ N P eq_refl).
      - destruct K as [_ _ _ K4 _]. unfold phaseOk in K4. rewrite P in K4. exact K4. }
    (* everyone has made [m] *)
    assert (FULL : forall j q l', nth_error (rks s) j = Some q -> nth_error asks j = Some l' -> todo q = [] /\ ph q = Idle /\ devices q = firsts l' /\ ids q = upto id0 m).
    { intros j q l' NQ AQ. destruct (i_rk _ _ _ _ I _ _ NQ) as (l'' & A'' & KQ). assert (l'' = l') by congruence. subst l''. pose proof (SIZE _ _ _ NQ AQ) as SQ.
      assert (GE : (m <= List.length (made q))%nat) by (rewrite <- ALL; apply LE; eapply nth_error_In, NQ).
      assert (K5 := r_ask _ _ _ _ _ KQ). assert (X : List.length (firsts l') = List.length (devices q ++ pending (ph q) ++ left (devices q ++ pending (ph q)) (firsts (todo q)))) by (rewrite <- K5; reflexivity).
      rewrite SQ, !app_length in X. unfold devices in X at 1. rewrite map_length in X.
      assert (LQ : List.length (made q) = m) by lia. assert (NP : pending (ph q) = []) by (destruct (pending (ph q)); [reflexivity|cbn in X; lia]).
      assert (PI : ph q = Idle).
      { destruct (ph q) eqn:PQ; [reflexivity| |discriminate| |].
        - pose proof (r_ph _ _ _ _ _ KQ) as Y. unfold phaseOk in Y. rewrite PQ in Y. destruct Y.
        - exfalso. apply (JOIN _ _ _ NQ PQ). lia.
        - pose proof (r_ph _ _ _ _ _ KQ) as Y. unfold phaseOk in Y. rewrite PQ in Y. destruct Y. }
      assert (TQ : todo q = []) by (destruct (todo q) eqn:T; [reflexivity|exfalso; apply (idle_moves TcpKind s j q NQ PI); [rewrite T; discriminate|apply Q]]).
      split; [exact TQ|]. split; [exact PI|]. split; [rewrite PI, TQ in K5; cbn in K5; rewrite !app_nil_r in K5; symmetry; exact K5|]. rewrite (r_ids _ _ _ _ _ KQ), LQ. reflexivity. }
    exists (upto id0 m). clear - FULL I. pose proof (i_len _ _ _ _ I) as L. clear I. revert FULL L. generalize (rks s) as rs. induction asks as [|l asks IH]; intros [|r rs] F L; try discriminate; [constructor|].
    constructor; [apply (F O); reflexivity|]. apply IH; [|injection L; auto]. intros j. apply (F (S j)).
Qed.

(** * Every schedule comes to an end *)
Definition weight (r : rk) : nat := 3 * List.length (todo r) + match ph r with Idle | Dead => 0 | Writing _ _ | Getting _ _ => 2 | Joining _ => 1 end.
Definition total (rs : list rk) : nat := fold_right (fun r n => (weight r + n)%nat) O rs.
Lemma total_set i r r' rs : nth_error rs i = Some r -> (total (setNth i r' rs) + weight r = total rs + weight r')%nat.
Proof. revert i; induction rs as [|x rs IH]; intros [|i] H; cbn [nth_error] in H; try discriminate; cbn [setNth]; unfold total in *; cbn [fold_right]; [injection H as ->; lia|]. specialize (IH i H). lia. Qed.
Lemma step_less kind s i s' : step kind s i = Some s' -> (total (rks s') < total (rks s))%nat.
Proof.
  unfold step. destruct (nth_error (rks s) i) as [r|] eqn:N; [|discriminate]. intros E.
  assert (G : forall r', rks s' = setNth i r' (rks s) -> (weight r' < weight r)%nat -> (total (rks s') < total (rks s))%nat) by (intros r' -> W; pose proof (total_set i r r' _ N); lia).
  unfold weight in G. destruct (ph r) eqn:P.
  - destruct (todo r) as [|d l] eqn:T; [discriminate|]. destruct (known r d); [injection E as <-; eapply G; [reflexivity|]; cbn [todo ph List.length create]; lia|].
    destruct i; [destruct kind|]; injection E as <-; (eapply G; [reflexivity|]; cbn [todo ph List.length create]; lia).
  - injection E as <-. eapply G; [reflexivity|]. cbn [todo ph List.length create]. lia.
  - destruct (kv s k) as [[]|]; [..|discriminate]; injection E as <-; (eapply G; [reflexivity|]; cbn [todo ph List.length create]; lia).
  - destruct (joined (rks s) id); [|discriminate]. injection E as <-. eapply G; [reflexivity|]. cbn [todo ph List.length create]. lia.
  - discriminate.
Qed.
Lemma exec_less kind : forall l s s', exec kind s l = Some s' -> (List.length l + total (rks s') <= total (rks s))%nat.
Proof.
  induction l as [|i l IH]; intros s s' E; cbn in E; [injection E as <-; cbn; lia|]. destruct (step kind s i) as [s1|] eqn:S; [|discriminate]. apply step_less in S. apply IH in E. cbn. lia.
Qed.
Lemma total_start kv id asks : total (rks (start kv id asks)) = (3 * List.length (concat asks))%nat.
Proof. unfold start. cbn [rks]. induction asks as [|l asks IH]; [reflexivity|]. cbn [map total fold_right]. fold (total (map (fun l => mkRk l [] 0 Idle) asks)). rewrite IH. unfold weight. cbn [todo ph concat]. rewrite app_length. lia. Qed.
