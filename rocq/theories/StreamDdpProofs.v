(** Proofs about StreamDdpModel: the reducer waits before it touches a buffer. *)
From Coq Require Import List Bool Arith Lia Permutation.
From Verif Require Import CollModel StreamModel StreamSpec StreamProofs StreamProofs2 StreamDdpModel StreamDdpSpec.
Import ListNotations.

Section Check.
Context {V : Type}.
Implicit Types (p q : list (hcmd V)) (out : list (nat * coll)).
(** A script is checked from left to right, with the works not waited for yet. *)
Definition touchesb (x : hcmd V) (c : coll) : bool :=
  match x with
  | HKernel k => (kout k =? cin c) || (kout k =? cout c) || has (kin k) (cout c)
  | HRead a => a =? cout c
  | _ => false
  end.
Fixpoint check out (n : nat) p : option (list (nat * coll) * nat) :=
  match p with
  | [] => Some (out, n)
  | HColl c :: p => check ((n, c) :: out) (S n) p
  | HWait w :: p => if w <? n then check (filter (fun wc => negb (fst wc =? w)) out) n p else None
  | x :: p => if existsb (fun wc => touchesb x (snd wc)) out then None else check out n p
  end.
Lemma check_app out n p q : check out n (p ++ q) = match check out n p with Some (o, m) => check o m q | None => None end.
Proof.
  revert out n; induction p as [|x p IH]; intros out n; [reflexivity|]. cbn [app check]. destruct x; auto.
  - destruct (existsb _ out); auto.
  - destruct (w <? n); auto.
  - destruct (existsb _ out); auto.
Qed.
Lemma check_count out n p o m : check out n p = Some (o, m) -> m = n + length (colls p).
Proof.
  revert out n; induction p as [|x p IH]; intros out n E; cbn [check] in E; [injection E as _ <-; cbn; lia|]. destruct x; cbn [colls length].
  - destruct (existsb _ out); [discriminate|]. apply IH in E. exact E.
  - apply IH in E. lia.
  - destruct (w <? n); [|discriminate]. apply IH in E. exact E.
  - destruct (existsb _ out); [discriminate|]. apply IH in E. exact E.
Qed.
Lemma touchesb_ok x c : touches x c -> touchesb x c = true.
Proof.
  destruct x; cbn; try tauto.
  - intros [E|[E|E]].
    + apply Nat.eqb_eq in E. rewrite E. reflexivity.
    + apply Nat.eqb_eq in E. rewrite E. rewrite orb_true_r. reflexivity.
    + assert (H : has (kin k) (cout c) = true) by (unfold has; apply existsb_exists; exists (cout c); split; [exact E|apply Nat.eqb_refl]). rewrite H. apply orb_true_r.
  - intros ->. apply Nat.eqb_refl.
Qed.
Lemma check_out out n p x q w c r : check out n (p ++ x :: q) = Some r -> In (w, c) out -> touches x c -> In (HWait w) p.
Proof.
  intros E I T. revert out n E I; induction p as [|y p IH]; intros out n E I.
  - exfalso. assert (X : existsb (fun wc => touchesb x (snd wc)) out = true) by (apply existsb_exists; exists (w, c); split; [exact I|apply touchesb_ok, T]).
    destruct x; cbn [app check] in E; try destruct T; rewrite X in E; discriminate.
  - cbn [app check] in E. destruct y.
    + destruct (existsb _ out); [discriminate|]. right. eapply IH; eauto.
    + right. eapply IH; [exact E|]. right. exact I.
    + destruct (w0 <? n); [|discriminate]. destruct (Nat.eq_dec w w0) as [->|NE]; [left; reflexivity|]. right. eapply IH; [exact E|]. apply filter_In. split; [exact I|].
      cbn. apply negb_true_iff, Nat.eqb_neq, NE.
    + destruct (existsb _ out); [discriminate|]. right. eapply IH; eauto.
Qed.
Theorem check_sound p r : check [] 0 p = Some r -> waitsFirst p.
Proof.
  intros E. split.
  - intros a c b x d -> T. rewrite check_app in E. destruct (check [] 0 a) as [[o m]|] eqn:A; [|discriminate]. apply check_count in A. cbn in A. subst m.
    cbn [check] in E. eapply check_out; [exact E|left; reflexivity|exact T].
  - intros a w b ->. rewrite check_app in E. destruct (check [] 0 a) as [[o m]|] eqn:A; [|discriminate]. apply check_count in A. cbn in A. subst m.
    cbn [check] in E. destruct (Nat.ltb_spec w (length (colls a))); [assumption|discriminate].
Qed.
End Check.

Section Put.
Context {A : Type}.
Lemma put_length (l : list A) i x : length (put l i x) = length l.
Proof. revert i; induction l as [|y l IH]; intros [|i]; cbn; auto. Qed.
Lemma put_nth (l : list A) i x j d : i < length l -> nth j (put l i x) d = if j =? i then x else nth j l d.
Proof.
  revert i j; induction l as [|y l IH]; intros i j H; [cbn in H; lia|]. destruct i as [|i], j as [|j]; cbn; try reflexivity. apply IH. cbn in H. lia.
Qed.
End Put.
Lemma put_count (l : list bool) i : i < length l -> nth i l false = false -> length (filter (fun b => b) (put l i true)) = S (length (filter (fun b => b) l)).
Proof. revert i; induction l as [|y l IH]; intros i H E; [cbn in H; lia|]. destruct i as [|i]; cbn in *; [subst y; reflexivity|]. destruct y; cbn; rewrite IH by (auto; lia); reflexivity. Qed.
Lemma count_all (l : list bool) : length (filter (fun b => b) l) <= length l.
Proof. induction l as [|[] l IH]; cbn; lia. Qed.
Lemma count_full (l : list bool) : length l <= length (filter (fun b => b) l) -> forall i, i < length l -> nth i l false = true.
Proof.
  induction l as [|y l IH]; intros H i I; [cbn in I; lia|]. pose proof (count_all l). destruct y; cbn in H; [|lia]. destruct i; cbn; [reflexivity|]. apply IH; cbn in I; lia.
Qed.
Lemma count_not_full (l : list bool) i : i < length l -> nth i l false = false -> length (filter (fun b => b) l) < length l.
Proof.
  revert i; induction l as [|y l IH]; intros i I E; [cbn in I; lia|]. pose proof (count_all l). destruct y; cbn; [|lia]. destruct i; [discriminate|]. apply (IH i) in E; cbn in I; lia.
Qed.

Lemma count_everything (l : list bool) : (forall i, i < length l -> nth i l false = true) -> length (filter (fun b => b) l) = length l.
Proof. induction l as [|y l IH]; intros H; [reflexivity|]. pose proof (H 0 ltac:(cbn; lia)) as Y. cbn in Y. subst y. cbn. rewrite IH; [reflexivity|]. intros i Hi. exact (H (S i) ltac:(cbn; lia)). Qed.

Section Reducer.
Context {V : Type} (rd : reducer V).
Hypothesis OWN : ownBuffers rd.
Notation B := (length (sizes rd)).
Definition cl (b : nat) : coll := mkC (CAllReduce SUM) (flat rd b) (flat rd b).
Definition cnt (b : nat) (l : list (nat * nat)) : nat := length (filter (fun x => fst x =? b) l).
(** What is outstanding is known to the reducer. *)
Definition known (st : rstate) (out : list (nat * coll)) (from : nat) : Prop :=
  forall w c, In (w, c) out -> exists b, from <= b < B /\ c = cl b /\ nth b (work st) None = Some w.
Record during (st : rstate) (out : list (nat * coll)) (rem : list (nat * nat)) : Prop := mkDu {
  d_len1 : length (ready st) = B; d_len2 : length (begun st) = B; d_len3 : length (work st) = B;
  d_ready : forall b, b < B -> nth b (ready st) 0 + cnt b rem = nth b (sizes rd) 0;
  d_begun : forall b, b < B -> nth b (begun st) false = (cnt b rem =? 0);
  d_work : forall b w, nth b (work st) None = Some w -> nth b (begun st) false = true /\ w < nextWork st;
  d_cnt : bucketsReady st = length (filter (fun b => b) (begun st));
  d_known : known st out 0;
  d_done : rem = [] -> out = [];
  d_rem : forall b p, In (b, p) rem -> b < B /\ p < nth b (sizes rd) 0
}.
Lemma cnt_cons b c p l : cnt b ((c, p) :: l) = (if c =? b then 1 else 0) + cnt b l.
Proof. unfold cnt. cbn. destruct (c =? b); reflexivity. Qed.

Lemma check_collect st out n b : b < B -> known st out b -> (forall b w, nth b (work st) None = Some w -> w < n) ->
  exists out', check out n (collect rd st b) = Some (out', n) /\ known st out' (S b).
Proof.
  intros HB K W. unfold collect. destruct (nth b (work st) None) as [w|] eqn:E.
  - specialize (W _ _ E). set (o := filter (fun wc : nat * coll => negb (fst wc =? w)) out).
    assert (K' : known st o (S b)).
    { intros w' c I. apply filter_In in I. destruct I as [I J]. cbn in J. apply negb_true_iff, Nat.eqb_neq in J. destruct (K _ _ I) as (b' & X & Y & Z). exists b'. split; [|auto].
      destruct (Nat.eq_dec b b') as [<-|]; [congruence|lia]. }
    exists o. split; [|exact K'].
    assert (NT : forall x : hcmd V, (forall b', b' < B -> b' <> b -> touchesb x (cl b') = false) -> existsb (fun wc => touchesb x (snd wc)) o = false).
    { intros x H. destruct (existsb _ o) eqn:X; [|reflexivity]. apply existsb_exists in X. destruct X as ([w' c] & I & T). destruct (K' _ _ I) as (b' & R & -> & _). cbn in T. rewrite H in T by lia. discriminate. }
    destruct OWN as (_ & O2 & O3). cbn [check]. destruct (Nat.ltb_spec w n); [|lia]. fold o. rewrite NT.
    + induction (seq 0 (nth b (sizes rd) 0)) as [|p l IH]; [reflexivity|]. cbn [map check]. rewrite NT; [exact IH|]. intros b' HB' NE. cbn.
      assert (E1 : (gradOf rd b p =? flat rd b') = false) by (apply Nat.eqb_neq, O3; auto).
      assert (E2 : (flat rd b' =? flat rd b) = false) by (apply Nat.eqb_neq; intros X; apply NE; auto).
      assert (E3 : (flat rd b' =? gradOf rd b p) = false) by (apply Nat.eqb_neq; intros X; symmetry in X; revert X; apply O3; auto).
      rewrite E1, E2, E3. reflexivity.
    + intros b' HB' NE. cbn. assert (E1 : (flat rd b =? flat rd b') = false) by (apply Nat.eqb_neq; intros X; apply NE; symmetry; auto).
      assert (E2 : (flat rd b' =? flat rd b) = false) by (apply Nat.eqb_neq; intros X; apply NE; auto). rewrite E1, E2. reflexivity.
  - exists out. split; [reflexivity|]. intros w c I. destruct (K _ _ I) as (b' & X & Y & Z). exists b'. split; [|auto]. destruct (Nat.eq_dec b b') as [<-|]; [congruence|lia].
Qed.
Lemma check_flush st n k : forall from out, from + k = B -> known st out from -> (forall b w, nth b (work st) None = Some w -> w < n) ->
  check out n (flat_map (collect rd st) (seq from k)) = Some ([], n).
Proof.
  induction k as [|k IH]; intros from out HB K W.
  - cbn. destruct out as [|[w c] out]; [reflexivity|]. destruct (K w c (or_introl eq_refl)) as (b & R & _). lia.
  - cbn [seq flat_map]. rewrite check_app. destruct (check_collect st out n from ltac:(lia) K W) as (out' & E & K'). rewrite E. apply IH; [lia|exact K'|exact W].
Qed.

Lemma hook_ok st out b p rem : during st out ((b, p) :: rem) ->
  exists cs st' out', onGradReady rd st b p = Some (cs, st') /\ check out (nextWork st) cs = Some (out', nextWork st') /\ during st' out' rem.
Proof.
  intros D. destruct (d_rem _ _ _ D b p (or_introl eq_refl)) as [HB HP]. unfold onGradReady.
  rewrite (proj2 (Nat.ltb_lt _ _) HB), (proj2 (Nat.ltb_lt _ _) HP). cbv zeta. cbn [ready begun work bucketsReady nextWork].
  assert (NB : nth b (begun st) false = false) by (rewrite (d_begun _ _ _ D) by exact HB; rewrite cnt_cons, Nat.eqb_refl; reflexivity). rewrite NB.
  pose proof (d_ready _ _ _ D b HB) as R. rewrite cnt_cons, Nat.eqb_refl in R.
  assert (CK : forall q, check out (nextWork st) (HKernel (mkK [gradOf rd b p; flat rd b] (flat rd b) (copyIn rd b p)) :: q) = check out (nextWork st) q).
  { intros q. cbn [check]. destruct (existsb _ out) eqn:X; [|reflexivity]. exfalso. apply existsb_exists in X. destruct X as ([w c] & I & T).
    destruct (d_known _ _ _ D _ _ I) as (b' & RG & -> & Z). cbn in T. destruct (d_work _ _ _ D _ _ Z) as [BG _]. destruct OWN as (_ & O2 & O3).
    assert (NE : b' <> b) by (intros ->; congruence).
    assert (E1 : (flat rd b =? flat rd b') = false) by (apply Nat.eqb_neq; intros X; apply NE; symmetry; apply O2; auto; lia).
    assert (E2 : (flat rd b' =? flat rd b) = false) by (apply Nat.eqb_neq; intros X; apply NE; apply O2; auto; lia).
    assert (E3 : (flat rd b' =? gradOf rd b p) = false) by (apply Nat.eqb_neq; intros X; symmetry in X; revert X; apply O3; lia).
    rewrite E1, E2, E3 in T. discriminate. }
  assert (RD : forall b', b' < B -> nth b' (put (ready st) b (S (nth b (ready st) 0))) 0 + cnt b' rem = nth b' (sizes rd) 0).
  { intros b' HB'. rewrite put_nth by (rewrite (d_len1 _ _ _ D); exact HB). pose proof (d_ready _ _ _ D b' HB') as R'. rewrite cnt_cons in R'. rewrite (Nat.eqb_sym b b') in R'. destruct (Nat.eqb_spec b' b); subst; lia. }
  destruct (S (nth b (ready st) 0) =? nth b (sizes rd) 0) eqn:FULL.
  - apply Nat.eqb_eq in FULL. assert (C0 : cnt b rem = 0) by lia.
    set (st1 := mkRS _ _ _ _ _). unfold checkAll.
    set (out1 := (nextWork st, cl b) :: out).
    assert (K1 : known st1 out1 0).
    { intros w c [E|I].
      - injection E as <- <-. exists b. split; [lia|]. split; [reflexivity|]. unfold st1; cbn. rewrite put_nth by (rewrite (d_len3 _ _ _ D); exact HB). rewrite Nat.eqb_refl. reflexivity.
      - destruct (d_known _ _ _ D _ _ I) as (b' & RG & -> & Z). exists b'. split; [lia|]. split; [reflexivity|]. unfold st1; cbn. rewrite put_nth by (rewrite (d_len3 _ _ _ D); exact HB).
        destruct (Nat.eqb_spec b' b) as [->|]; [|exact Z]. destruct (d_work _ _ _ D _ _ Z). congruence. }
    assert (W1 : forall b' w, nth b' (work st1) None = Some w -> nth b' (begun st1) false = true /\ w < S (nextWork st)).
    { intros b' w. unfold st1; cbn. rewrite put_nth by (rewrite (d_len3 _ _ _ D); exact HB). rewrite put_nth by (rewrite (d_len2 _ _ _ D); exact HB). destruct (b' =? b).
      - intros E. injection E as <-. split; [reflexivity|lia].
      - intros E. destruct (d_work _ _ _ D _ _ E). split; [assumption|lia]. }
    assert (BG : forall b', b' < B -> nth b' (begun st1) false = (cnt b' rem =? 0)).
    { intros b' HB'. unfold st1; cbn. rewrite put_nth by (rewrite (d_len2 _ _ _ D); exact HB). destruct (Nat.eqb_spec b' b) as [->|NE]; [rewrite C0; reflexivity|].
      rewrite (d_begun _ _ _ D) by exact HB'. rewrite cnt_cons. rewrite (proj2 (Nat.eqb_neq b b')) by congruence. reflexivity. }
    assert (CN : bucketsReady st1 = length (filter (fun b => b) (begun st1))).
    { unfold st1; cbn. rewrite put_count; [rewrite (d_cnt _ _ _ D); reflexivity|rewrite (d_len2 _ _ _ D); exact HB|exact NB]. }
    assert (LB : length (begun st1) = B) by (unfold st1; cbn; rewrite put_length; apply D).
    destruct (bucketsReady st1 <? B) eqn:ALL.
    + exists [HKernel (mkK [gradOf rd b p; flat rd b] (flat rd b) (copyIn rd b p)); HColl (cl b)], st1, out1. split; [reflexivity|]. split; [rewrite CK; reflexivity|].
      constructor; auto; try (unfold st1; cbn; rewrite ?put_length; apply D).
      * intros ->. exfalso. apply Nat.ltb_lt in ALL. rewrite CN, <- LB in ALL.
        assert (X : forall i, i < length (begun st1) -> nth i (begun st1) false = true) by (intros i Hi; rewrite BG by lia; reflexivity).
        clear -X ALL. revert X ALL. induction (begun st1) as [|y l IH]; intros X H; [cbn in H; lia|]. pose proof (X 0 ltac:(cbn; lia)) as Y. cbn in Y. subst y. cbn in H. apply IH; [intros i Hi; exact (X (S i) ltac:(cbn; lia))|lia].
      * intros b' p' I. apply (d_rem _ _ _ D b' p'). right. exact I.
    + eexists _, _, []. split; [reflexivity|]. split.
      * rewrite CK. cbn [check]. fold (cl b). fold out1. cbn [nextWork]. apply check_flush; [lia|exact K1|]. intros b' w E. apply (W1 _ _ E).
      * constructor; cbn [ready begun work bucketsReady nextWork]; auto; try (unfold st1; cbn; rewrite ?map_length, ?put_length; apply D).
        -- intros b' w E. exfalso. clear -E. revert b' E. induction (work st1) as [|y l IH]; intros [|b'] E; cbn in E; try discriminate. eauto.
        -- intros w c [].
        -- intros b' p' I. apply (d_rem _ _ _ D b' p'). right. exact I.
  - apply Nat.eqb_neq in FULL. assert (C0 : cnt b rem <> 0) by lia.
    eexists _, _, out. split; [reflexivity|]. split; [rewrite CK; reflexivity|]. constructor; cbn [ready begun work bucketsReady nextWork]; rewrite ?put_length; auto; try apply D.
    + intros b' HB'. rewrite (d_begun _ _ _ D) by exact HB'. rewrite cnt_cons. destruct (Nat.eqb_spec b b') as [<-|NE]; [|reflexivity]. cbn. symmetry. apply Nat.eqb_neq, C0.
    + intros ->. exfalso. apply C0. reflexivity.
    + intros b' p' I. apply (d_rem _ _ _ D b' p'). right. exact I.
Qed.

Lemma hook_count st b p cs st' : onGradReady rd st b p = Some (cs, st') -> nextWork st' + bucketsReady st = nextWork st + bucketsReady st'.
Proof.
  unfold onGradReady. destruct (b <? B); [|discriminate]. destruct (p <? _); [|discriminate]. cbv zeta. cbn [begun ready]. destruct (nth b (begun st) false); [discriminate|].
  destruct (_ =? _); [|intros E; injection E as _ <-; reflexivity]. unfold checkAll. destruct (_ <? _); intros E; injection E as _ <-; cbn; lia.
Qed.
Lemma during_training l : forall st out, during st out (hooks l) ->
  (forall k b, In (TKernel k) l -> b < B -> kout k <> flat rd b /\ ~ In (flat rd b) (kin k)) ->
  (forall a b, In (TRead a) l -> b < B -> a <> flat rd b) -> ~ In TForward l ->
  exists cs st', training rd st l = Some (cs, st') /\ check out (nextWork st) cs = Some ([], nextWork st') /\ nextWork st' + bucketsReady st = nextWork st + B.
Proof.
  induction l as [|x l IH]; intros st out D HK HR HF.
  - exists [], st. split; [reflexivity|]. cbn. rewrite (d_done _ _ _ D eq_refl). split; [reflexivity|]. f_equal. rewrite (d_cnt _ _ _ D), <- (d_len2 _ _ _ D).
    apply count_everything. intros i Hi. rewrite (d_begun _ _ _ D) by (rewrite <- (d_len2 _ _ _ D); exact Hi). reflexivity.
  - assert (HK' : forall k b, In (TKernel k) l -> b < B -> kout k <> flat rd b /\ ~ In (flat rd b) (kin k)) by (intros; apply HK; [right|]; assumption).
    assert (HR' : forall a b, In (TRead a) l -> b < B -> a <> flat rd b) by (intros; apply HR; [right|]; assumption).
    assert (HF' : ~ In TForward l) by (intros I; apply HF; right; exact I).
    destruct x as [k|a|b p|].
    + cbn [hooks] in D. destruct (IH _ _ D HK' HR' HF') as (cs & st' & E & C & N). exists (HKernel k :: cs), st'. cbn [training]. rewrite E. split; [reflexivity|]. split; [|exact N].
      cbn [check]. destruct (existsb _ out) eqn:X; [|exact C]. exfalso. apply existsb_exists in X. destruct X as ([w c] & I & T). destruct (d_known _ _ _ D _ _ I) as (b & RG & -> & _).
      destruct (HK k b (or_introl eq_refl) ltac:(lia)) as [N1 N2]. cbn in T. rewrite !(proj2 (Nat.eqb_neq _ _) N1) in T. cbn in T. unfold has in T. apply existsb_exists in T. destruct T as (y & J & EY). apply Nat.eqb_eq in EY. subst y. contradiction.
    + cbn [hooks] in D. destruct (IH _ _ D HK' HR' HF') as (cs & st' & E & C & N). exists (HRead a :: cs), st'. cbn [training]. rewrite E. split; [reflexivity|]. split; [|exact N].
      cbn [check]. destruct (existsb _ out) eqn:X; [|exact C]. exfalso. apply existsb_exists in X. destruct X as ([w c] & I & T). destruct (d_known _ _ _ D _ _ I) as (b & RG & -> & _).
      cbn in T. apply Nat.eqb_eq in T. exact (HR a b (or_introl eq_refl) ltac:(lia) T).
    + cbn [hooks] in D. destruct (hook_ok _ _ _ _ _ D) as (cs & st1 & out1 & E1 & C1 & D1). destruct (IH _ _ D1 HK' HR' HF') as (cs2 & st2 & E2 & C2 & N2).
      exists (cs ++ cs2), st2. cbn [training]. rewrite E1, E2. split; [reflexivity|]. split; [rewrite check_app, C1; exact C2|]. pose proof (hook_count _ _ _ _ _ E1). lia.
    + exfalso. apply HF. left. reflexivity.
Qed.
Lemma cnt_perm b l l' : Permutation l l' -> cnt b l = cnt b l'.
Proof. unfold cnt. induction 1 as [|x l l' _ IH|x y l|l l2 l3 _ IH1 _ IH2]; cbn; [reflexivity| | |congruence]; repeat destruct (_ =? b); cbn; congruence. Qed.
Lemma cnt_app b l l' : cnt b (l ++ l') = cnt b l + cnt b l'.
Proof. unfold cnt. rewrite filter_app, app_length. reflexivity. Qed.
Lemma cnt_block b c n : cnt b (map (fun p => (c, p)) n) = if c =? b then length n else 0.
Proof. unfold cnt. induction n as [|x n IH]; cbn; [destruct (c =? b); reflexivity|]. destruct (c =? b); cbn; rewrite IH; reflexivity. Qed.
Lemma cnt_every b sz : b < length sz -> cnt b (everyParam sz) = nth b sz 0.
Proof.
  intros H. unfold everyParam. assert (G : forall k from, cnt b (flat_map (fun b => map (fun p => (b, p)) (seq 0 (nth b sz 0))) (seq from k)) = if (from <=? b) && (b <? from + k) then nth b sz 0 else 0).
  { induction k as [|k IH]; intros from.
    - cbn [seq flat_map]. unfold cnt at 1; cbn [filter length]. destruct (Nat.leb_spec from b), (Nat.ltb_spec b (from + 0)); cbn [andb]; auto; lia.
    - cbn [seq flat_map]. rewrite cnt_app, cnt_block, seq_length, IH.
      destruct (Nat.eqb_spec from b), (Nat.leb_spec (S from) b), (Nat.leb_spec from b), (Nat.ltb_spec b (S from + k)), (Nat.ltb_spec b (from + S k)); cbn [andb]; subst; lia. }
  rewrite G. cbn [Nat.leb andb Nat.add]. rewrite (proj2 (Nat.ltb_lt _ _) H). reflexivity.
Qed.
Lemma begin_during n l : Permutation l (everyParam (sizes rd)) -> during (prepare rd n) [] l.
Proof.
  intros P. unfold prepare.
  assert (LB : forall A (x : A) b d, b < B -> nth b (map (fun _ : nat => x) (sizes rd)) d = x).
  { intros A x b d H. rewrite (nth_indep _ d x) by (rewrite map_length; exact H). apply (map_nth (fun _ : nat => x) (sizes rd) 0 b). }
  assert (POS : forall b, b < B -> nth b (sizes rd) 0 > 0) by (intros b H; apply OWN; apply nth_In; exact H).
  assert (WN : forall b, nth b (map (fun _ : nat => @None nat) (sizes rd)) None = None) by (intros b; induction (sizes rd) as [|y s IH] in b |- *; destruct b; cbn; auto).
  constructor; cbn [ready begun work bucketsReady nextWork]; rewrite ?map_length; auto.
  - intros b H. rewrite (LB nat 0 b 0 H), (cnt_perm _ _ _ P), cnt_every by exact H. reflexivity.
  - intros b H. rewrite (LB bool false b false H), (cnt_perm _ _ _ P), cnt_every by exact H. specialize (POS b H). destruct (nth b (sizes rd) 0); [lia|reflexivity].
  - intros b w E. rewrite WN in E. discriminate.
  - clear. induction (sizes rd); cbn; auto.
  - intros w c [].
  - intros b p I. apply (Permutation_in _ P) in I. unfold everyParam in I. apply in_flat_map in I. destruct I as (b' & I & J). apply in_map_iff in J. destruct J as (p' & E & J). injection E as <- <-. apply in_seq in I, J. lia.
Qed.
Lemma training_app l l' st : training rd st (l ++ l') = match training rd st l with Some (c1, st1) => option_map (fun r => (c1 ++ fst r, snd r)) (training rd st1 l') | None => None end.
Proof.
  clear OWN. revert st; induction l as [|x l IH]; intros st; cbn [app training].
  - destruct (training rd st l') as [[c s]|]; reflexivity.
  - destruct x; rewrite ?IH.
    + destruct (training rd st l) as [[c s]|]; [|reflexivity]. cbn. destruct (training rd s l') as [[]|]; reflexivity.
    + destruct (training rd st l) as [[c s]|]; [|reflexivity]. cbn. destruct (training rd s l') as [[]|]; reflexivity.
    + destruct (onGradReady rd st b p) as [[c0 s0]|]; [|reflexivity]. rewrite IH. destruct (training rd s0 l) as [[c s]|]; [|reflexivity]. cbn. destruct (training rd s l') as [[]|]; cbn; rewrite ?app_assoc; reflexivity.
    + reflexivity.
Qed.
Lemma training_check its : (forall it, In it its -> iteration rd it) -> forall st,
  exists cs st', training rd st (trainingRun its) = Some (cs, st') /\ check [] (nextWork st) cs = Some ([], nextWork st') /\ nextWork st' = nextWork st + length its * B.
Proof.
  induction its as [|it its IH]; intros H st; [exists [], st; repeat split; cbn; lia|].
  cbn [trainingRun flat_map app training]. fold (trainingRun its).
  destruct (H it (or_introl eq_refl)) as (P & HK & HR & HF).
  destruct (during_training it _ _ (begin_during (nextWork st) _ P) HK HR HF) as (cs & st1 & E & C & N). cbn [prepare nextWork bucketsReady] in C, N.
  rewrite training_app, E. destruct (IH (fun it I => H it (or_intror I)) st1) as (cs2 & st2 & E2 & C2 & N2). rewrite E2. cbn [option_map fst snd].
  exists (cs ++ cs2), st2. split; [reflexivity|]. split; [rewrite check_app, C; exact C2|]. cbn [length Nat.mul]. lia.
Qed.
Lemma collect_colls st l : colls (flat_map (collect rd st) l) = [].
Proof.
  clear OWN. induction l as [|b l IH]; [reflexivity|]. cbn [flat_map]. rewrite colls_app, IH, app_nil_r. unfold collect. destruct (nth b (work st) None); [|reflexivity].
  cbn. induction (seq 0 _) as [|q s IS]; cbn; auto.
Qed.
Lemma training_cop l : forall st cs st', training rd st l = Some (cs, st') -> forall c, In c (colls cs) -> cop c = CAllReduce SUM.
Proof.
  clear OWN. induction l as [|x l IH]; intros st cs st' E c I; cbn [training] in E.
  - injection E as <- <-. destruct I.
  - destruct x.
    + destruct (training rd st l) as [[c1 s1]|] eqn:T; [|discriminate]. injection E as <- <-. eapply IH; eauto.
    + destruct (training rd st l) as [[c1 s1]|] eqn:T; [|discriminate]. injection E as <- <-. eapply IH; eauto.
    + destruct (onGradReady rd st b p) as [[c0 s0]|] eqn:O; [|discriminate]. destruct (training rd s0 l) as [[c1 s1]|] eqn:T; [|discriminate]. injection E as <- <-.
      cbn [fst] in I. rewrite colls_app in I. apply in_app_or in I. destruct I as [I|I]; [|eapply IH; eauto].
      unfold onGradReady in O. destruct (b <? B); [|discriminate]. destruct (p <? _); [|discriminate]. cbv zeta in O. cbn [begun ready] in O. destruct (nth b (begun st) false); [discriminate|].
      destruct (_ =? _); [|injection O as <- <-; destruct I]. unfold checkAll in O. destruct (_ <? _); injection O as <- <-; cbn [colls] in I; rewrite ?collect_colls in I; destruct I as [<-|[]]; reflexivity.
    + eapply IH; eauto.
Qed.
Theorem training_waits its : (forall it, In it its -> iteration rd it) ->
  exists cs st', training rd (prepare rd 0) (trainingRun its) = Some (cs, st') /\ waitsFirst cs /\ map cop (colls cs) = repeat (CAllReduce SUM) (length its * B).
Proof.
  intros H. destruct (training_check its H (prepare rd 0)) as (cs & st' & E & C & N). exists cs, st'. split; [exact E|]. split; [eapply check_sound; exact C|].
  apply check_count in C. cbn [prepare nextWork] in *. rewrite N in C. cbn in C. rewrite C.
  pose proof (training_cop _ _ _ _ E) as A. clear -A. induction (colls cs) as [|c l IH]; [reflexivity|]. cbn. rewrite (A c (or_introl eq_refl)), IH; [reflexivity|]. intros d I. apply A. right. exact I.
Qed.
End Reducer.
