From Coq Require Import ZArith List Bool Arith Lia ZifyBool ZifyNat.
From Verif Require Import StoreModel StoreSpec.
Import ListNotations.
Open Scope Z_scope.

(** * Numbers *)
Lemma number_snoc : forall ds d, number_of (ds ++ [d]) = 10 * number_of ds + (d - 48).
Proof. intros. unfold number_of. rewrite fold_left_app. reflexivity. Qed.
Lemma digits_ok : forall fuel n acc, 0 <= n < 10 ^ Z.of_nat (S fuel) ->
  exists ds, digits fuel n acc = ds ++ acc /\ Forall is_digit ds /\ ds <> [] /\ number_of ds = n /\ (hd 0 ds = 48 -> ds = [48]) /\ (0 < n -> hd 0 ds <> 48).
Proof.
  induction fuel as [|fuel IH]; intros n acc Hn.
  - cbn [digits]. change (10 ^ Z.of_nat 1) with 10 in Hn. rewrite (proj2 (Z.ltb_lt n 10)) by lia. exists [48 + n]. unfold is_digit, number_of. cbn [hd fold_left]. split; [reflexivity|]. split; [constructor; [lia|constructor]|]. split; [discriminate|]. split; [lia|]. split; [intros; f_equal; lia|intros; lia].
  - cbn [digits]. destruct (Z.ltb_spec n 10).
    + exists [48 + n]. unfold is_digit, number_of. cbn [hd fold_left]. split; [reflexivity|]. split; [constructor; [lia|constructor]|]. split; [discriminate|]. split; [lia|]. split; [intros; f_equal; lia|intros; lia].
    + rewrite Nat2Z.inj_succ, Z.pow_succ_r in Hn by lia. destruct (IH (n / 10) ((48 + n mod 10) :: acc)) as (ds & E & H1 & H2 & H3 & H4 & H5).
      { split; [apply Z.div_pos; lia|]. apply Z.div_lt_upper_bound; lia. }
      exists (ds ++ [48 + n mod 10]). pose proof (Z.mod_pos_bound n 10 ltac:(lia)). assert (HP : 0 < n / 10) by (apply Z.div_str_pos; lia). specialize (H5 HP). destruct ds as [|d ds]; [contradiction|]. repeat split.
      * rewrite E. rewrite <- app_assoc. reflexivity.
      * apply Forall_app. split; auto. constructor; [unfold is_digit; lia|constructor].
      * discriminate.
      * rewrite number_snoc, H3. rewrite (Z.div_mod n 10) at 3 by lia. lia.
      * cbn [hd app]. intros. contradiction.
      * cbn [hd app]. intros. auto.
Qed.
Lemma in64_iff : forall z, in64 z = true <-> - 2 ^ 63 <= z <= 2 ^ 63 - 1. Proof. intros. unfold in64, INT64_MIN, INT64_MAX. lia. Qed.
Lemma to_string_decimal : forall z, in64 z = true -> is_decimal (to_string z) z.
Proof.
  intros z Hz. apply in64_iff in Hz. unfold to_string. destruct (Z.ltb_spec z 0).
  - destruct (digits_ok 20 (- z) []) as (ds & E & H1 & H2 & H3 & H4 & H5); [change (10 ^ Z.of_nat 21) with 1000000000000000000000; lia|]. exists ds. rewrite app_nil_r in E. rewrite E. repeat split; auto. right. repeat split; lia.
  - destruct (digits_ok 20 z []) as (ds & E & H1 & H2 & H3 & H4 & H5); [change (10 ^ Z.of_nat 21) with 1000000000000000000000; lia|]. exists ds. rewrite app_nil_r in E. rewrite E. repeat split; auto. 
Qed.
Lemma isDigit_ok : forall b, isDigit b = true <-> is_digit b. Proof. intros. unfold isDigit, is_digit. lia. Qed.
Lemma isSpace_ok : forall b, isSpace b = true <-> is_space b. Proof. intros. unfold isSpace, is_space. lia. Qed.
Lemma skipSpace_split : forall v, exists ws, v = ws ++ skipSpace v /\ Forall is_space ws /\ (skipSpace v = [] \/ ~ is_space (hd 0 (skipSpace v))).
Proof.
  induction v as [|b v IH]; [exists []; cbn; auto|]. cbn [skipSpace]. destruct (isSpace b) eqn:E.
  - destruct IH as (ws & E1 & H1 & H2). exists (b :: ws). split; [cbn; f_equal; auto|]. split; auto. constructor; auto. apply isSpace_ok. auto.
  - exists []. split; auto. split; auto. right. cbn. rewrite <- isSpace_ok. congruence.
Qed.
Lemma skipSpace_app : forall ws l, Forall is_space ws -> (l = [] \/ ~ is_space (hd 0 l)) -> skipSpace (ws ++ l) = l.
Proof.
  intros ws l H HL. induction H as [|b ws Hb H IH].
  - cbn. destruct l as [|b l]; auto. cbn [skipSpace]. destruct HL as [HL|HL]; [discriminate|]. cbn in HL. rewrite <- isSpace_ok in HL. destruct (isSpace b); auto. contradiction HL. reflexivity.
  - cbn [app skipSpace]. rewrite (proj2 (isSpace_ok b) Hb). auto.
Qed.
Lemma readDigits_split : forall l acc, exists ds junk, l = ds ++ junk /\ Forall is_digit ds /\ (junk = [] \/ ~ is_digit (hd 0 junk)) /\ readDigits l acc = fold_left (fun a d => 10 * a + (d - 48)) ds acc.
Proof.
  induction l as [|b l IH]; intros acc; [exists [], []; cbn; auto|]. cbn [readDigits]. destruct (isDigit b) eqn:E.
  - destruct (IH (acc * 10 + (b - 48))) as (ds & junk & E1 & H1 & H2 & H3). exists (b :: ds), junk. split; [cbn; f_equal; auto|]. split; [constructor; auto; apply isDigit_ok; auto|]. split; auto. rewrite H3. cbn [fold_left]. f_equal. lia.
  - exists [], (b :: l). split; auto. split; auto. split; auto. right. cbn. rewrite <- isDigit_ok. congruence.
Qed.
Lemma readDigits_app : forall ds junk acc, Forall is_digit ds -> (junk = [] \/ ~ is_digit (hd 0 junk)) -> readDigits (ds ++ junk) acc = fold_left (fun a d => 10 * a + (d - 48)) ds acc.
Proof.
  intros ds junk acc H HJ. revert acc. induction H as [|b ds Hb H IH]; intros acc.
  - cbn. destruct junk as [|b junk]; auto. cbn [readDigits]. destruct HJ as [HJ|HJ]; [discriminate|]. cbn in HJ. rewrite <- isDigit_ok in HJ. destruct (isDigit b); auto. contradiction HJ. reflexivity.
  - cbn [app readDigits fold_left]. rewrite (proj2 (isDigit_ok b) Hb). rewrite IH. f_equal. lia.
Qed.
Lemma readNumber_some : forall l z, readNumber l = Some z -> exists ds junk, l = ds ++ junk /\ Forall is_digit ds /\ ds <> [] /\ (junk = [] \/ ~ is_digit (hd 0 junk)) /\ z = number_of ds.
Proof.
  intros [|b l] z H; [discriminate|]. unfold readNumber in H. destruct (isDigit b) eqn:E; [|discriminate]. injection H as <-. destruct (readDigits_split (b :: l) 0) as (ds & junk & E1 & H1 & H2 & H3). exists ds, junk. repeat split; auto.
  destruct ds; [|discriminate]. cbn in E1. subst junk. destruct H2 as [H2|H2]; [discriminate|]. exfalso. apply H2. apply isDigit_ok. auto.
Qed.
Lemma readNumber_app : forall ds junk, Forall is_digit ds -> ds <> [] -> (junk = [] \/ ~ is_digit (hd 0 junk)) -> readNumber (ds ++ junk) = Some (number_of ds).
Proof.
  intros ds junk H H0 HJ. destruct ds as [|b ds]; [contradiction|]. unfold readNumber. cbn [app]. inversion H; subst. rewrite (proj2 (isDigit_ok b)) by auto. f_equal. apply (readDigits_app (b :: ds) junk 0); auto.
Qed.
Lemma stoll_sound : forall v z, stoll v = Some z -> reads_as v z /\ in64 z = true.
Proof.
  intros v z H. unfold stoll in H. destruct (signed (skipSpace v)) as [y|] eqn:E; [|discriminate]. destruct (in64 y) eqn:E64; [|discriminate]. injection H as <-. split; auto.
  destruct (skipSpace_split v) as (ws & Ev & Hws & Hh). unfold signed in E. destruct (skipSpace v) as [|b r] eqn:Er; [discriminate|].
  destruct (Z.eqb_spec b 45) as [ -> |N].
  - destruct (readNumber r) as [x|] eqn:EN; [|discriminate]. injection E as <-. destruct (readNumber_some _ _ EN) as (ds & junk & E1 & H1 & H2 & H3 & ->). exists ws, [45], ds, junk. subst r. repeat split; auto.
  - destruct (Z.eqb_spec b 43) as [ -> |N2]; destruct (readNumber_some _ _ E) as (ds & junk & E1 & H1 & H2 & H3 & ->).
    + exists ws, [43], ds, junk. subst r. repeat split; auto.
    + exists ws, [], ds, junk. rewrite E1 in Ev. repeat split; auto.
Qed.
Lemma stoll_complete : forall v z, reads_as v z -> in64 z = true -> stoll v = Some z.
Proof.
  intros v z (ws & sg & ds & junk & -> & Hws & Hds & Hne & HJ & Hz) H64. unfold stoll. 
  destruct ds as [|d ds]; [contradiction|]. pose proof (readNumber_app (d :: ds) junk Hds Hne HJ) as HR. inversion Hds as [|? ? Hd Hds']; subst x l. unfold is_digit in Hd.
  assert (HS : skipSpace (ws ++ sg ++ (d :: ds) ++ junk) = sg ++ (d :: ds) ++ junk).
  { apply skipSpace_app; auto. right. unfold is_space. destruct Hz as [[[ -> | -> ] _]|[ -> _]]; cbn; lia. }
  rewrite HS. destruct Hz as [[[ -> | -> ] ->]|[ -> ->]].
  - cbn [app]. unfold signed. destruct (Z.eqb_spec d 45); [lia|]. destruct (Z.eqb_spec d 43); [lia|]. cbn [app] in HR. rewrite HR, H64. reflexivity.
  - cbn [app] in *. unfold signed. rewrite Z.eqb_refl. destruct (43 =? 45) eqn:E; [discriminate|]. rewrite HR, H64. reflexivity.
  - cbn [app] in *. unfold signed. rewrite Z.eqb_refl. rewrite HR. cbn [option_map]. rewrite H64. reflexivity.
Qed.
Lemma decimal_reads : forall v z, is_decimal v z -> reads_as v z.
Proof.
  intros v z (ds & H1 & H2 & H3 & [[-> ->]|(-> & -> & _)]).
  - exists [], [], ds, []. rewrite app_nil_r. repeat split; auto.
  - exists [], [45], ds, []. rewrite app_nil_r. repeat split; auto.
Qed.
Lemma number_nonneg : forall ds, Forall is_digit ds -> 0 <= number_of ds.
Proof.
  intros ds H. unfold number_of. assert (G : forall l a, 0 <= a -> Forall is_digit l -> 0 <= fold_left (fun a d => 10 * a + (d - 48)) l a); [|apply G; auto; lia].
  induction l as [|d l IH]; intros a Ha HF; auto. inversion HF; subst. cbn [fold_left]. apply IH; auto. unfold is_digit in *. lia.
Qed.

(** * The map *)
Lemma key_eqb_eq : forall a b, key_eqb a b = true <-> a = b.
Proof. intros a b. unfold key_eqb. destruct (list_eq_dec Z.eq_dec a b); split; auto; discriminate. Qed.
Lemma key_eqb_refl : forall a, key_eqb a a = true. Proof. intros. apply key_eqb_eq. reflexivity. Qed.
Lemma key_eqb_neq : forall a b, a <> b -> key_eqb a b = false. Proof. intros a b H. destruct (key_eqb a b) eqn:E; auto. apply key_eqb_eq in E. contradiction. Qed.
Lemma find_erase_same : forall m k, find (erase m k) k = None.
Proof. induction m as [|[k' v] m IH]; intros k; auto. unfold erase in *. cbn. destruct (key_eqb k k') eqn:E; cbn; auto. rewrite E. auto. Qed.
Lemma find_erase_other : forall m k k', k' <> k -> find (erase m k) k' = find m k'.
Proof.
  induction m as [|[k0 v] m IH]; intros k k' H; auto. unfold erase in *. cbn. destruct (key_eqb k k0) eqn:E; cbn.
  - apply key_eqb_eq in E. subst k0. rewrite (key_eqb_neq k' k) by auto. auto.
  - destruct (key_eqb k' k0); auto.
Qed.
Lemma find_put_same : forall m k v, find (put m k v) k = Some v. Proof. intros. unfold put. cbn. rewrite key_eqb_refl. reflexivity. Qed.
Lemma find_put_other : forall m k v k', k' <> k -> find (put m k v) k' = find m k'.
Proof. intros. unfold put. cbn. rewrite key_eqb_neq by auto. apply find_erase_other. auto. Qed.
Definition okmap (m : kvmap) : Prop := NoDup (map fst m).
Lemma find_in : forall m k, find m k <> None <-> In k (map fst m).
Proof.
  induction m as [|[k0 v] m IH]; intros k; [cbn; tauto|]. cbn. destruct (key_eqb k k0) eqn:E.
  - apply key_eqb_eq in E. subst. split; auto. discriminate.
  - rewrite IH. split; auto. intros [->|H]; auto. rewrite key_eqb_refl in E. discriminate.
Qed.
Lemma erase_ok : forall m k, okmap m -> okmap (erase m k).
Proof.
  unfold okmap. induction m as [|[k0 v] m IH]; intros k H; auto. inversion H; subst. unfold erase in *. cbn. destruct (key_eqb k k0); cbn; auto. constructor; auto.
  intros HI. apply H2. clear - HI. induction m as [|[a b] m IH]; auto. cbn in *. destruct (key_eqb k a); cbn in *; auto. destruct HI; auto.
Qed.
Lemma put_ok : forall m k v, okmap m -> okmap (put m k v).
Proof.
  intros m k v H. unfold okmap, put. cbn. constructor; [|apply erase_ok; auto]. intros HI. apply find_in in HI. apply HI. apply find_erase_same.
Qed.
Lemma present_ok : forall m k, present m k = true <-> find m k <> None.
Proof. intros. unfold present. destruct (find m k); split; intros; try discriminate; try congruence. Qed.
Lemma all_present_ok : forall m ks, forallb (present m) ks = true <-> all_present (find m) ks.
Proof. intros m ks. rewrite forallb_forall. unfold all_present. split; intros H k HI; [apply present_ok|apply present_ok]; auto. Qed.

(** * Phases and traces *)
Lemma visible_app : forall a b, visible (a ++ b) = visible a ++ visible b.
Proof. induction a as [|[c o|c o r|c o r] a IH]; intros b; cbn; rewrite ?IH; auto. Qed.
Lemma points_app : forall a b, points (a ++ b) = points a ++ points b.
Proof. induction a as [|[c o|c o r|c o r] a IH]; intros b; cbn; rewrite ?IH; auto. Qed.
(** The phase a thread's state stands for. *)
Definition phaseOf (t : thread) (p : phase) : Prop :=
  match t with
  | Idle => p = PIdle | Closed => p = PIdle
  | Got o => p = PInv o
  | Reg o m | Sleep o m | Awake o m => p = PInv o
  | Done o r => p = PLin o r
  end.
(** Blocked threads run get or wait. *)
Definition blockedOp (t : thread) : Prop := match t with Reg o _ | Sleep o _ | Awake o _ => (exists k, o = OGet k) \/ (exists ks, o = OWait ks) | _ => True end.
Record lin_inv (s : sys) (l : list xevent) : Prop := {
  li_kv : okmap (kv s);
  li_ph : forall c, exists p, phases c l p /\ phaseOf (thr s c) p;
  li_blk : forall c, blockedOp (thr s c);
  li_seq : exists m, seq_run (fun _ => None) (points l) m /\ forall k, m k = find (kv s) k
}.
Lemma phases_other : forall c l p e, phases c l p -> (forall q, e <> XInv c q) -> (forall q r, e <> XLin c q r) -> (forall q r, e <> XRes c q r) -> phases c (l ++ [e]) p.
Proof.
  intros c l p e H H1 H2 H3. apply ph_snoc with p; auto. destruct e as [c' o|c' o r|c' o r].
  - constructor. intros ->. apply (H1 o). reflexivity.
  - constructor. intros ->. apply (H2 o r). reflexivity.
  - constructor. intros ->. apply (H3 o r). reflexivity.
Qed.
Lemma setThr_same : forall f c t, setThr f c t c = t. Proof. intros. unfold setThr. rewrite Nat.eqb_refl. reflexivity. Qed.
Lemma setThr_other : forall f c t c', c' <> c -> setThr f c t c' = f c'. Proof. intros. unfold setThr. destruct (Nat.eqb_spec c' c); auto. contradiction. Qed.

(** A silent action: threads keep their phases, the map stays. *)
Lemma inv_silent : forall s s' l, lin_inv s l -> (forall k, find (kv s') k = find (kv s) k) -> okmap (kv s') ->
  (forall c p, phaseOf (thr s c) p -> phaseOf (thr s' c) p) -> (forall c, blockedOp (thr s' c)) -> lin_inv s' l.
Proof.
  intros s s' l [H1 H2 H3 (m & H4 & H5)] HK HO HP HB. constructor; auto.
  - intros c. destruct (H2 c) as (p & A & B). exists p. auto.
  - exists m. split; auto. intros k. rewrite HK. auto.
Qed.
(** An action at which client [c]'s operation takes effect. *)
Lemma inv_point : forall s s' l c o r, lin_inv s l -> phaseOf (thr s c) (PInv o) -> thr s' c = Done o r -> okmap (kv s') ->
  (forall c' p, c' <> c -> phaseOf (thr s c') p -> phaseOf (thr s' c') p) -> (forall c', blockedOp (thr s' c')) ->
  seq_step (find (kv s)) o r (find (kv s')) -> lin_inv s' (l ++ [XLin c o r]).
Proof.
  intros s s' l c o r [H1 H2 H3 (m & H4 & H5)] HC HD HO HP HB HS. constructor; auto.
  - intros c'. destruct (H2 c') as (p & A & B). destruct (Nat.eq_dec c' c) as [ -> |N].
    + exists (PLin o r). split; [|rewrite HD; reflexivity]. assert (p = PInv o) by (destruct (thr s c); cbn in *; congruence). subst p. apply ph_snoc with (PInv o); auto. constructor.
    + exists p. split; auto. apply phases_other; auto; intros; congruence.
  - exists (find (kv s')). split; auto. rewrite points_app. cbn [points]. apply seq_snoc with m; auto.
    assert (EQ : forall k, m k = find (kv s) k) by auto. clear - EQ HS. destruct o; cbn in *; unfold unchanged, changed_only, all_present in *.
    + destruct HS as (A & B & C). repeat split; auto. intros. rewrite EQ. auto.
    + destruct HS as (A & B). split; [intros; rewrite EQ; auto|]. rewrite EQ. auto.
    + destruct HS as (z & t & A & B & C & D & E). exists z, t. rewrite EQ. repeat split; auto. intros. rewrite EQ. auto.
    + destruct HS as (A & b & B & C). split; [intros; rewrite EQ; auto|]. exists b. split; auto. rewrite C. split; intros H k HI; specialize (H k HI); rewrite EQ in *; auto.
    + destruct HS as (A & b & B & C). split; [intros; rewrite EQ; auto|]. exists b. split; auto. rewrite C. split; intros H k HI; specialize (H k HI); rewrite EQ in *; auto.
    + destruct HS as (A & B & b & C & D). split; auto. split; [intros; rewrite EQ; auto|]. exists b. rewrite EQ. auto.
    + destruct HS as (A & ks & B & C & D). split; [intros; rewrite EQ; auto|]. exists ks. repeat split; auto; rewrite EQ; apply C.
Qed.

Lemma notify_phase : forall s k c p, phaseOf (thr s c) p -> phaseOf (thr (notify s k) c) p.
Proof. intros s k c p H. cbn. destruct (thr s c); auto. destruct (isReg (cvs s) k c); auto. Qed.
Lemma notify_blk : forall s k c, blockedOp (thr s c) -> blockedOp (thr (notify s k) c).
Proof. intros s k c H. cbn. destruct (thr s c); auto. destruct (isReg (cvs s) k c); auto. Qed.
Lemma changed_put : forall m k v, changed_only (find m) (find (put m k v)) k. Proof. intros m k v k' H. apply find_put_other. auto. Qed.

Ltac oth := intros; cbn; rewrite setThr_other by auto; auto.
Ltac blk c0 := let c' := fresh "c'" in intros c'; cbn; destruct (Nat.eq_dec c' c0) as [ -> |?]; [rewrite setThr_same; cbn; auto|rewrite setThr_other by auto; auto].
Lemma run_op_inv : forall s l c o s', lin_inv s l -> thr s c = Got o -> runOp s c o = Some s' -> exists x, visible x = [] /\ lin_inv s' (l ++ x).
Proof.
  intros s l c o s' HI HT H. pose proof HI as [HK HP HB HS]. assert (HC : phaseOf (thr s c) (PInv o)) by (rewrite HT; reflexivity).
  destruct o as [k v|k|k n|ks|ks|k|]; cbn [runOp] in H.
  - injection H as <-. exists [XLin c (OSet k v) RDone]. split; auto. eapply inv_point; eauto; cbn [kv thr withThr withKv notify]; try apply setThr_same; try (apply put_ok; auto).
    + intros c' p N Hp. rewrite setThr_other by auto. apply (notify_phase (withKv s (put (kv s) k v)) k c' p). auto.
    + intros c'. destruct (Nat.eq_dec c' c) as [ -> |N]; [rewrite setThr_same; exact I|rewrite setThr_other by auto]. apply (notify_blk (withKv s (put (kv s) k v)) k c'). apply HB.
    + cbn. split; auto. split; [apply find_put_same|apply changed_put].
  - destruct (find (kv s) k) as [v|] eqn:EF; injection H as <-.
    + exists [XLin c (OGet k) (RValue v)]. split; auto. eapply inv_point; eauto; cbn [kv thr withThr]; try apply setThr_same; [intros; rewrite setThr_other; auto|blk c|]. split; [intros ?; reflexivity|]. right. eauto.
    + exists []. split; auto. rewrite app_nil_r. eapply inv_silent; eauto.
      * intros c' p Hp. cbn. destruct (Nat.eq_dec c' c) as [ -> |N]; [rewrite setThr_same; rewrite HT in Hp; exact Hp|rewrite setThr_other by auto; auto].
      * blk c. left. eauto.
  - set (cur := match find (kv s) k with Some (b :: v) => stoll (b :: v) | _ => Some 0 end) in H. destruct cur as [z|] eqn:EC; [|discriminate]. destruct (in64 (n + z)) eqn:E64; [|discriminate]. injection H as <-.
    exists [XLin c (OAdd k n) (RInt (n + z))]. split; auto. eapply inv_point; eauto; cbn [kv thr withThr withKv notify]; try apply setThr_same; try (apply put_ok; auto).
    + intros c' p N Hp. rewrite setThr_other by auto. apply (notify_phase (withKv s (put (kv s) k (to_string (n + z)))) k c' p). auto.
    + intros c'. destruct (Nat.eq_dec c' c) as [ -> |N]; [rewrite setThr_same; exact I|rewrite setThr_other by auto]. apply (notify_blk (withKv s (put (kv s) k (to_string (n + z)))) k c'). apply HB.
    + cbn [seq_step]. exists z, (to_string (n + z)). split; [|split; [f_equal; lia|split; [apply find_put_same|split; [replace (z + n) with (n + z) by lia; apply to_string_decimal; auto|apply changed_put]]]].
      subst cur. destruct (find (kv s) k) as [[|b v]|] eqn:EF.
      * left. injection EC as <-. auto.
      * right. exists (b :: v). split; auto. apply stoll_sound in EC. apply EC.
      * left. injection EC as <-. auto.
  - injection H as <-. eexists [XLin c (OCheck ks) _]. split; auto. eapply inv_point; eauto; cbn [kv thr withThr]; try apply setThr_same; [intros; rewrite setThr_other; auto|blk c|].
    split; [intros ?; reflexivity|]. eexists. split; [reflexivity|]. apply all_present_ok.
  - destruct (filter (fun k => negb (present (kv s) k)) ks) as [|k0 r] eqn:EM; injection H as <-.
    + exists [XLin c (OWait ks) (RBool true)]. split; auto. eapply inv_point; eauto; cbn [kv thr withThr]; try apply setThr_same; [intros; rewrite setThr_other; auto|blk c|].
      split; [intros ?; reflexivity|]. exists true. split; auto. split; auto. intros _ k HI'. apply present_ok. destruct (present (kv s) k) eqn:E; auto. assert (In k []) by (rewrite <- EM; apply filter_In; rewrite E; auto). contradiction.
    + exists []. split; auto. rewrite app_nil_r. eapply inv_silent; eauto.
      * intros c' p Hp. cbn. destruct (Nat.eq_dec c' c) as [ -> |N]; [rewrite setThr_same; rewrite HT in Hp; exact Hp|rewrite setThr_other by auto; auto].
      * blk c. right. eauto.
  - injection H as <-. eexists [XLin c (ODelete k) _]. split; auto. eapply inv_point; eauto; cbn [kv thr withThr withKv]; try apply setThr_same; [apply erase_ok; auto|intros; rewrite setThr_other; auto|blk c|].
    split; [apply find_erase_same|]. split; [intros k' N; apply find_erase_other; auto|]. eexists. split; [reflexivity|]. apply present_ok.
  - injection H as <-. eexists [XLin c ONumKeys _]. split; auto. eapply inv_point; eauto; cbn [kv thr withThr]; try apply setThr_same; [intros; rewrite setThr_other; auto|blk c|].
    split; [intros ?; reflexivity|]. exists (map fst (kv s)). split; auto. split; [intros k; symmetry; apply find_in|]. rewrite map_length. reflexivity.
Qed.
Lemma finish_inv : forall s l c o m b, lin_inv s l -> phaseOf (thr s c) (PInv o) -> blockedOp (Reg o m) -> b = ready s o -> exists x, visible x = [] /\ lin_inv (finish s c o m b) (l ++ x).
Proof.
  intros s l c o m b HI HC HB Eb. pose proof HI as [HK HP HBl HS]. eexists [XLin c o _]. split; [reflexivity|]. eapply inv_point; eauto; cbn [kv thr withThr finish]; try apply setThr_same; [intros; rewrite setThr_other; auto|blk c|].
  subst b. unfold ready. destruct HB as [[k ->]|[ks ->]]; cbn [waitsFor forallb].
  - split; [intros ?; reflexivity|]. unfold present. destruct (find (kv s) k) as [v|]; cbn [andb]; [right; eauto|left; auto].
  - split; [intros ?; reflexivity|]. eexists. split; [reflexivity|]. apply all_present_ok.
Qed.
Lemma act_inv : forall s l a s' ev, lin_inv s l -> act s a = Some (s', ev) -> exists x, visible x = ev /\ lin_inv s' (l ++ x).
Proof.
  intros s l a s' ev HI H. pose proof HI as [HK HP HB HS]. destruct a as [c o|c|c|c|c|c]; cbn [act] in H.
  - destruct (thr s c) eqn:ET; try discriminate. injection H as <- <-. exists [XInv c o]. split; auto. constructor; auto.
    + intros c'. destruct (HP c') as (p & A & B). cbn. destruct (Nat.eq_dec c' c) as [ -> |N].
      * rewrite setThr_same. rewrite ET in B. cbn in B. subst p. exists (PInv o). split; [|reflexivity]. eapply ph_snoc; eauto. constructor.
      * rewrite setThr_other by auto. exists p. split; auto. apply phases_other; auto; intros; congruence.
    + blk c.
    + rewrite points_app. cbn [points]. rewrite app_nil_r. auto.
  - destruct (thr s c) eqn:ET; try discriminate. destruct (runOp s c o) as [s1|] eqn:ER; [|discriminate]. injection H as <- <-. eapply run_op_inv; eauto.
  - assert (G : forall o m, (thr s c = Reg o m \/ thr s c = Awake o m) -> exists x, visible x = [] /\ lin_inv (recheck s c o m) (l ++ x)).
    { intros o m HT. assert (HC : phaseOf (thr s c) (PInv o)) by (destruct HT as [HT|HT]; rewrite HT; reflexivity). assert (HBo : blockedOp (Reg o m)) by (specialize (HB c); destruct HT as [HT|HT]; rewrite HT in HB; exact HB).
      unfold recheck. destruct (ready s o) eqn:ER; [eapply finish_inv; eauto|]. exists []. split; auto. rewrite app_nil_r. eapply inv_silent; eauto.
      - intros c' p Hp. cbn. destruct (Nat.eq_dec c' c) as [ -> |N]; [rewrite setThr_same; destruct HT as [HT|HT]; rewrite HT in Hp; exact Hp|rewrite setThr_other by auto; auto].
      - blk c. }
    destruct (thr s c) eqn:ET; try discriminate; injection H as <- <-; apply G; auto.
  - destruct (thr s c) eqn:ET; try discriminate. injection H as <- <-. exists []. split; auto. rewrite app_nil_r. eapply inv_silent; eauto.
    + intros c' p Hp. cbn. destruct (Nat.eq_dec c' c) as [ -> |N]; [rewrite setThr_same; rewrite ET in Hp; exact Hp|rewrite setThr_other by auto; auto].
    + pose proof (HB c) as HBc. rewrite ET in HBc. blk c.
  - destruct (thr s c) eqn:ET; try discriminate. injection H as <- <-. pose proof (HB c) as HBc. rewrite ET in HBc. eapply finish_inv; eauto. rewrite ET. reflexivity.
  - destruct (thr s c) as [|o|o m|o m|o m|o r|] eqn:ET; try discriminate.
    assert (G : forall t, (t = Idle \/ t = Closed) -> exists x, visible x = [ERes c o r] /\ lin_inv (withThr s c t) (l ++ x)).
    { intros t Ht. exists [XRes c o r]. split; auto. constructor; auto.
      - intros c'. destruct (HP c') as (p & A & B). cbn. destruct (Nat.eq_dec c' c) as [ -> |N].
        + rewrite setThr_same. rewrite ET in B. cbn in B. subst p. exists PIdle. split; [|destruct Ht; subst t; reflexivity]. eapply ph_snoc; eauto. constructor.
        + rewrite setThr_other by auto. exists p. split; auto. apply phases_other; auto; intros; congruence.
      - blk c. destruct Ht; subst t; exact I.
      - rewrite points_app. cbn [points]. rewrite app_nil_r. auto. }
    destruct r; injection H as <- <-; apply G; auto.
Qed.
Lemma run_inv : forall acts s l s' ev, lin_inv s l -> run s acts = Some (s', ev) -> exists x, visible x = ev /\ lin_inv s' (l ++ x).
Proof.
  induction acts as [|a acts IH]; intros s l s' ev HI H; cbn [run] in H.
  - injection H as <- <-. exists []. rewrite app_nil_r. auto.
  - destruct (act s a) as [[s1 e1]|] eqn:EA; [|discriminate]. destruct (run s1 acts) as [[s2 e2]|] eqn:ER; [|discriminate]. injection H as <- <-.
    destruct (act_inv _ _ _ _ _ HI EA) as (x & V1 & I1). destruct (IH _ _ _ _ I1 ER) as (y & V2 & I2). exists (x ++ y). rewrite visible_app, V1, V2. rewrite app_assoc. auto.
Qed.
Lemma init_inv : lin_inv init [].
Proof.
  constructor; cbn; auto; [constructor| |].
  - intros c. exists PIdle. split; [constructor|reflexivity].
  - exists (fun _ => None). split; auto. constructor. intros k. reflexivity.
Qed.
Lemma store_linearizable : forall acts s tr, run init acts = Some (s, tr) -> linearizable tr.
Proof.
  intros acts s tr H. destruct (run_inv _ _ _ _ _ init_inv H) as (x & V & [HK HP HB (m & HS & _)]). exists x. split; auto. split; [intros c; destruct (HP c) as (p & A & _); eauto|]. exists m. exact HS.
Qed.
