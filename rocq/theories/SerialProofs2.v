From Coq Require Import ZArith List Bool Arith Lia ZifyBool ZifyNat.
From Verif Require Import SerialModel SerialSpec SerialProofs.
Import ListNotations.
Open Scope Z_scope.

(** * The whole file *)
Definition hdr (mem : memory) (p : name * nat) : nat := (40 + length (fst p) + 8 * length (tshape (mem (snd p))))%nat.
Lemma headers_length : forall mem ms d, length (headers mem ms d) = list_sum (map (hdr mem) ms).
Proof.
  intros mem ms. induction ms as [|[n i] ms IH]; intros d; [reflexivity|]. cbn [headers map list_sum fold_right]. rewrite !app_length, !le64_length, flat_le64_length, IH. unfold hdr. cbn [fst snd]. unfold list_sum. lia.
Qed.
Lemma headerSize_fold : forall mem ms s, 0 <= s -> s + Z.of_nat (list_sum (map (hdr mem) ms)) < 2 ^ 64 ->
  fold_left (fun s p => u64 (s + 40 + Z.of_nat (length (fst p)) + Z.of_nat (length (tshape (mem (snd p)))) * 8)) ms s = s + Z.of_nat (list_sum (map (hdr mem) ms)).
Proof.
  intros mem ms. induction ms as [|p ms IH]; intros s H0 H; [cbn; lia|].
  cbn [fold_left]. assert (E : list_sum (map (hdr mem) (p :: ms)) = (hdr mem p + list_sum (map (hdr mem) ms))%nat) by reflexivity. assert (EP : hdr mem p = (40 + length (fst p) + 8 * length (tshape (mem (snd p))))%nat) by reflexivity.
  rewrite E in H |- *. destruct p as [n i]. cbn [fst snd] in *. rewrite u64_small by lia. rewrite IH; lia.
Qed.
Lemma headerSize_ok : forall mem ms, fits mem ms -> headerSize mem ms = Z.of_nat (header_bytes mem ms).
Proof.
  intros mem ms H. unfold headerSize. unfold fits, header_bytes in *. fold (hdr mem) in *. change (map (fun p : list byte * nat => (40 + length (fst p) + 8 * length (tshape (mem (snd p))))%nat) ms) with (map (hdr mem) ms) in *.
  rewrite headerSize_fold by lia. lia.
Qed.
Lemma save_data : forall mem ms, Forall (fun p => good_tensor (mem (snd p))) ms ->
  flat_map (fun p : name * nat => firstn (Z.to_nat (nbytes (mem (snd p)))) (tdata (mem (snd p)))) ms = dataOf mem ms.
Proof.
  intros mem ms H. induction H as [|p ms HG H IH]; [reflexivity|]. unfold dataOf in *. cbn [flat_map]. rewrite IH. f_equal. rewrite good_nbytes, Nat2Z.id by auto. apply firstn_all.
Qed.
Lemma save_eq : forall mem ms, good_module mem ms -> fits mem ms ->
  save mem ms = (le64 MAGIC ++ le64 VERSION ++ le64 (Z.of_nat (length ms))) ++ headers mem ms (Z.of_nat (header_bytes mem ms)) ++ dataOf mem ms.
Proof. intros mem ms [_ HG] HF. unfold save. rewrite headerSize_ok, save_data by auto. reflexivity. Qed.
Lemma save_length : forall mem ms, good_module mem ms -> fits mem ms -> length (save mem ms) = (header_bytes mem ms + list_sum (map (size mem) ms))%nat.
Proof.
  intros mem ms HG HF. rewrite save_eq by auto. rewrite !app_length, !le64_length, headers_length, dataOf_length. unfold header_bytes. change (map (fun p : list byte * nat => (40 + length (fst p) + 8 * length (tshape (mem (snd p))))%nat) ms) with (map (hdr mem) ms). lia.
Qed.
Lemma hdr_many : forall mem ms, (length ms <= list_sum (map (hdr mem) ms))%nat.
Proof. intros mem ms. induction ms as [|p ms IH]; [cbn; lia|]. change (list_sum (map (hdr mem) (p :: ms))) with (hdr mem p + list_sum (map (hdr mem) ms))%nat. cbn [length]. unfold hdr at 1. lia. Qed.
Lemma header_sum : forall mem ms, header_bytes mem ms = (24 + list_sum (map (hdr mem) ms))%nat. Proof. reflexivity. Qed.

Definition missing (ms' : states) (keys : list name) : bool := existsb (fun p => negb (existsb (name_eqb (fst p)) keys)) ms'.
Lemma load_exact0 : forall mem ms ms' mem2 strict k, good_module mem ms -> fits mem ms -> (header_bytes mem ms <= k)%nat -> (k <= length (save mem ms))%nat ->
  load (firstn k (save mem ms)) ms' mem2 strict
  = Some (let '(ok, m) := foldSpec ms' strict k mem ms (header_bytes mem ms) (true, mem2) in (if strict && missing ms' (rev (map fst ms)) then false else ok, m)).
Proof.
  intros mem ms ms' mem2 strict k HG HF Hk1 Hk2. pose proof (save_length mem ms HG HF) as HL. pose proof HF as HFB. unfold fits in HFB.
  change (map (fun p : name * nat => length (tdata (mem (snd p)))) ms) with (map (size mem) ms) in HFB. pose proof (hdr_many mem ms) as HM. pose proof (header_sum mem ms) as HS.
  unfold load. assert (EL : length (firstn k (save mem ms)) = k) by (rewrite firstn_length; lia). rewrite EL. rewrite (proj2 (Nat.eqb_neq k 0)) by lia.
  pose proof (save_eq mem ms HG HF) as ES.
  assert (R0 : rdU64 (firstn k (save mem ms)) 0 = Some MAGIC).
  { rewrite ES. rewrite <- app_assoc. change (rdU64 (firstn k ([] ++ le64 MAGIC ++ ((le64 VERSION ++ le64 (Z.of_nat (length ms))) ++ headers mem ms (Z.of_nat (header_bytes mem ms)) ++ dataOf mem ms))) 0 = Some MAGIC).
    rewrite rdU64_mid; [reflexivity|reflexivity|cbn; lia]. }
  assert (R1 : rdU64 (firstn k (save mem ms)) 8 = Some VERSION).
  { rewrite ES. rewrite <- !app_assoc. rewrite rdU64_mid; [reflexivity|reflexivity|rewrite le64_length; lia]. }
  assert (R2 : rdU64 (firstn k (save mem ms)) 16 = Some (Z.of_nat (length ms))).
  { rewrite ES. rewrite (app_assoc (le64 MAGIC)), <- (app_assoc (le64 MAGIC ++ le64 VERSION)). rewrite rdU64_mid; [rewrite u64_small by lia; reflexivity|reflexivity|rewrite app_length, !le64_length; lia]. }
  rewrite R0, Z.eqb_refl. cbn [negb]. rewrite R1, Z.eqb_refl. cbn [negb]. rewrite R2.
  assert (HLoop : loadLoop k (firstn k (save mem ms)) ms' strict (Z.of_nat (length ms)) 24 [] (true, mem2) = Some (rev (map fst ms) ++ [], foldSpec ms' strict k mem ms (header_bytes mem ms) (true, mem2))).
  { change 24 with (Z.of_nat (length (le64 MAGIC ++ le64 VERSION ++ le64 (Z.of_nat (length ms))))).
    apply (loop_saved ms' strict k mem ms (save mem ms) _ (dataOf mem ms) ((le64 MAGIC ++ le64 VERSION ++ le64 (Z.of_nat (length ms))) ++ headers mem ms (Z.of_nat (header_bytes mem ms))) []); auto.
    - apply HG.
    - rewrite app_nil_r, ES. rewrite <- !app_assoc. reflexivity.
    - rewrite !app_length, !le64_length, headers_length. lia.
    - lia.
    - rewrite headers_length, !app_length, !le64_length. lia.
    - lia. }
  rewrite HLoop, app_nil_r. destruct (foldSpec ms' strict k mem ms (header_bytes mem ms) (true, mem2)) as [ok m]. reflexivity.
Qed.

(** * What the loop does to the module *)
Section Fold.
Variables (ms' : states) (strict : bool) (k : nat) (mem : memory).
Notation fold := (foldSpec ms' strict k mem). Notation step := (stepSpec ms' strict k mem).
Lemma step_type : forall p d st id, same_type (snd st id) (snd (step p d st) id).
Proof.
  intros p d [ok m] id. unfold stepSpec. destruct (lookup ms' (fst p)) as [i|]; [|split; reflexivity]. destruct (_ && _); [|split; reflexivity]. cbn [snd]. destruct (_ =? 0)%nat; [split; reflexivity|apply setData_type].
Qed.
Lemma same_type_trans : forall a b c, same_type a b -> same_type b c -> same_type a c. Proof. intros a b c [H1 H2] [H3 H4]. split; congruence. Qed.
Lemma same_type_sym : forall a b, same_type a b -> same_type b a. Proof. intros a b [H1 H2]. split; congruence. Qed.
Lemma fold_type : forall ms d st id, same_type (snd st id) (snd (fold ms d st) id).
Proof. induction ms as [|p ms IH]; intros d st id; [split; reflexivity|]. cbn [foldSpec]. eapply same_type_trans; [apply step_type|apply IH]. Qed.
(** Accepting the tensor [p] whose data starts at [d]. *)
Definition accepts (m : memory) (p : name * nat) (d : nat) : Prop :=
  match lookup ms' (fst p) with None => strict = false | Some id => same_type (mem (snd p)) (m id) /\ (d + size mem p <= k)%nat end.
Lemma accepts_type : forall m m' p d, (forall id, same_type (m id) (m' id)) -> (accepts m p d <-> accepts m' p d).
Proof.
  intros m m' p d H. unfold accepts. destruct (lookup ms' (fst p)) as [i|]; [|reflexivity]. specialize (H i). split; intros [H1 H2]; split; auto; [eapply same_type_trans; eauto|eapply same_type_trans; [eauto|apply same_type_sym; auto]].
Qed.
Lemma step_ok : forall p d ok (m : memory), fst (step p d (ok, m)) = true <-> ok = true /\ accepts m p d.
Proof.
  intros p d ok m. unfold stepSpec, accepts. cbn [fst snd]. destruct (lookup ms' (fst p)) as [i|].
  - destruct (typeb (mem (snd p)) (m i)) eqn:ET; cbn [andb].
    + apply typeb_ok in ET. destruct (Nat.leb_spec (d + size mem p) k); cbn [fst]; split; intros; try tauto; try discriminate. destruct H0 as [_ [_ H0]]. lia.
    + cbn [fst]. split; [discriminate|]. intros [_ [H _]]. apply typeb_ok in H. congruence.
  - destruct strict; cbn [fst]; split; intros; try tauto; try discriminate. destruct H. discriminate.
Qed.
Lemma step_mem : forall p d ok (m : memory), forall id, snd (step p d (ok, m)) id = m id \/ (lookup ms' (fst p) = Some id /\ same_type (mem (snd p)) (m id) /\ (d + size mem p <= k)%nat /\ snd (step p d (ok, m)) id = mkT (tshape (m id)) (tdtype (m id)) (tdata (mem (snd p)))).
Proof.
  intros p d ok m id. unfold stepSpec. cbn [fst snd]. destruct (lookup ms' (fst p)) as [i|]; [|left; reflexivity].
  destruct (typeb (mem (snd p)) (m i)) eqn:ET; cbn [andb]; [|left; reflexivity]. destruct (Nat.leb_spec (d + size mem p) k); cbn [snd]; [|left; reflexivity]. destruct (size mem p =? 0)%nat; [left; reflexivity|].
  destruct (Nat.eq_dec id i) as [ -> |N]; [right|left; apply setData_other; auto]. apply typeb_ok in ET. repeat split; auto; try apply ET. apply setData_same.
Qed.
Lemma fold_ok : forall ms d ok (m : memory), fst (fold ms d (ok, m)) = true <-> ok = true /\ forall pre p post, ms = pre ++ p :: post -> accepts m p (d + list_sum (map (size mem) pre)).
Proof.
  induction ms as [|p ms IH]; intros d ok m.
  - cbn. split; [|tauto]. intros. split; auto. intros [|] ? ? E; discriminate.
  - cbn [foldSpec]. pose proof (step_ok p d ok m) as HS. pose proof (step_type p d (ok, m)) as HT. destruct (step p d (ok, m)) as [ok1 m1]. cbn [fst snd] in *. rewrite IH, HS. split.
    + intros [[H1 H2] H3]. split; auto. intros [|q pre] p0 post E; injection E as <- E.
      * rewrite Nat.add_0_r. auto.
      * apply (accepts_type m m1); auto. change (list_sum (map (size mem) (p :: pre))) with (size mem p + list_sum (map (size mem) pre))%nat. rewrite Nat.add_assoc. eapply H3; eauto.
    + intros [H1 H2]. split; [split; auto|].
      * specialize (H2 [] p ms eq_refl). cbn [map list_sum fold_right] in H2. rewrite Nat.add_0_r in H2. auto.
      * intros pre p0 post E. apply (accepts_type m m1); auto. specialize (H2 (p :: pre) p0 post). rewrite E in H2. specialize (H2 eq_refl). change (list_sum (map (size mem) (p :: pre))) with (size mem p + list_sum (map (size mem) pre))%nat in H2. rewrite Nat.add_assoc in H2. auto.
Qed.
(** Tensors no accepted entry is for are left alone. *)
Lemma fold_other : forall ms d ok (m : memory) id,
  (forall pre p post, ms = pre ++ p :: post -> lookup ms' (fst p) = Some id -> same_type (mem (snd p)) (m id) -> (d + list_sum (map (size mem) pre) + size mem p <= k)%nat -> False) -> snd (fold ms d (ok, m)) id = m id.
Proof.
  induction ms as [|p ms IH]; intros d ok m id H; [reflexivity|]. cbn [foldSpec]. pose proof (step_mem p d ok m id) as HM. pose proof (step_type p d (ok, m) id) as HT. destruct (step p d (ok, m)) as [ok1 m1]. cbn [fst snd] in *.
  assert (E : m1 id = m id). { destruct HM as [HM|(H1 & H2 & H3 & _)]; auto. exfalso. apply (H [] p ms eq_refl H1 H2). cbn. lia. }
  rewrite IH; auto. intros pre p0 post Eq HL HT2 HK. rewrite E in HT2. apply (H (p :: pre) p0 post); auto; [rewrite Eq; reflexivity|]. change (list_sum (map (size mem) (p :: pre))) with (size mem p + list_sum (map (size mem) pre))%nat. lia.
Qed.
(** An accepted tensor gets its data, if all saved tensors for its target agree. *)
Lemma fold_keep : forall ms d ok (m : memory) id t, m id = t -> (forall q, In q ms -> lookup ms' (fst q) = Some id -> mem (snd q) = t) -> snd (fold ms d (ok, m)) id = t.
Proof.
  induction ms as [|p ms IH]; intros d ok m id t E HU; [exact E|]. cbn [foldSpec]. pose proof (step_mem p d ok m id) as HM. destruct (step p d (ok, m)) as [ok1 m1]. cbn [fst snd] in *.
  apply IH; [|intros q Hq; apply HU; right; auto]. destruct HM as [HM|(H1 & _ & _ & H2)]; [congruence|]. rewrite H2, E. rewrite (HU p (or_introl eq_refl) H1). destruct t; reflexivity.
Qed.
Lemma fold_data : forall ms d ok (m : memory) id pre p post, ms = pre ++ p :: post -> lookup ms' (fst p) = Some id -> same_type (mem (snd p)) (m id) ->
  (d + list_sum (map (size mem) pre) + size mem p <= k)%nat -> (size mem p = 0%nat -> tdata (m id) = []) ->
  (forall q, In q ms -> lookup ms' (fst q) = Some id -> mem (snd q) = mem (snd p)) -> snd (fold ms d (ok, m)) id = mem (snd p).
Proof.
  induction ms as [|p0 ms IH]; intros d ok m id pre p post E HL HT HK HZ HU; [destruct pre; discriminate|].
  destruct pre as [|q pre]; injection E as -> E.
  - cbn [foldSpec]. assert (ES : snd (step p d (ok, m)) id = mem (snd p)).
    { unfold stepSpec. cbn [fst snd]. rewrite HL. rewrite (proj2 (typeb_ok _ _) HT). cbn [andb map list_sum fold_right] in *. rewrite (proj2 (Nat.leb_le _ _)) by lia. cbn [snd]. destruct (Nat.eqb_spec (size mem p) 0) as [E0|E0].
      - specialize (HZ E0). destruct HT as [HT1 HT2]. unfold size in E0. apply length_zero_iff_nil in E0. destruct (m id), (mem (snd p)); cbn in *. congruence.
      - rewrite setData_same. destruct HT as [HT1 HT2]. destruct (m id), (mem (snd p)); cbn in *. congruence. }
    destruct (step p d (ok, m)) as [ok1 m1]. cbn [snd] in *. apply fold_keep; auto. intros q Hq. apply HU. right. auto.
  - cbn [foldSpec]. pose proof (step_mem q d ok m id) as HM. pose proof (step_type q d (ok, m) id) as HST. destruct (step q d (ok, m)) as [ok1 m1]. cbn [fst snd] in *.
    apply (IH _ ok1 m1 id pre p post); auto.
    + eapply same_type_trans; eauto.
    + change (list_sum (map (size mem) (q :: pre))) with (size mem q + list_sum (map (size mem) pre))%nat in HK. lia.
    + intros E0. destruct HM as [HM|(H1 & _ & _ & H2)]; [rewrite HM; auto|]. rewrite H2. cbn [tdata]. rewrite (HU q (or_introl eq_refl) H1). unfold size in E0. apply length_zero_iff_nil. auto.
    + intros q0 Hq. apply HU. right. auto.
Qed.
End Fold.

(** * Names *)
Lemma NoDup_split_eq : forall (ms : states) pre p post pre' post', NoDup (map fst ms) -> ms = pre' ++ p :: post' -> ms = pre ++ p :: post -> pre' = pre.
Proof.
  intros ms pre p post pre' post' HN E1 E2. assert (HM : NoDup ms) by (eapply NoDup_map_inv; eauto). clear HN. subst ms. revert pre HM E2. induction pre' as [|q pre' IH]; intros pre HM E2.
  - destruct pre as [|q pre]; auto. cbn in E2. injection E2 as <- E2. inversion HM as [|? ? HX HY]; subst. exfalso. apply HX. apply in_or_app. right. left. reflexivity.
  - destruct pre as [|q' pre]; cbn in E2; injection E2 as E3 E2.
    + subst q. inversion HM as [|? ? HX HY]; subst. exfalso. apply HX. apply in_or_app. right. left. reflexivity.
    + subst q'. f_equal. inversion HM; subst. apply IH; auto.
Qed.
Lemma lookup_none : forall ms n, lookup ms n = None <-> ~ In n (map fst ms).
Proof.
  induction ms as [|[m i] ms IH]; intros n; [cbn; tauto|]. cbn [lookup map fst]. destruct (lookup ms n) as [j|] eqn:E.
  - split; [discriminate|]. intros H. exfalso. apply H. right. destruct (in_dec (list_eq_dec Z.eq_dec) n (map fst ms)) as [HI|HI]; auto. apply IH in HI. congruence.
  - unfold name_eqb. destruct (list_eq_dec Z.eq_dec m n) as [ -> |N]; split; intros H; try discriminate; auto.
    + exfalso. apply H. left. reflexivity.
    + intros [H1|H1]; [contradiction|]. apply (proj1 (IH n)) in H1; auto.
Qed.
Lemma lookup_in : forall ms n i, NoDup (map fst ms) -> (lookup ms n = Some i <-> In (n, i) ms).
Proof.
  induction ms as [|[m j] ms IH]; intros n i HN; [cbn; split; [discriminate|tauto]|]. inversion HN as [|? ? H1 H2]; subst x l. cbn [lookup]. destruct (lookup ms n) as [j'|] eqn:E.
  - rewrite <- E. rewrite IH by auto. split; [right; auto|]. intros [HI|HI]; auto. injection HI as -> ->. exfalso. apply H1. apply IH in E; auto. apply (in_map fst) in E. auto.
  - pose proof E as E'. apply lookup_none in E'. unfold name_eqb. destruct (list_eq_dec Z.eq_dec m n) as [ -> |N].
    + split; [intros HS; injection HS as ->; left; reflexivity|]. intros [HI|HI]; [injection HI as ->; reflexivity|]. exfalso. apply H1. apply (in_map fst) in HI. auto.
    + split; [discriminate|]. intros [HI|HI]; [injection HI as -> ->; contradiction|]. exfalso. apply E'. apply (in_map fst) in HI. auto.
Qed.
Lemma missing_false : forall ms' keys, missing ms' keys = false <-> forall q, In q ms' -> In (fst q) keys.
Proof.
  intros ms' keys. unfold missing. split.
  - intros H q HI. destruct (existsb (name_eqb (fst q)) keys) eqn:E.
    + apply existsb_exists in E. destruct E as (x & H1 & H2). apply name_eqb_eq in H2. subst. auto.
    + assert (existsb (fun p => negb (existsb (name_eqb (fst p)) keys)) ms' = true) by (apply existsb_exists; exists q; rewrite E; auto). congruence.
  - intros H. apply not_true_is_false. intros HE. apply existsb_exists in HE. destruct HE as (q & H1 & H2). apply negb_true_iff in H2. specialize (H q H1).
    assert (existsb (name_eqb (fst q)) keys = true) by (apply existsb_exists; exists (fst q); split; auto; apply name_eqb_eq; reflexivity). congruence.
Qed.

(** * Loading a saved file, whole or cut behind the headers *)
Lemma load_saved : forall mem ms ms' mem2 strict k, good_module mem ms -> fits mem ms -> good_module mem2 ms' -> (header_bytes mem ms <= k)%nat ->
  exists ok mem', load (firstn k (save mem ms)) ms' mem2 strict = Some (ok, mem') /\
    (ok = true <-> (forall p id, In p ms -> In (fst p, id) ms' -> same_type (mem (snd p)) (mem2 id) /\ ends_by mem ms p k) /\
                   (strict = true -> forall n, In n (map fst ms) <-> In n (map fst ms'))) /\
    (forall p id, In p ms -> In (fst p, id) ms' -> same_type (mem (snd p)) (mem2 id) -> ends_by mem ms p k -> (forall q, In q ms -> In (fst q, id) ms' -> mem (snd q) = mem (snd p)) -> mem' id = mem (snd p)) /\
    (forall id, (forall p, In p ms -> In (fst p, id) ms' -> same_type (mem (snd p)) (mem2 id) -> ends_by mem ms p k -> False) -> mem' id = mem2 id).
Proof.
  intros mem ms ms' mem2 strict k HG HF HG2 Hk.
  assert (W : forall k, (header_bytes mem ms <= k)%nat -> (k <= length (save mem ms))%nat ->
    exists ok mem', load (firstn k (save mem ms)) ms' mem2 strict = Some (ok, mem') /\
    (ok = true <-> (forall p id, In p ms -> In (fst p, id) ms' -> same_type (mem (snd p)) (mem2 id) /\ ends_by mem ms p k) /\
                   (strict = true -> forall n, In n (map fst ms) <-> In n (map fst ms'))) /\
    (forall p id, In p ms -> In (fst p, id) ms' -> same_type (mem (snd p)) (mem2 id) -> ends_by mem ms p k -> (forall q, In q ms -> In (fst q, id) ms' -> mem (snd q) = mem (snd p)) -> mem' id = mem (snd p)) /\
    (forall id, (forall p, In p ms -> In (fst p, id) ms' -> same_type (mem (snd p)) (mem2 id) -> ends_by mem ms p k -> False) -> mem' id = mem2 id)).
  { clear k Hk. intros k Hk Hk2. rewrite load_exact0 by auto. pose proof (fold_ok ms' strict k mem ms (header_bytes mem ms) true mem2) as HO.
    pose proof (fold_other ms' strict k mem ms (header_bytes mem ms) true mem2) as HU. pose proof (fold_data ms' strict k mem ms (header_bytes mem ms) true mem2) as HD.
    destruct (foldSpec ms' strict k mem ms (header_bytes mem ms) (true, mem2)) as [ok m]. cbn [fst snd] in *.
    pose proof HG as [HN _]. pose proof HG2 as [HN2 HG2']. rewrite Forall_forall in HG2'.
    exists (if strict && missing ms' (rev (map fst ms)) then false else ok), m. split; [reflexivity|]. split; [|split].
    - assert (HMs : missing ms' (rev (map fst ms)) = false <-> forall n, In n (map fst ms') -> In n (map fst ms)).
      { rewrite missing_false. split; intros H.
        - intros n HI. apply in_map_iff in HI. destruct HI as (q & <- & HI). apply in_rev. apply H. auto.
        - intros q HI. rewrite <- in_rev. apply H. apply in_map. auto. }
      assert (HAcc : ok = true <-> (forall p id, In p ms -> In (fst p, id) ms' -> same_type (mem (snd p)) (mem2 id) /\ ends_by mem ms p k) /\ (strict = true -> forall n, In n (map fst ms) -> In n (map fst ms'))).
      { rewrite HO. split.
        - intros [_ H]. split.
          + intros p id HI HI'. apply in_split in HI. destruct HI as (pre & post & E). specialize (H pre p post E). unfold accepts in H. apply lookup_in in HI'; auto. rewrite HI' in H. destruct H as [H1 H2]. split; auto. exists pre, post. split; auto.
          + intros HS n HI. apply in_map_iff in HI. destruct HI as (p & <- & HI). apply in_split in HI. destruct HI as (pre & post & E). specialize (H pre p post E). unfold accepts in H. destruct (lookup ms' (fst p)) as [i|] eqn:EL; [|congruence]. apply lookup_in in EL; auto. apply (in_map fst) in EL. auto.
        - intros [H1 H2]. split; auto. intros pre p post E. assert (HI : In p ms) by (rewrite E; apply in_or_app; right; left; reflexivity). unfold accepts. destruct (lookup ms' (fst p)) as [i|] eqn:EL.
          + apply lookup_in in EL; auto. specialize (H1 p i HI EL). destruct H1 as [H1 (pre' & post' & E' & H3)]. split; auto.
            assert (pre' = pre). { eapply NoDup_split_eq; [exact HN| |]; eauto. } subst pre'. exact H3.
          + destruct strict eqn:ES; auto. exfalso. apply lookup_none in EL. apply EL. apply H2; auto. apply in_map. auto. }
      destruct strict; cbn [andb]; [destruct (missing ms' (rev (map fst ms))) eqn:EM|].
      + split; [discriminate|]. intros [_ H]. exfalso. assert (true = false) by (apply HMs; intros n HI; apply H; auto). discriminate.
      + rewrite HAcc. assert (HM1 := proj1 HMs eq_refl). split; intros [H1 H2]; split; auto; intros _ n; [split; [apply H2; auto|apply HM1]|apply H2; auto].
      + rewrite HAcc. split; intros [H1 H2]; split; auto; discriminate.
    - intros p id HI HI' HT (pre & post & E & HE) HQ. apply (HD id pre p post E); auto.
      + apply lookup_in; auto.
      + intros E0. assert (HGp : good_tensor (mem2 id)) by (apply (HG2' (fst p, id)); auto). assert (HGq : good_tensor (mem (snd p))) by (destruct HG as [_ HGF]; rewrite Forall_forall in HGF; auto).
        destruct HGp as (_ & _ & HL & _). destruct HGq as (_ & _ & HL2 & _). destruct HT as [T1 T2]. rewrite <- T1, <- T2, <- HL2 in HL. unfold size in E0. apply length_zero_iff_nil. lia.
      + intros q Hq HL. apply HQ; auto. apply lookup_in in HL; auto.
    - intros id H. apply HU. intros pre p post E HL HT HE. apply lookup_in in HL; auto. apply (H p); auto; [rewrite E; apply in_or_app; right; left; reflexivity|exists pre, post; split; auto]. }
  destruct (le_lt_dec k (length (save mem ms))) as [H|H]; [apply W; auto|].
  assert (EQ : forall p, In p ms -> (ends_by mem ms p k <-> ends_by mem ms p (length (save mem ms)))).
  { intros p _. rewrite save_length by auto. split; intros (pre & post & E & HE); exists pre, post; split; auto.
    - clear HE. subst ms. rewrite map_app, list_sum_app. change (list_sum (map (size mem) (p :: post))) with (length (tdata (mem (snd p))) + list_sum (map (size mem) post))%nat. change (map (fun q : name * nat => length (tdata (mem (snd q)))) pre) with (map (size mem) pre). lia.
    - rewrite save_length in H by auto. lia. }
  destruct (W (length (save mem ms))) as (ok & mem' & H1 & H2 & H3 & H4); auto.
  { rewrite save_length by auto. lia. }
  exists ok, mem'. split; [rewrite firstn_all2 by lia; rewrite firstn_all in H1; exact H1|]. split; [|split].
  - rewrite H2. split; intros [A B]; split; auto; intros p id HI HI'; destruct (A p id HI HI'); split; auto; apply EQ; auto.
  - intros p id HI HI' HT HE HQ. apply H3; auto. apply EQ; auto.
  - intros id A. apply H4. intros p HI HI' HT HE. apply (A p); auto. apply EQ; auto.
Qed.

(** * Cutting the file inside the headers *)
Lemma rd_short : forall f off n, 0 <= off -> Z.of_nat (length f) < off + n -> rdBytes f off n = None.
Proof. intros f off n H0 H. unfold rdBytes. destruct ((0 <=? off) && (0 <=? n) && (off + n <=? Z.of_nat (length f))) eqn:E; auto. lia. Qed.
Lemma rdU64_short : forall f off, 0 <= off -> Z.of_nat (length f) < off + 8 -> rdU64 f off = None.
Proof. intros f off H0 H. unfold rdU64. rewrite rd_short by lia. reflexivity. Qed.
Lemma rdU64_range : forall a n t dofs c k, (length a + 40 <= k)%nat -> Z.of_nat (length n) < 2 ^ 64 -> Z.of_nat (length (tshape t)) < 2 ^ 64 ->
  rdU64 (firstn k (a ++ entryBytes n t dofs ++ c)) (Z.of_nat (length a)) = Some (Z.of_nat (length n)) /\
  rdU64 (firstn k (a ++ entryBytes n t dofs ++ c)) (Z.of_nat (length a) + 8) = Some (Z.of_nat (length (tshape t))).
Proof.
  intros a n t dofs c k HL H1 H2. split.
  - unfold entryBytes. rewrite <- !app_assoc. rewrite rdU64_mid; [rewrite u64_small by lia; reflexivity|reflexivity|lia].
  - unfold entryBytes. rewrite <- !app_assoc. rewrite (app_assoc a (le64 (Z.of_nat (length n)))). rewrite rdU64_mid; [rewrite u64_small by lia; reflexivity| |]; rewrite app_length, le64_length; lia.
Qed.
Lemma readEntry_cut : forall a n t dofs c k, (k < length a + length (entryBytes n t dofs))%nat -> (length a <= k)%nat -> (k <= length (a ++ entryBytes n t dofs ++ c))%nat ->
  Z.of_nat (length n) < 2 ^ 64 -> Z.of_nat (length (tshape t)) < 2 ^ 64 -> readEntry (firstn k (a ++ entryBytes n t dofs ++ c)) (Z.of_nat (length a)) = None.
Proof.
  intros a n t dofs c k HK HA HK2 HN HS. assert (EL : length (firstn k (a ++ entryBytes n t dofs ++ c)) = k) by (rewrite firstn_length; lia). rewrite entry_length in HK.
  destruct (le_lt_dec (length a + 40) k) as [H|H].
  - destruct (rdU64_range a n t dofs c k H HN HS) as [R1 R2]. unfold readEntry. rewrite R1, R2.
    destruct (rdU64 _ (Z.of_nat (length a) + 16)); auto. destruct (rdU64 _ (Z.of_nat (length a) + 24)); auto. destruct (rdU64 _ (Z.of_nat (length a) + 32)); auto.
    destruct (rdBytes _ (Z.of_nat (length a) + 40) _); auto. rewrite rd_short; auto; lia.
  - unfold readEntry. rewrite (rdU64_short _ (Z.of_nat (length a) + 32)) by lia.
    destruct (rdU64 _ (Z.of_nat (length a))); auto. destruct (rdU64 _ (Z.of_nat (length a) + 8)); auto. destruct (rdU64 _ (Z.of_nat (length a) + 16)); auto. destruct (rdU64 _ (Z.of_nat (length a) + 24)); auto.
Qed.
(** The data of an entry lies behind the cut, so it is rejected or empty. *)
Lemma loop_cut : forall ms' strict k mem rest full pre tail pre2 tail2 dofs keys st fuel, Forall (fun p => good_tensor (mem (snd p))) rest ->
  full = pre ++ headers mem rest (Z.of_nat dofs) ++ tail -> full = pre2 ++ dataOf mem rest ++ tail2 -> dofs = length pre2 ->
  Z.of_nat (length full) < 2 ^ 63 -> (k <= length full)%nat -> (length pre <= k < length pre + length (headers mem rest (Z.of_nat dofs)))%nat ->
  loadLoop fuel (firstn k full) ms' strict (Z.of_nat (length rest)) (Z.of_nat (length pre)) keys st = None.
Proof.
  intros ms' strict k mem rest. induction rest as [|[n i] rest IH]; intros full pre tail pre2 tail2 dofs keys st fuel HG HF HF2 HD HB Hk HH.
  - cbn in HH. lia.
  - inversion HG as [|? ? HG1 HG2]; subst x l. cbn [snd] in HG1. destruct fuel as [|fuel]; [cbn [loadLoop]; rewrite (proj2 (Z.leb_gt _ 0)) by (cbn [length]; lia); reflexivity|].
    cbn [loadLoop]. rewrite (proj2 (Z.leb_gt _ 0)) by (cbn [length]; lia).
    assert (EH : headers mem ((n, i) :: rest) (Z.of_nat dofs) = entryBytes n (mem i) (Z.of_nat dofs) ++ headers mem rest (Z.of_nat (dofs + size mem (n, i)))).
    { cbn [headers]. unfold entryBytes. rewrite <- !app_assoc. repeat f_equal. rewrite good_nbytes by auto. unfold size. cbn [snd]. rewrite u64_small; [lia|].
      assert (length full = length pre2 + (length (tdata (mem i)) + length (dataOf mem rest)) + length tail2)%nat by (rewrite HF2; unfold dataOf; cbn [flat_map snd]; rewrite !app_length; lia). lia. }
    rewrite EH in HF, HH. rewrite app_length in HH. rewrite <- app_assoc in HF.
    assert (HL2 : (dofs + length (tdata (mem i)) <= length full)%nat) by (rewrite HF2; unfold dataOf; cbn [flat_map snd]; rewrite !app_length; lia).
    assert (HLE : (length pre + length (entryBytes n (mem i) (Z.of_nat dofs)) <= length full)%nat) by (rewrite HF; rewrite !app_length; lia).
    destruct (le_lt_dec (length pre + length (entryBytes n (mem i) (Z.of_nat dofs))) k) as [HC|HC].
    + assert (ER : readEntry (firstn k full) (Z.of_nat (length pre)) = Some (mkE n (tshape (mem i)) (tdtype (mem i)) (Z.of_nat dofs) (nbytes (mem i)), Z.of_nat (length (pre ++ entryBytes n (mem i) (Z.of_nat dofs))))).
      { rewrite HF. apply readEntry_mid; auto; lia. }
      assert (EA : applyEntry (firstn k full) ms' strict (mkE n (tshape (mem i)) (tdtype (mem i)) (Z.of_nat dofs) (nbytes (mem i))) st = Some (stepSpec ms' strict k mem (n, i) dofs st)).
      { apply (apply_saved ms' strict k mem (n, i) st full pre2 (dataOf mem rest ++ tail2) dofs); auto. rewrite HF2. unfold dataOf. cbn [flat_map snd]. rewrite <- app_assoc. reflexivity. }
      rewrite ER, EA. replace (Z.of_nat (length ((n, i) :: rest)) - 1) with (Z.of_nat (length rest)) by (cbn [length]; lia).
      apply (IH full (pre ++ entryBytes n (mem i) (Z.of_nat dofs)) tail (pre2 ++ tdata (mem i)) tail2 (dofs + size mem (n, i))%nat); auto.
      * rewrite HF. rewrite <- !app_assoc. reflexivity.
      * rewrite HF2. unfold dataOf. cbn [flat_map snd]. rewrite <- !app_assoc. reflexivity.
      * rewrite app_length. unfold size. cbn [snd]. lia.
      * rewrite app_length. lia.
    + rewrite entry_length in *. assert (ER : readEntry (firstn k full) (Z.of_nat (length pre)) = None).
      { rewrite HF. apply readEntry_cut; [rewrite entry_length; lia|lia|rewrite <- HF; auto|lia|lia]. }
      rewrite ER. reflexivity.
Qed.
Lemma load_cut : forall mem ms ms' mem2 strict k, good_module mem ms -> fits mem ms -> (0 < k < header_bytes mem ms)%nat -> load (firstn k (save mem ms)) ms' mem2 strict = None.
Proof.
  intros mem ms ms' mem2 strict k HG HF Hk. pose proof (save_length mem ms HG HF) as HL. pose proof HF as HFB. unfold fits in HFB.
  change (map (fun p : name * nat => length (tdata (mem (snd p)))) ms) with (map (size mem) ms) in HFB. pose proof (hdr_many mem ms) as HM. pose proof (header_sum mem ms) as HS.
  unfold load. assert (EL : length (firstn k (save mem ms)) = k) by (rewrite firstn_length; lia). rewrite EL. rewrite (proj2 (Nat.eqb_neq k 0)) by lia.
  pose proof (save_eq mem ms HG HF) as ES.
  destruct (le_lt_dec 8 k) as [H8|H8]; [|rewrite rdU64_short by lia; reflexivity].
  assert (R0 : rdU64 (firstn k (save mem ms)) 0 = Some MAGIC).
  { rewrite ES. rewrite <- app_assoc. change (rdU64 (firstn k ([] ++ le64 MAGIC ++ ((le64 VERSION ++ le64 (Z.of_nat (length ms))) ++ headers mem ms (Z.of_nat (header_bytes mem ms)) ++ dataOf mem ms))) 0 = Some MAGIC).
    rewrite rdU64_mid; [reflexivity|reflexivity|cbn; lia]. }
  rewrite R0, Z.eqb_refl. cbn [negb].
  destruct (le_lt_dec 16 k) as [H16|H16]; [|rewrite rdU64_short by lia; reflexivity].
  assert (R1 : rdU64 (firstn k (save mem ms)) 8 = Some VERSION).
  { rewrite ES. rewrite <- !app_assoc. rewrite rdU64_mid; [reflexivity|reflexivity|rewrite le64_length; lia]. }
  rewrite R1, Z.eqb_refl. cbn [negb].
  destruct (le_lt_dec 24 k) as [H24|H24]; [|rewrite rdU64_short by lia; reflexivity].
  assert (R2 : rdU64 (firstn k (save mem ms)) 16 = Some (Z.of_nat (length ms))).
  { rewrite ES. rewrite (app_assoc (le64 MAGIC)), <- (app_assoc (le64 MAGIC ++ le64 VERSION)). rewrite rdU64_mid; [rewrite u64_small by lia; reflexivity|reflexivity|rewrite app_length, !le64_length; lia]. }
  rewrite R2.
  assert (HLoop : loadLoop k (firstn k (save mem ms)) ms' strict (Z.of_nat (length ms)) 24 [] (true, mem2) = None).
  { change 24 with (Z.of_nat (length (le64 MAGIC ++ le64 VERSION ++ le64 (Z.of_nat (length ms))))).
    apply (loop_cut ms' strict k mem ms (save mem ms) _ (dataOf mem ms) ((le64 MAGIC ++ le64 VERSION ++ le64 (Z.of_nat (length ms))) ++ headers mem ms (Z.of_nat (header_bytes mem ms))) [] (header_bytes mem ms)); auto.
    - apply HG.
    - rewrite app_nil_r, ES. rewrite <- !app_assoc. reflexivity.
    - rewrite !app_length, !le64_length, headers_length. lia.
    - lia.
    - lia.
    - rewrite headers_length, !app_length, !le64_length. lia. }
  rewrite HLoop. reflexivity.
Qed.

(** * Any file *)
Lemma nbytes_type : forall t t', same_type t t' -> nbytes t = nbytes t'. Proof. intros t t' [H1 H2]. unfold nbytes. rewrite H1, H2. reflexivity. Qed.
Definition infix (d f : list byte) : Prop := exists a c, f = a ++ d ++ c.
Definition sound (f : list byte) (ms : states) (mem mem' : memory) : Prop :=
  (forall id, same_type (mem id) (mem' id) /\ (Z.of_nat (length (tdata (mem id))) = nbytes (mem id) -> Z.of_nat (length (tdata (mem' id))) = nbytes (mem' id))) /\
  (forall id, ~ In id (map snd ms) -> mem' id = mem id) /\
  (forall id, mem' id = mem id \/ infix (tdata (mem' id)) f).
Lemma lookup_snd : forall ms n id, lookup ms n = Some id -> In id (map snd ms).
Proof.
  induction ms as [|[m i] ms IH]; intros n id H; [discriminate|]. cbn [lookup] in H. destruct (lookup ms n) eqn:E; [injection H as ->; right; eapply IH; eauto|]. destruct (name_eqb m n); [injection H as ->; left; reflexivity|discriminate].
Qed.
Lemma rd_infix : forall f off n d, rdBytes f off n = Some d -> infix d f /\ Z.of_nat (length d) = n.
Proof.
  intros f off n d H. unfold rdBytes in H. destruct ((0 <=? off) && (0 <=? n) && (off + n <=? Z.of_nat (length f))) eqn:E; [|discriminate]. injection H as <-. split.
  - exists (firstn (Z.to_nat off) f), (skipn (Z.to_nat n) (skipn (Z.to_nat off) f)). rewrite (firstn_skipn (Z.to_nat n)). rewrite firstn_skipn. reflexivity.
  - rewrite firstn_length, skipn_length. lia.
Qed.
Lemma sound_refl : forall f ms mem, sound f ms mem mem. Proof. intros. split; [|split]; auto. intros. split; auto. split; reflexivity. Qed.
Lemma apply_sound : forall f ms strict e ok0 m0 ok m mem, sound f ms mem m0 -> applyEntry f ms strict e (ok0, m0) = Some (ok, m) -> sound f ms mem m /\ (ok = true -> ok0 = true /\ (strict = true -> exists id, lookup ms (eName e) = Some id)) /\
  (forall id, lookup ms (eName e) = Some id -> ok = true -> (forall j, Z.of_nat (length (tdata (mem j))) = nbytes (mem j)) -> infix (tdata (m id)) f) /\ (forall id, infix (tdata (m0 id)) f -> infix (tdata (m id)) f).
Proof.
  intros f ms strict e ok0 m0 ok m mem (S1 & S2 & S3) H. unfold applyEntry in H. destruct (lookup ms (eName e)) as [id|] eqn:EL.
  2: { injection H as <- <-. split; [split; auto|]. split; [|split; [discriminate|auto]]. destruct strict; [discriminate|]. intros HO. split; auto; discriminate. }
  destruct (negb (shape_eqb (eShape e) (tshape (m0 id)))); [injection H as <- <-; split; [split; auto|split; [discriminate|split; [discriminate|auto]]]|].
  destruct (negb (eDtype e mod 256 =? tdtype (m0 id))); [injection H as <- <-; split; [split; auto|split; [discriminate|split; [discriminate|auto]]]|].
  destruct (Z.eqb_spec (eSize e) (nbytes (m0 id))) as [ESz|ESz]; cbn [negb] in H; [|injection H as <- <-; split; [split; auto|split; [discriminate|split; [discriminate|auto]]]].
  destruct (_ <? _); [injection H as <- <-; split; [split; auto|split; [discriminate|split; [discriminate|auto]]]|].
  destruct (Z.eqb_spec (eSize e) 0) as [E0|E0].
  - injection H as <- <-. split; [split; auto|]. split; [intros HO; split; auto; intros _; exists id; reflexivity|]. split; auto.
    intros id' Hid HO HLen. injection Hid as <-. destruct (S1 id) as [T1 T2]. specialize (T2 (HLen id)). assert (Z.of_nat (length (tdata (m0 id))) = 0) by lia. exists [], f. destruct (tdata (m0 id)); [reflexivity|cbn in *; lia].
  - destruct (rdBytes f (eOffset e) (eSize e)) as [d|] eqn:ER; [|discriminate]. injection H as <- <-. apply rd_infix in ER. destruct ER as [HI HLd].
    split; [|split; [intros HO; split; auto; intros _; exists id; reflexivity|split]].
    + split; [|split].
      * intros j. destruct (S1 j) as [T1 T2]. pose proof (setData_type m0 id d j) as HT. split; [destruct T1, HT; split; congruence|]. intros HLj. specialize (T2 HLj). rewrite <- (nbytes_type _ _ HT). destruct (Nat.eq_dec j id) as [ -> |N]; [rewrite setData_same; cbn [tdata]; lia|rewrite setData_other by auto; auto].
      * intros j Hj. rewrite setData_other; auto. intros ->. apply Hj. eapply lookup_snd; eauto.
      * intros j. destruct (Nat.eq_dec j id) as [ -> |N]; [right; rewrite setData_same; exact HI|rewrite setData_other by auto; auto].
    + intros id' Hid HO _. injection Hid as <-. rewrite setData_same. exact HI.
    + intros j Hj. destruct (Nat.eq_dec j id) as [ -> |N]; [rewrite setData_same; exact HI|rewrite setData_other by auto; auto].
Qed.
Lemma loop_sound : forall fuel f ms strict count off keys ok0 m0 mem keys' ok m, sound f ms mem m0 -> loadLoop fuel f ms strict count off keys (ok0, m0) = Some (keys', (ok, m)) ->
  ((forall j, Z.of_nat (length (tdata (mem j))) = nbytes (mem j)) -> ok0 = true -> forall n id, In n keys -> lookup ms n = Some id -> infix (tdata (m0 id)) f) ->
  sound f ms mem m /\ (ok = true -> ok0 = true) /\ ((forall j, Z.of_nat (length (tdata (mem j))) = nbytes (mem j)) -> ok = true -> forall n id, In n keys' -> lookup ms n = Some id -> infix (tdata (m id)) f).
Proof.
  induction fuel as [|fuel IH]; intros f ms strict count off keys ok0 m0 mem keys' ok m HS H HK; cbn [loadLoop] in H; destruct (count <=? 0); try discriminate; try (injection H as <- <- <-; auto).
  destruct (readEntry f off) as [[e off']|]; [|discriminate]. destruct (applyEntry f ms strict e (ok0, m0)) as [[ok1 m1]|] eqn:EA; [|discriminate].
  destruct (apply_sound _ _ _ _ _ _ _ _ _ HS EA) as (H1 & H2 & H3 & H4). destruct (IH _ _ _ _ _ _ _ _ mem _ _ _ H1 H) as (G1 & G2 & G3).
  - intros HL HO n id [<-|HI] HLk; [apply H3; auto|apply H4; eapply HK; eauto; apply H2; auto].
  - split; [exact G1|]. split; [intros HO; apply H2; auto|exact G3].
Qed.
Lemma load_sound : forall f ms mem strict ok mem', load f ms mem strict = Some (ok, mem') ->
  sound f ms mem mem' /\ (ok = true -> strict = true -> (forall j, Z.of_nat (length (tdata (mem j))) = nbytes (mem j)) -> forall n id, lookup ms n = Some id -> infix (tdata (mem' id)) f).
Proof.
  intros f ms mem strict ok mem' H. unfold load in H. destruct (length f =? 0)%nat; [injection H as <- <-; split; [apply sound_refl|discriminate]|].
  destruct (rdU64 f 0) as [mg|]; [|discriminate]. destruct (negb (mg =? MAGIC)); [injection H as <- <-; split; [apply sound_refl|discriminate]|].
  destruct (rdU64 f 8) as [vs|]; [|discriminate]. destruct (negb (vs =? VERSION)); [injection H as <- <-; split; [apply sound_refl|discriminate]|].
  destruct (rdU64 f 16) as [ct|]; [|discriminate]. destruct (loadLoop _ _ _ _ _ _ _ _) as [[keys [ok1 m1]]|] eqn:EL; [|discriminate]. 
  destruct (loop_sound _ _ _ _ _ _ _ _ _ mem _ _ _ (sound_refl f ms mem) EL) as (G1 & _ & G3). { intros _ _ n id []. }
  fold (missing ms keys) in H. injection H as HO <-. split; [exact G1|]. intros -> -> HL n id HLk. cbn [andb] in HO. destruct (missing ms keys) eqn:EM; [discriminate|]. rewrite missing_false in EM.
  assert (HI : In n (map fst ms)). { destruct (in_dec (list_eq_dec Z.eq_dec) n (map fst ms)) as [HI|HI]; auto. apply lookup_none in HI. congruence. }
  apply in_map_iff in HI. destruct HI as (q & <- & HI). eapply G3; eauto.
Qed.

(** * Wrong magic number or version *)
Lemma from_le_inj : forall l l', length l = length l' -> Forall is_byte l -> Forall is_byte l' -> from_le l = from_le l' -> l = l'.
Proof.
  induction l as [|b l IH]; intros [|b' l'] HL HB HB' H; try discriminate; auto. inversion HB; inversion HB'; subst. unfold is_byte in *. cbn [from_le fold_right] in H. fold (from_le l) in H. fold (from_le l') in H.
  assert (b = b' /\ from_le l = from_le l') by lia. destruct H0 as [-> H0]. f_equal. apply IH; auto.
Qed.
Lemma le64_bytes : forall x, Forall is_byte (le64 x).
Proof. intros x. unfold le64. apply Forall_forall. intros b Hb. apply in_map_iff in Hb. destruct Hb as (j & <- & _). apply Z.mod_pos_bound. lia. Qed.
Lemma rdU64_at : forall f off, (off + 8 <= length f)%nat -> rdU64 f (Z.of_nat off) = Some (from_le (firstn 8 (skipn off f))).
Proof. intros f off H. unfold rdU64, rdBytes. replace ((0 <=? Z.of_nat off) && (0 <=? 8) && (Z.of_nat off + 8 <=? Z.of_nat (length f))) with true by lia. rewrite Nat2Z.id. reflexivity. Qed.
Lemma Forall_cut : forall (P : Z -> Prop) n j f, Forall P f -> Forall P (firstn n (skipn j f)).
Proof. intros P n j f H. rewrite Forall_forall in *. intros x Hx. apply H. rewrite <- (firstn_skipn j f). apply in_or_app. right. rewrite <- (firstn_skipn n (skipn j f)). apply in_or_app. left. auto. Qed.
Lemma load_magic : forall (f : list byte) ms mem strict, Forall is_byte f -> (8 <= length f)%nat -> firstn 8 f <> le64 MAGIC -> load f ms mem strict = Some (false, mem).
Proof.
  intros f ms mem strict HB HL HN. unfold load. rewrite (proj2 (Nat.eqb_neq _ 0)) by lia. pose proof (rdU64_at f 0 ltac:(lia)) as R0. cbn [Z.of_nat] in R0. rewrite R0. clear R0.  destruct (Z.eqb_spec (from_le (firstn 8 (skipn 0 f))) MAGIC) as [E|E]; [|reflexivity].
  exfalso. apply HN. apply from_le_inj; auto; [rewrite firstn_length, le64_length; lia|apply (Forall_cut _ 8 0 f HB)|apply le64_bytes].
Qed.
Lemma load_version : forall (f : list byte) ms mem strict, Forall is_byte f -> (16 <= length f)%nat -> firstn 8 (skipn 8 f) <> le64 VERSION -> load f ms mem strict = Some (false, mem).
Proof.
  intros f ms mem strict HB HL HN. unfold load. rewrite (proj2 (Nat.eqb_neq _ 0)) by lia. pose proof (rdU64_at f 0 ltac:(lia)) as R0. cbn [Z.of_nat] in R0. rewrite R0. clear R0.  destruct (negb _); [reflexivity|].
  pose proof (rdU64_at f 8 ltac:(lia)) as R8. change (Z.of_nat 8) with 8 in R8. rewrite R8. clear R8. destruct (Z.eqb_spec (from_le (firstn 8 (skipn 8 f))) VERSION) as [E|E]; [|reflexivity].
  exfalso. apply HN. apply from_le_inj; auto; [rewrite firstn_length, skipn_length, le64_length; lia|apply (Forall_cut _ 8 8 f HB)|apply le64_bytes].
Qed.
