From Coq Require Import List Bool Arith Lia.
From Verif Require Import TensorModel CowModel CowSpec.
Import ListNotations.

Section P.
Context {A : Type}.
Notation state := (state A). Notation op := (op A).
Lemma look_unbind v h k : look (unbind v h) k = if k =? h then None else look v k.
Proof.
  unfold look, unbind. induction v as [|[a b] v IH]; simpl; [destruct (k =? h); auto|].
  destruct (Nat.eqb_spec a h); simpl.
  - subst. destruct (Nat.eqb_spec h k); [subst; rewrite Nat.eqb_refl in *; auto|]. rewrite IH. auto.
  - destruct (Nat.eqb_spec a k); [subst; destruct (Nat.eqb_spec k h); [congruence|auto]|auto].
Qed.
Lemma look_bind v h i k : look (bind v h i) k = if k =? h then Some i else look v k.
Proof.
  unfold bind. unfold look at 1. cbn [find fst snd]. rewrite Nat.eqb_sym. destruct (Nat.eqb_spec k h); auto.
  fold (look (unbind v h) k). rewrite look_unbind. destruct (Nat.eqb_spec k h); congruence.
Qed.
Lemma look_in v h i : look v h = Some i -> In i (map snd v).
Proof. unfold look. destruct (find _ v) as [p|] eqn:E; [|discriminate]. intro H. injection H as <-. apply find_some in E. apply in_map. apply E. Qed.

Definition wfi (st : state) (m : impl) : Prop :=
  match isto m with Some s => s < ns st /\ ioff m + ilen m <= length (stores st s) | None => ioff m = 0 end.
Definition wfs (st : state) : Prop := (forall h i, look (vars st) h = Some i -> i < ni st) /\ forall i, i < ni st -> wfi st (impls st i).
Lemma elements_length (st : state) i : wfi st (impls st i) -> length (elements st i) = ilen (impls st i).
Proof.
  unfold wfi, elements. destruct (isto _) as [s|]; [|rewrite repeat_length; auto]. intros [_ H]. rewrite firstn_length, skipn_length. lia.
Qed.
Lemma upd_same {X} (f : nat -> X) k x : upd f k x k = x.
Proof. unfold upd. rewrite Nat.eqb_refl. auto. Qed.
Lemma upd_other {X} (f : nat -> X) k x j : j <> k -> upd f k x j = f j.
Proof. unfold upd. intro. destruct (Nat.eqb_spec j k); congruence. Qed.

Lemma ensure_props (st : state) i : wfs st -> i < ni st -> let st' := ensureStorage st i in
  wfs st' /\ vars st' = vars st /\ ni st' = ni st /\ (forall j, j < ni st -> elements st' j = elements st j)
  /\ (forall j, ilen (impls st' j) = ilen (impls st j) /\ ioff (impls st' j) = ioff (impls st j))
  /\ exists s, isto (impls st' i) = Some s.
Proof.
  intros [W1 W2] Hi. unfold ensureStorage. cbv zeta. pose proof (W2 i Hi) as Wi. unfold wfi in Wi. destruct (isto (impls st i)) as [s|] eqn:E.
  - repeat split; auto. exists s. auto.
  - split; [split; cbn|split; [|split; [|split; [|split]]]]; auto.
    + intros j Hj. unfold wfi. cbn. destruct (Nat.eq_dec j i) as [->|N].
      * rewrite !upd_same. cbn. rewrite upd_same, repeat_length. lia.
      * rewrite upd_other by auto. specialize (W2 j Hj). unfold wfi in W2. destruct (isto (impls st j)) as [s|]; auto.
        rewrite upd_other by lia. lia.
    + intros j Hj. unfold elements. cbn. destruct (Nat.eq_dec j i) as [->|N].
      * rewrite !upd_same. cbn. rewrite upd_same, E, Wi. cbn [skipn]. rewrite <- (repeat_length (@None A) (ilen (impls st i))) at 1. apply firstn_all.
      * rewrite upd_other by auto. specialize (W2 j Hj). unfold wfi in W2. destruct (isto (impls st j)) as [s|]; auto. rewrite upd_other by lia. auto.
    + intro j. cbn. destruct (Nat.eq_dec j i) as [->|N]; [rewrite upd_same|rewrite upd_other by auto]; auto.
    + cbn. rewrite upd_same. eexists. reflexivity.
Qed.

Lemma useCount_two (st : state) s i j h k : look (vars st) h = Some i -> look (vars st) k = Some j -> i <> j ->
  isto (impls st i) = Some s -> isto (impls st j) = Some s -> 1 < useCount st s.
Proof.
  intros Hi Hj N Ei Ej. unfold useCount. apply look_in in Hi. apply look_in in Hj.
  assert (I2 : incl [i; j] (filter (fun i0 => match isto (impls st i0) with Some k0 => k0 =? s | None => false end) (nodup Nat.eq_dec (map snd (vars st))))).
  { intros x [<-|[<-|[]]]; apply filter_In; (split; [apply nodup_In; auto|]); [rewrite Ei|rewrite Ej]; apply Nat.eqb_refl. }
  apply NoDup_incl_length in I2; [simpl in I2; lia|]. constructor; [intros [->|[]]; auto|]. constructor; [simpl; auto|constructor].
Qed.

(** After copyOnWrite the tensor is alone on its storage. *)
Lemma cow_props (st : state) i h : wfs st -> look (vars st) h = Some i -> let st' := copyOnWrite st i in
  wfs st' /\ vars st' = vars st /\ ni st' = ni st /\ (forall j, j < ni st -> elements st' j = elements st j)
  /\ (forall j, ilen (impls st' j) = ilen (impls st j) /\ ioff (impls st' j) = ioff (impls st j))
  /\ exists s, isto (impls st' i) = Some s /\ forall k j, look (vars st) k = Some j -> j <> i -> isto (impls st' j) <> Some s.
Proof.
  intros W Hh. pose proof (proj1 W _ _ Hh) as Hi.
  destruct (ensure_props st i W Hi) as (W' & Ev & En & Ee & El & s & Es). unfold copyOnWrite. cbv zeta in *. set (st1 := ensureStorage st i) in *.
  rewrite Es. destruct W' as [W1 W2]. destruct (Nat.ltb_spec 1 (useCount st1 s)) as [HC|HC].
  - split; [split; cbn|split; [|split; [|split; [|split]]]]; auto; cbn.
    + intros j Hj. unfold wfi. cbn. pose proof (W2 i ltac:(lia)) as Wi. unfold wfi in Wi. rewrite Es in Wi. destruct (Nat.eq_dec j i) as [->|N].
      * rewrite !upd_same. cbn. rewrite upd_same. lia.
      * rewrite upd_other by auto. specialize (W2 j Hj). unfold wfi in W2. destruct (isto (impls st1 j)) as [s'|]; auto.
        rewrite upd_other by lia. lia.
    + intros j Hj. rewrite <- Ee by auto. unfold elements. cbn. destruct (Nat.eq_dec j i) as [->|N].
      * rewrite !upd_same. cbn. rewrite upd_same, Es. auto.
      * rewrite upd_other by auto. specialize (W2 j ltac:(lia)). unfold wfi in W2. destruct (isto (impls st1 j)) as [s'|]; auto. rewrite upd_other by lia. auto.
    + intro j. rewrite <- (proj1 (El j)), <- (proj2 (El j)). cbn. destruct (Nat.eq_dec j i) as [->|N]; [rewrite upd_same|rewrite upd_other by auto]; auto.
    + exists (ns st1). rewrite upd_same. split; auto. intros k j Hk N. rewrite upd_other by auto. intro E.
      rewrite <- Ev in Hk. specialize (W2 j (W1 _ _ Hk)). unfold wfi in W2. rewrite E in W2. lia.
  - split; [split; auto|]. repeat (split; [assumption|]). exists s. split; auto. intros k j Hk N E.
    rewrite <- Ev in Hk, Hh. pose proof (useCount_two st1 s i j h k Hh Hk ltac:(auto) Es E). lia.
Qed.

Lemma write_alone (st : state) i d s : wfs st -> i < ni st -> isto (impls st i) = Some s -> length d = ilen (impls st i) ->
  let st' := writeElems st i d in
  wfs st' /\ vars st' = vars st /\ ni st' = ni st /\ elements st' i = map Some d
  /\ forall j, isto (impls st j) <> Some s -> elements st' j = elements st j.
Proof.
  intros [W1 W2] Hi Es Hd. unfold writeElems. assert (EE : ensureStorage st i = st) by (unfold ensureStorage; rewrite Es; auto). rewrite EE. cbv zeta. rewrite Es.
  pose proof (W2 i Hi) as Wi. unfold wfi in Wi. rewrite Es in Wi. destruct Wi as [Wi1 Wi2].
  assert (LF : length (firstn (ioff (impls st i)) (stores st s)) = ioff (impls st i)) by (rewrite firstn_length; lia).
  assert (LN : length (firstn (ioff (impls st i)) (stores st s) ++ map Some d ++ skipn (ioff (impls st i) + length d) (stores st s)) = length (stores st s)).
  { rewrite !app_length, LF, map_length, skipn_length. lia. }
  split; [split; cbn; auto|split; [|split; [|split]]]; auto.
  - intros j Hj. unfold wfi. cbn. specialize (W2 j Hj). unfold wfi in W2. destruct (isto (impls st j)) as [s'|]; auto.
    destruct (Nat.eq_dec s' s) as [->|N]; [rewrite upd_same, LN|rewrite upd_other by auto]; auto.
  - unfold elements. cbn. rewrite Es, upd_same. rewrite skipn_app, LF, Nat.sub_diag, skipn_all2 by lia. cbn [app skipn].
    rewrite <- Hd. rewrite firstn_app, map_length, Nat.sub_diag. cbn [firstn]. rewrite app_nil_r.
    rewrite <- (map_length Some d). apply firstn_all.
  - intros j Hj. unfold elements. cbn. destruct (isto (impls st j)) as [s'|]; auto. rewrite upd_other by congruence. auto.
Qed.

(** The relation to values. *)
Definition rel (st : state) (v : @values A) : Prop :=
  wfs st /\ fresh_obj v = ni st /\ (forall h, names v h = look (vars st) h)
  /\ forall h i, look (vars st) h = Some i -> elements st i = obj v i.
Lemma rel_len st v h i : rel st v -> look (vars st) h = Some i -> length (obj v i) = ilen (impls st i).
Proof. intros (W & _ & _ & H) E. rewrite <- (H _ _ E). apply elements_length. apply W. apply (proj1 W _ _ E). Qed.
Lemma new_rel st v h m d : rel st v -> wfi st m -> (match isto m with Some s => firstn (ilen m) (skipn (ioff m) (stores st s)) | None => repeat None (ilen m) end) = d ->
  rel (newImpl st h m) (new_object v h d).
Proof.
  intros (W & F & N & H) Wm Ed. unfold rel, newImpl, new_object. cbn. split; [split; cbn|split; [lia|split]].
  - intros k i. rewrite look_bind. destruct (Nat.eqb_spec k h); [intro E; injection E as <-; lia|]. intro E. pose proof (proj1 W _ _ E). lia.
  - intros i Hi. unfold wfi. cbn. destruct (Nat.eq_dec i (ni st)) as [->|Ni]; [rewrite upd_same; exact Wm|]. rewrite upd_other by auto. apply W. lia.
  - intro k. unfold set. rewrite look_bind, F. destruct (k =? h); auto.
  - intros k i. rewrite look_bind. unfold elements. cbn. rewrite F. unfold set. destruct (Nat.eqb_spec k h).
    + intro E. injection E as <-. rewrite upd_same, Nat.eqb_refl. auto.
    + intro E. pose proof (proj1 W _ _ E). rewrite upd_other by lia. destruct (Nat.eqb_spec i (ni st)); [lia|]. apply (H _ _ E).
Qed.
Lemma step_rel st v o : isolated o -> rel st v -> rel (step st o) (vstep v o).
Proof.
  intros Ho R. pose proof R as (W & F & N & H). destruct o; simpl in Ho; try contradiction; cbn [step vstep].
  - apply new_rel; auto. reflexivity.
  - (* OCreate *)
    pose proof (new_rel st v h (mkI (length d) 0 None) (repeat None (length d)) R eq_refl eq_refl) as R1.
    set (st1 := newImpl st h (mkI (length d) 0 None)) in *. set (v1 := new_object v h (repeat None (length d))) in *.
    cbv zeta. assert (Ei : ni st1 - 1 = ni st) by (cbn; lia). rewrite Ei.
    assert (Hl : look (vars st1) h = Some (ni st)) by (unfold st1, newImpl; cbn [vars]; rewrite look_bind, Nat.eqb_refl; auto).
    destruct R1 as (W1 & F1 & N1 & H1).
    assert (Hn : ni st < ni st1) by (cbn; lia).
    destruct (ensure_props st1 (ni st) W1 Hn) as (W2 & Ev & En & Ee & El & s & Es). cbv zeta in *.
    assert (Hw : writeElems st1 (ni st) d = writeElems (ensureStorage st1 (ni st)) (ni st) d).
    { unfold writeElems. assert (E2 : ensureStorage (ensureStorage st1 (ni st)) (ni st) = ensureStorage st1 (ni st)) by (unfold ensureStorage at 1; rewrite Es; auto). rewrite E2. auto. }
    rewrite Hw. set (st2 := ensureStorage st1 (ni st)) in *.
    assert (Hlen : length d = ilen (impls st2 (ni st))).
    { rewrite (proj1 (El _)). unfold st1, newImpl. cbn. rewrite upd_same. auto. }
    assert (Hn2 : ni st < ni st2) by (rewrite En; exact Hn).
    destruct (write_alone st2 (ni st) d s W2 Hn2 Es Hlen) as (W3 & Ev3 & En3 & E3 & Eo3). cbv zeta in *.
    assert (Es2 : s = ns st).
    { unfold st2, ensureStorage in Es. unfold st1 in Es. cbn in Es. rewrite upd_same in Es. cbn in Es. rewrite upd_same in Es. cbn in Es. congruence. }
    split; [exact W3|]. split; [rewrite En3, En; exact F1|]. split; [intro k; rewrite Ev3, Ev; exact (N1 k)|].
    intros k i Hk. rewrite Ev3, Ev in Hk. destruct (Nat.eq_dec i (ni st)) as [->|Ni].
    + rewrite E3. cbn. rewrite F. unfold set. rewrite Nat.eqb_refl. auto.
    + rewrite Eo3.
      * rewrite Ee by (apply (proj1 W1 _ _ Hk)). rewrite (H1 _ _ Hk). unfold v1. cbn. rewrite F. unfold set.
        destruct (Nat.eqb_spec i (ni st)); congruence.
      * assert (Hin : i < ni st) by (pose proof (proj1 W1 _ _ Hk) as Q; cbn in Q; lia).
        intro E. unfold st2, ensureStorage in E. unfold st1 in E. cbn in E. rewrite upd_same in E. cbn in E. rewrite !upd_other in E by auto.
        pose proof (proj2 W i Hin) as Wi. unfold wfi in Wi. rewrite E in Wi. lia.
  - (* OCopy *) rewrite N. destruct (look (vars st) h) as [i|] eqn:E; [|exact R]. split; [split; cbn|split; [|split]]; cbn; auto.
    + intros k j. rewrite look_bind. destruct (k =? h'); [intro Q; injection Q as <-; apply (proj1 W _ _ E)|apply W].
    + apply W.
    + intro k. rewrite look_bind. unfold set. destruct (k =? h'); auto.
    + intros k j. rewrite look_bind. destruct (k =? h'); [intro Q; injection Q as <-; apply (H _ _ E)|apply H].
  - (* ODrop *) split; [split; cbn|split; [|split]]; cbn; auto.
    + intros k j. rewrite look_unbind. destruct (k =? h); [discriminate|apply W].
    + apply W.
    + intro k. rewrite look_unbind. unfold set. destruct (k =? h); auto.
    + intros k j. rewrite look_unbind. destruct (k =? h); [discriminate|apply H].
  - (* OClone *) rewrite N. destruct (look (vars st) h) as [i|] eqn:E; [|exact R]. apply new_rel; auto.
    + apply W. apply (proj1 W _ _ E).
    + rewrite <- (H _ _ E). reflexivity.
  - (* OSlice *) rewrite N. destruct (look (vars st) h) as [i|] eqn:E; [|exact R]. rewrite (rel_len _ _ _ _ R E).
    destruct (Nat.leb_spec (start + len) (ilen (impls st i))) as [Hs|Hs]; [|exact R].
    pose proof (proj1 W _ _ E) as Hi. destruct (ensure_props st i W Hi) as (W1 & Ev & En & Ee & El & s & Es). cbv zeta in *.
    set (st1 := ensureStorage st i) in *.
    assert (R1 : rel st1 v).
    { split; auto. split; [rewrite En; auto|]. split; [intro; rewrite Ev; auto|]. intros k j Hk. rewrite Ev in Hk. rewrite Ee by (apply (proj1 W _ _ Hk)). apply (H _ _ Hk). }
    pose proof (proj2 W1 i ltac:(lia)) as Wi. unfold wfi in Wi. rewrite Es in Wi. destruct (El i) as [El1 El2]. apply new_rel; auto.
    + unfold wfi. cbn. rewrite Es. lia.
    + cbn. rewrite Es. destruct R1 as (_ & _ & _ & H1). rewrite <- Ev in E. rewrite <- (H1 _ _ E). unfold elements. rewrite Es.
      rewrite skipn_firstn_comm, firstn_firstn, Nat.min_l by lia. f_equal. rewrite (Nat.add_comm (ioff _)).
      rewrite <- (firstn_skipn (ioff (impls st1 i)) (stores st1 s)) at 1.
      rewrite skipn_app. rewrite skipn_all2 by (rewrite firstn_length; lia). rewrite firstn_length.
      replace (start + ioff (impls st1 i) - Nat.min (ioff (impls st1 i)) (length (stores st1 s))) with start by lia. auto.
  - (* OTouch *) destruct (look (vars st) h) as [i|] eqn:E; [|exact R].
    pose proof (proj1 W _ _ E) as Hi. destruct (ensure_props st i W Hi) as (W1 & Ev & En & Ee & El & s & Es). cbv zeta in *.
    split; auto. split; [rewrite En; auto|]. split; [intro; rewrite Ev; auto|]. intros k j Hk. rewrite Ev in Hk. rewrite Ee by (apply (proj1 W _ _ Hk)). apply (H _ _ Hk).
  - (* OWrite *) rewrite N. destruct (look (vars st) h) as [i|] eqn:E; [|exact R]. rewrite (rel_len _ _ _ _ R E).
    destruct (Nat.eqb_spec (length d) (ilen (impls st i))) as [Hd|Hd]; [|exact R].
    destruct (cow_props st i h W E) as (W1 & Ev & En & Ee & El & s & Es & Ealone). cbv zeta in *. set (st1 := copyOnWrite st i) in *.
    pose proof (proj1 W _ _ E) as Hi.
    destruct (write_alone st1 i d s W1 ltac:(lia) Es) as (W3 & Ev3 & En3 & E3 & Eo3); [rewrite (proj1 (El i)); auto|]. cbv zeta in *.
    split; auto. split; [cbn; rewrite En3, En; auto|]. split; [intro; rewrite Ev3, Ev; cbn; auto|].
    intros k j Hk. rewrite Ev3, Ev in Hk. cbn. unfold set. destruct (Nat.eqb_spec j i) as [->|Nj]; auto.
    rewrite Eo3 by (apply (Ealone k); auto). rewrite Ee by (apply (proj1 W _ _ Hk)). apply (H _ _ Hk).
Qed.
Lemma run_rel (ops : list op) : Forall isolated ops -> rel (run ops) (vrun ops).
Proof.
  intro Ho. unfold run, vrun. assert (R0 : rel init no_values).
  { split; [split; cbn; [discriminate|intros; lia]|]. repeat split; cbn; auto. }
  revert Ho R0. generalize (@init A) as st. generalize (@no_values A) as v.
  induction ops as [|o ops IH]; intros v st Ho R; auto. inversion Ho; subst. cbn [fold_left]. apply IH; auto. apply step_rel; auto.
Qed.
Lemma run_observe (ops : list op) h : Forall isolated ops -> observe (run ops) h = value (vrun ops) h.
Proof.
  intro Ho. destruct (run_rel ops Ho) as (W & F & N & H). unfold observe, value. rewrite N. destruct (look _ h) as [i|] eqn:E; auto. f_equal. apply (H _ _ E).
Qed.
Lemma write_other (ops : list op) h k d : Forall isolated ops -> names (vrun ops) h <> names (vrun ops) k ->
  observe (run (ops ++ [OWrite h d])) k = observe (run ops) k.
Proof.
  intros Ho Hn. rewrite !run_observe by (auto; apply Forall_app; split; auto; repeat constructor).
  unfold vrun. rewrite fold_left_app. fold (vrun ops). cbn [fold_left vstep]. unfold value.
  destruct (names (vrun ops) h) as [i|] eqn:E; auto. destruct (_ =? _); auto. cbn.
  destruct (names (vrun ops) k) as [j|] eqn:E'; auto. unfold set. destruct (Nat.eqb_spec j i); congruence.
Qed.
Lemma write_seen (ops : list op) h k d l : Forall isolated ops -> names (vrun ops) h = names (vrun ops) k ->
  observe (run ops) h = Some l -> length d = length l ->
  observe (run (ops ++ [OWrite h d])) k = Some (map Some d).
Proof.
  intros Ho Hn Hl Hd. rewrite !run_observe in * by (auto; apply Forall_app; split; auto; repeat constructor).
  unfold vrun. rewrite fold_left_app. fold (vrun ops). cbn [fold_left vstep]. unfold value in *.
  destruct (names (vrun ops) h) as [i|] eqn:E; [|discriminate]. injection Hl as <-. rewrite Hd, Nat.eqb_refl. cbn. rewrite <- Hn.
  unfold set. rewrite Nat.eqb_refl. auto.
Qed.
End P.
