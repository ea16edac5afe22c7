(** Proofs: descriptors and threads of the server of a TCP store. *)
From Coq Require Import List Arith ZArith Bool Lia Permutation.
From Verif Require Import TcpLifeModel TcpLifeSpec TcpLifeProofs.
Import ListNotations.

Lemma nth_put {A} (d : A) i a l j : nth j (put i a d l) d = if j =? i then a else nth j l d.
Proof.
  revert l j. induction i as [|i IH]; intros [|x l] [|j]; cbn; auto; try (destruct j; reflexivity).
  rewrite IH. destruct (j =? i), j; reflexivity.
Qed.
Lemma lowest_free l : nth (lowest l) l None = None.
Proof. induction l as [|[o|] l IH]; cbn; auto. Qed.
Lemma setAt_at {A} i (a x : A) l : nth_error l i = Some x -> forall j, nth_error (setAt i a l) j = if j =? i then Some a else nth_error l j.
Proof.
  intros H j. assert (Hi : i < length l) by (apply nth_error_Some; congruence). rewrite nth_setAt. rewrite (proj2 (Nat.ltb_lt _ _) Hi), andb_true_r. reflexivity.
Qed.
Lemma setAt_length {A} i (a x : A) l : nth_error l i = Some x -> length (setAt i a l) = length l.
Proof. intros H. unfold setAt. rewrite (split_at i l x H) at 3. rewrite !app_length. cbn. lia. Qed.
Lemma setAt_map {A B} (g : A -> B) i a x l : nth_error l i = Some x -> g a = g x -> map g (setAt i a l) = map g l.
Proof. intros H E. unfold setAt. rewrite (split_at i l x H) at 3. rewrite !map_app. cbn [map]. rewrite E. reflexivity. Qed.
Lemma nth_snoc {A} (l : list A) a j x : nth_error (l ++ [a]) j = Some x -> nth_error l j = Some x \/ j = length l /\ x = a.
Proof.
  intros H. destruct (Nat.lt_ge_cases j (length l)).
  - rewrite nth_error_app1 in H by lia. auto.
  - rewrite nth_error_app2 in H by lia. destruct (j - length l) as [|k] eqn:E; [|destruct k; discriminate H]. cbn in H. injection H as <-. right. split; auto. lia.
Qed.

Definition lconn (l : loop) : list (nat * nat) := match l with LAccept => [] | LGot f c | LInserted f c | LStuck f c => [(f, c)] end.
Definition holder (l : loop) (ts : list thread) (f c : nat) : Prop := In (f, c) (lconn l) \/ exists t p, nth_error ts t = Some (Thread f c p) /\ p <> Ended.
Definition held (l : loop) (ts : list thread) (f : nat) : Prop :=
  (exists c, l = LInserted f c \/ l = LStuck f c) \/ exists t c p, nth_error ts t = Some (Thread f c p) /\ (p = Serving \/ p = Leaving).
Definition known (w : world) : list nat := queue w ++ map snd (lconn (lp w)) ++ map mine (threads w).
Definition fine (w : world) (e : event) : Prop :=
  match e with
  | EServe t c => exists f p, nth_error (threads w) t = Some (Thread f c p)
  | EClose c => c < length (conns w) /\ ~ good w c
  | EFile _ => False
  end.
Record inv (w : world) : Prop := Inv {
  i1 : forall f c, holder (lp w) (threads w) f c -> look w f = Some (OConn c);
  i2 : forall f c, look w f = Some (OConn c) -> holder (lp w) (threads w) f c;
  i3 : NoDup (known w);
  i4 : forall c, In c (known w) <-> c < length (conns w);
  i5 : forall f, In f (active w) -> held (lp w) (threads w) f;
  i6 : forall todo, mon w = MIn todo -> forall f, In f todo -> held (lp w) (threads w) f;
  i7 : forall t f c p, nth_error (threads w) t = Some (Thread f c p) -> p <> Serving -> ~ good w c;
  i8 : forall c x, nth_error (conns w) c = Some x -> end_ x <> Reset;
  i9 : forall e, In e (log w) -> fine w e;
  i10 : freed w = false }.

Lemma held_holder l ts f : held l ts f -> exists c, holder l ts f c.
Proof.
  intros [(c & [-> | ->])|(t & c & p & H & P)]; exists c; [left; left; auto|left; left; auto|]. right. exists t, p. split; auto. destruct P; congruence.
Qed.
Lemma init_inv : inv init.
Proof.
  constructor.
  - intros f c [[]|(t & p & H & _)]. destruct t; discriminate H.
  - intros f c H. unfold look in H. cbn in H. destruct f; discriminate H.
  - constructor.
  - intros c. cbn. lia.
  - intros f [].
  - intros todo H. discriminate H.
  - intros t f c p H. destruct t; discriminate H.
  - intros c x H. destruct c; discriminate H.
  - intros e [].
  - reflexivity.
Qed.
Lemma one_thread w t t' f c p f' p' : inv w -> nth_error (threads w) t = Some (Thread f c p) -> nth_error (threads w) t' = Some (Thread f' c p') -> t = t'.
Proof.
  intros I H H'. pose proof (i3 w I) as N. unfold known in N.
  assert (N' : NoDup (map mine (threads w))).
  { clear - N. rewrite app_assoc in N. induction (queue w ++ map snd (lconn (lp w))) as [|x l IH]; auto. cbn in N. inversion N; auto. }
  apply (proj1 (NoDup_nth_error _) N').
  - apply nth_error_Some. rewrite (map_nth_error mine _ _ H). discriminate.
  - rewrite (map_nth_error mine _ _ H), (map_nth_error mine _ _ H'). reflexivity.
Qed.
Lemma not_both w t f c p f' : inv w -> nth_error (threads w) t = Some (Thread f c p) -> ~ In (f', c) (lconn (lp w)).
Proof.
  intros I H L. pose proof (i3 w I) as N. unfold known in N.
  assert (N' : NoDup (map snd (lconn (lp w)) ++ map mine (threads w))) by (clear - N; induction (queue w) as [|x l IH]; auto; cbn in N; inversion N; auto).
  apply (in_map snd) in L. cbn [snd] in L. apply nth_error_In in H. apply (in_map mine) in H. cbn [mine] in H.
  clear I N. revert L N'. generalize (map snd (lconn (lp w))). induction l as [|x l IH]; intros L N'; [destruct L|]. cbn in N'. inversion N' as [|? ? N1 N2]; subst. destruct L as [<-|L]; [apply N1, in_or_app; auto|auto].
Qed.
(** Steps that leave descriptors, loop and threads alone. *)
Lemma known_conn w c f t p : inv w -> nth_error (threads w) t = Some (Thread f c p) -> c < length (conns w).
Proof. intros I H. apply (i4 w I). unfold known. apply in_or_app. right. apply in_or_app. right. apply nth_error_In in H. apply (in_map mine) in H. exact H. Qed.
Lemma holder_conn w c f : inv w -> holder (lp w) (threads w) f c -> c < length (conns w).
Proof.
  intros I [L|(t & p & H & _)]; [|eapply known_conn; eauto]. apply (i4 w I). unfold known. apply in_or_app. right. apply in_or_app. left. apply (in_map snd) in L. exact L.
Qed.
Lemma connected w f : inv w -> held (lp w) (threads w) f -> isSocketConnected w f = true.
Proof.
  intros I H. apply held_holder in H as (c & H). unfold isSocketConnected. rewrite (i1 w I _ _ H).
  destruct (nth_error (conns w) c) as [x|] eqn:E.
  - pose proof (i8 w I _ _ E). destruct (end_ x); congruence.
  - apply nth_error_None in E. pose proof (holder_conn w c f I H). lia.
Qed.
Lemma fine_same w w' : (forall c, good w' c -> good w c) -> length (conns w) <= length (conns w') ->
  (forall t f c p, nth_error (threads w) t = Some (Thread f c p) -> exists f' p', nth_error (threads w') t = Some (Thread f' c p')) ->
  forall e, fine w e -> fine w' e.
Proof.
  intros G L T [t c|c|f] H; cbn in *; auto.
  - destruct H as (f & p & H). apply (T _ _ _ _ H).
  - destruct H as [H N]. split; [lia|]. auto.
Qed.

Lemma client_inv w c f w' : inv w -> (forall x, end_ x <> Reset -> end_ (f x) <> Reset) -> (forall x, f x <> Conn Open false) -> clientDoes c f w = To w' -> inv w'.
Proof.
  intros I HR HG E. unfold clientDoes in E. destruct (nth_error (conns w) c) as [x|] eqn:N; [|discriminate E]. destruct (end_ x) eqn:En; try discriminate E. injection E as <-.
  unfold setConn. rewrite N.
  assert (G : forall c', good (setConn c f w) c' -> good w c').
  { intros c' H. unfold good, setConn in *. cbn [conns] in H. rewrite N in H. rewrite (setAt_at c _ x _ N) in H. destruct (Nat.eqb_spec c' c); auto. injection H as H. destruct (HG _ H). }
  unfold setConn in G. rewrite N in G. set (w' := World _ _ _ _ _ _ _ _ _) in *.
  assert (LEN : length (conns w') = length (conns w)) by (cbn; apply (setAt_length _ _ _ _ N)).
  constructor.
  - exact (i1 w I).
  - exact (i2 w I).
  - exact (i3 w I).
  - intros c'. rewrite LEN. apply (i4 w I c').
  - exact (i5 w I).
  - exact (i6 w I).
  - intros t f' c' p H P HGd. apply (i7 w I t f' c' p H P). auto.
  - intros c' y H. cbn in H. rewrite (setAt_at c _ x _ N) in H. destruct (Nat.eqb_spec c' c); [|apply (i8 w I _ _ H)]. injection H as <-. apply HR. apply (i8 w I _ _ N).
  - intros e H. apply (fine_same w w'); auto; [lia| |apply (i9 w I _ H)]. intros t f' c' p Ht. exists f', p. exact Ht.
  - exact (i10 w I).
Qed.

Ltac keep w I := try exact (i1 w I); try exact (i2 w I); try exact (i3 w I); try exact (i4 w I); try exact (i5 w I); try exact (i6 w I); try exact (i7 w I); try exact (i8 w I); try exact (i9 w I); try exact (i10 w I).

Lemma step_inv l w w' : inv w -> l <> Destroy -> (forall c, l <> CReset c) -> step l w = To w' -> inv w'.
Proof.
  intros I HD HR E.
  assert (GU : forall r, guarded w r = To w' -> r = To w').
  { intros r H. unfold guarded in H. rewrite (i10 w I) in H. destruct r; try discriminate H; auto. }
  destruct l as [|c|c|c| | | | | | |t|t|t|t| |f|]; cbn [step] in E.
  - (* CConnect *) injection E as <-.
    assert (GB : forall c, good (World (tab w) (conns w ++ [Conn Open false]) (queue w ++ [length (conns w)]) (lp w) (active w) (mon w) (threads w) (freed w) (log w)) c -> c < length (conns w) -> good w c).
    { intros c G L. unfold good in *. cbn [conns] in G. rewrite nth_error_app1 in G by lia. exact G. }
    constructor; keep w I.
    + unfold known. cbn [queue lp threads]. rewrite <- app_assoc. cbn [app]. apply NoDup_Add with (a := length (conns w)) (l := known w); [unfold known; apply Add_app|]. split; [exact (i3 w I)|].
      intros H. apply (i4 w I) in H. lia.
    + intros c. cbn [conns]. rewrite app_length. cbn [length]. unfold known. cbn [queue lp threads]. rewrite <- app_assoc. cbn [app].
      rewrite in_app_iff. cbn [In]. pose proof (i4 w I c) as Q. unfold known in Q. rewrite in_app_iff in Q.
      split; [intros [H|[H|H]]; [|lia|]; (assert (c < length (conns w)) by (apply Q; tauto); lia)|]. intros H. destruct (Nat.eq_dec c (length (conns w))) as [->|]; [auto|]. assert (H' : c < length (conns w)) by lia. apply Q in H'. tauto.
    + intros t f c p H P G. apply (i7 w I t f c p H P). apply GB; auto. apply (known_conn w c f t p I H).
    + intros c x H. cbn [conns] in H. apply nth_snoc in H as [H|[_ ->]]; [apply (i8 w I _ _ H)|discriminate].
    + intros e H. pose proof (i9 w I _ H) as Fe. destruct e as [t c|c|f]; cbn in *; auto. destruct Fe as [L N]. rewrite app_length. split; [lia|]. auto.
  - (* CClose *) apply (client_inv w c _ w' I) in E; auto; cbn; intros; discriminate.
  - destruct (HR c); auto.
  - (* CRude *) apply (client_inv w c _ w' I) in E; auto; cbn; intros; discriminate.
  - (* Accept *) apply GU in E. destruct (lp w) as [| | |] eqn:EL; try discriminate E. destruct (queue w) as [|c q] eqn:EQ; [discriminate E|]. injection E as <-.
    set (f := lowest (tab w)). assert (LF : look w f = None) by apply lowest_free.
    assert (LK : forall g, look (World (put f (Some (OConn c)) None (tab w)) (conns w) q (LGot f c) (active w) (mon w) (threads w) (freed w) (log w)) g = if g =? f then Some (OConn c) else look w g) by (intros g; unfold look; cbn [tab]; apply nth_put).
    constructor; keep w I; cbn [lp threads active mon conns queue log].
    + intros g d H. rewrite LK. destruct H as [[H|[]]|(t & p & H & P)].
      * injection H as <- <-. rewrite Nat.eqb_refl. reflexivity.
      * assert (L : look w g = Some (OConn d)) by (apply (i1 w I); right; eauto). destruct (Nat.eqb_spec g f) as [->|]; [congruence|exact L].
    + intros g d. rewrite LK. destruct (Nat.eqb_spec g f) as [->|].
      * intros H. injection H as <-. left. left. reflexivity.
      * intros H. apply (i2 w I) in H. destruct H as [H|H]; [rewrite EL in H; destruct H|right; exact H].
    + unfold known. cbn [queue lp threads lconn map snd app]. pose proof (i3 w I) as N. unfold known in N. rewrite EL, EQ in N. cbn [lconn map app] in N.
      eapply Permutation_NoDup; [|exact N]. apply Permutation_middle.
    + intros d. pose proof (i4 w I d) as N. unfold known in *. rewrite EL, EQ in N. cbn [queue lp threads lconn map snd app] in *. rewrite <- N. cbn [In]. rewrite !in_app_iff. cbn [In]. tauto.
    + intros g H. apply (i5 w I) in H. destruct H as [(d & [H|H])|H]; try congruence. right. exact H.
    + intros todo Hm g H. apply (i6 w I todo Hm) in H. destruct H as [(d & [H'|H'])|H']; try congruence. right. exact H'.
  - (* Insert *) apply GU in E. destruct (lp w) as [|f c| |] eqn:EL; try discriminate E. destruct (mon w) eqn:EM; [|discriminate E]. injection E as <-.
    constructor; keep w I; unfold setLoop, setActive; cbn [lp threads active mon conns queue log].
    + intros g d H. apply (i1 w I). rewrite EL. exact H.
    + intros g d H. apply (i2 w I) in H. rewrite EL in H. exact H.
    + pose proof (i3 w I) as N. unfold known in *. rewrite EL in N. exact N.
    + intros d. pose proof (i4 w I d) as N. unfold known in *. rewrite EL in N. exact N.
    + intros g H. assert (H' : g = f \/ In g (active w)) by (destruct (existsb _ _); [auto|destruct H; auto]). destruct H' as [->|H']; [left; exists c; auto|].
      apply (i5 w I) in H'. destruct H' as [(d & [H'|H'])|H']; try congruence. right. exact H'.
    + intros todo H. congruence.
  - (* Spawn *) apply GU in E. destruct (lp w) as [| |f c|] eqn:EL; try discriminate E. destruct (128 <? length (threads w)); injection E as <-.
    + constructor; keep w I; unfold setLoop; cbn [lp threads active mon conns queue log].
      * intros g d H. apply (i1 w I). rewrite EL. exact H.
      * intros g d H. apply (i2 w I) in H. rewrite EL in H. exact H.
      * pose proof (i3 w I) as N. unfold known in *. rewrite EL in N. exact N.
      * intros d. pose proof (i4 w I d) as N. unfold known in *. rewrite EL in N. exact N.
      * intros g H. apply (i5 w I) in H. destruct H as [(d & [H|H])|H]; try congruence; [|right; exact H]. rewrite EL in H. injection H as -> ->. left. exists d. auto.
      * intros todo Hm g H. apply (i6 w I todo Hm) in H. destruct H as [(d & [H'|H'])|H']; try congruence; [|right; exact H']. rewrite EL in H'. injection H' as -> ->. left. exists d. auto.
    + assert (UP : forall t x, nth_error (threads w) t = Some x -> nth_error (threads w ++ [Thread f c Serving]) t = Some x).
      { intros t x H. rewrite nth_error_app1; auto. apply nth_error_Some. congruence. }
      assert (NEW : nth_error (threads w ++ [Thread f c Serving]) (length (threads w)) = Some (Thread f c Serving)) by (rewrite nth_error_app2, Nat.sub_diag by lia; reflexivity).
      assert (HU : forall g, held (LInserted f c) (threads w) g -> held LAccept (threads w ++ [Thread f c Serving]) g).
      { intros g [(d & [H|H])|(t & d & p & H & P)]; [injection H as <- <-|discriminate H|]; right; [exists (length (threads w)), c, Serving; auto|exists t, d, p; auto]. }
      constructor; keep w I; unfold setLoop, setThreads; cbn [lp threads active mon conns queue log].
      * intros g d [[]|(t & p & H & P)]. apply nth_snoc in H as [H|[_ H]].
        -- apply (i1 w I). right. eauto.
        -- injection H as -> -> ->. apply (i1 w I). rewrite EL. left. left. reflexivity.
      * intros g d H. apply (i2 w I) in H. rewrite EL in H. destruct H as [[H|[]]|(t & p & H & P)]; right.
        -- injection H as <- <-. exists (length (threads w)), Serving. split; [exact NEW|discriminate].
        -- exists t, p. auto.
      * pose proof (i3 w I) as N. unfold known in *. rewrite EL in N. cbn [queue lp threads lconn map snd app] in *. rewrite map_app. cbn [map mine].
        eapply Permutation_NoDup; [|exact N]. apply Permutation_app_head. apply Permutation_cons_append.
      * intros d. pose proof (i4 w I d) as N. unfold known in *. rewrite EL in N. cbn [queue lp threads lconn map snd app] in *. rewrite <- N, map_app. rewrite !in_app_iff. cbn [map mine In]. tauto.
      * intros g H. apply HU. rewrite <- EL. apply (i5 w I _ H).
      * intros todo Hm g H. apply HU. rewrite <- EL. apply (i6 w I todo Hm _ H).
      * intros t g d p H P. apply nth_snoc in H as [H|[_ H]]; [apply (i7 w I t g d p H P)|congruence].
      * intros e H. apply (fine_same w); auto; [|apply (i9 w I _ H)]. cbn [threads]. intros t g d p Ht. exists g, p. apply UP, Ht.
  - (* MonIn *) apply GU in E. destruct (mon w); [|discriminate E]. injection E as <-. constructor; keep w I. cbn. intros todo H. injection H as <-. exact (i5 w I).
  - (* MonVisit *) apply GU in E. destruct (mon w) as [|[|f fs]] eqn:EM; try discriminate E. rewrite (connected w f I) in E by (apply (i6 w I _ EM); left; auto). injection E as <-.
    constructor; keep w I. cbn. intros todo H. injection H as <-. intros g Hg. apply (i6 w I _ EM). right. exact Hg.
  - (* MonOut *) apply GU in E. destruct (mon w) as [|[|f fs]]; try discriminate E. injection E as <-. constructor; keep w I. cbn. intros todo H. discriminate H.
  - (* Serve *) apply GU in E. destruct (nth_error (threads w) t) as [[f o []]|] eqn:T; try discriminate E. destruct (look w f) as [[c|]|] eqn:L; try discriminate E.
    destruct (nth_error (conns w) c) as [[[] []]|]; try discriminate E. injection E as <-. constructor; keep w I. cbn [log]. intros e H. apply in_app_or in H as [H|[<-|[]]].
    + apply (i9 w I _ H).
    + cbn. assert (L' : look w f = Some (OConn o)) by (apply (i1 w I); right; exists t, Serving; split; [exact T|discriminate]). rewrite L in L'. injection L' as <-. eauto.
  - (* Leave *) apply GU in E. destruct (nth_error (threads w) t) as [[f o []]|] eqn:T; try discriminate E.
    assert (L' : look w f = Some (OConn o)) by (apply (i1 w I); right; exists t, Serving; split; [exact T|discriminate]). rewrite L' in E.
    assert (NG : ~ good w o). { intros G. rewrite G in E. discriminate E. }
    assert (E' : w' = setThreads (setAt t (Thread f o Leaving) (threads w)) w).
    { destruct (nth_error (conns w) o) as [[[] []]|]; try discriminate E; injection E as <-; reflexivity. } clear E. subst w'.
    assert (AT := setAt_at t (Thread f o Leaving) _ _ T).
    assert (HO : forall g d, holder (lp w) (setAt t (Thread f o Leaving) (threads w)) g d <-> holder (lp w) (threads w) g d).
    { intros g d. split; (intros [H|(u & p & H & P)]; [left; exact H|right]).
      - rewrite AT in H. destruct (Nat.eqb_spec u t) as [->|]; [injection H as <- <- <-; exists t, Serving; split; [exact T|discriminate]|eauto].
      - destruct (Nat.eq_dec u t) as [->|N]; [rewrite T in H; injection H as <- <- <-; exists t, Leaving; rewrite AT, Nat.eqb_refl; split; [auto|discriminate]|].
        exists u, p. rewrite AT, (proj2 (Nat.eqb_neq _ _) N). auto. }
    assert (HU : forall g, held (lp w) (threads w) g -> held (lp w) (setAt t (Thread f o Leaving) (threads w)) g).
    { intros g [H|(u & d & p & H & P)]; [left; exact H|right]. destruct (Nat.eq_dec u t) as [->|N].
      - rewrite T in H. injection H as <- <- <-. exists t, o, Leaving. rewrite AT, Nat.eqb_refl. auto.
      - exists u, d, p. rewrite AT, (proj2 (Nat.eqb_neq _ _) N). auto. }
    constructor; keep w I; unfold setThreads; cbn [lp threads active mon conns queue log].
    + intros g d H. apply (i1 w I). apply HO, H.
    + intros g d H. apply HO. apply (i2 w I). exact H.
    + unfold known. cbn [queue lp threads]. rewrite (setAt_map mine _ _ _ _ T) by reflexivity. exact (i3 w I).
    + intros d. unfold known. cbn [queue lp threads]. rewrite (setAt_map mine _ _ _ _ T) by reflexivity. exact (i4 w I d).
    + intros g H. apply HU, (i5 w I _ H).
    + intros todo Hm g H. apply HU, (i6 w I todo Hm _ H).
    + intros u g d p H P. rewrite AT in H. destruct (Nat.eqb_spec u t) as [->|]; [injection H as <- <- <-; exact NG|apply (i7 w I u g d p H P)].
    + intros e H. apply (fine_same w); auto; [|apply (i9 w I _ H)]. cbn [threads]. intros u g d p Hu. rewrite AT. destruct (Nat.eqb_spec u t) as [->|]; [|eauto]. rewrite T in Hu. injection Hu as <- <- <-. eauto.
  - (* Erase *) apply GU in E. destruct (nth_error (threads w) t) as [[f o []]|] eqn:T; try discriminate E. destruct (mon w) eqn:EM; [|discriminate E]. injection E as <-.
    assert (AT := setAt_at t (Thread f o Erased) _ _ T).
    assert (HO : forall g d, holder (lp w) (setAt t (Thread f o Erased) (threads w)) g d <-> holder (lp w) (threads w) g d).
    { intros g d. split; (intros [H|(u & p & H & P)]; [left; exact H|right]).
      - rewrite AT in H. destruct (Nat.eqb_spec u t) as [->|]; [injection H as <- <- <-; exists t, Leaving; split; [exact T|discriminate]|eauto].
      - destruct (Nat.eq_dec u t) as [->|N]; [rewrite T in H; injection H as <- <- <-; exists t, Erased; rewrite AT, Nat.eqb_refl; split; [auto|discriminate]|].
        exists u, p. rewrite AT, (proj2 (Nat.eqb_neq _ _) N). auto. }
    constructor; keep w I; unfold setActive, setThreads; cbn [lp threads active mon conns queue log].
    + intros g d H. apply (i1 w I). apply HO, H.
    + intros g d H. apply HO. apply (i2 w I). exact H.
    + unfold known. cbn [queue lp threads]. rewrite (setAt_map mine _ _ _ _ T) by reflexivity. exact (i3 w I).
    + intros d. unfold known. cbn [queue lp threads]. rewrite (setAt_map mine _ _ _ _ T) by reflexivity. exact (i4 w I d).
    + intros g H. unfold erase in H. apply filter_In in H as [H N]. destruct (Nat.eqb_spec g f) as [|N']; [discriminate N|]. apply (i5 w I) in H. destruct H as [H|(u & d & p & H & P)]; [left; exact H|right].
      exists u, d, p. rewrite AT. destruct (Nat.eqb_spec u t) as [->|]; [|auto]. rewrite T in H. congruence.
    + intros todo Hm. congruence.
    + intros u g d p H P. rewrite AT in H. destruct (Nat.eqb_spec u t) as [->|]; [injection H as <- <- <-|]; [apply (i7 w I t f o Leaving T)|apply (i7 w I u g d p H P)]. discriminate.
    + intros e H. apply (fine_same w); auto; [|apply (i9 w I _ H)]. cbn [threads]. intros u g d p Hu. rewrite AT. destruct (Nat.eqb_spec u t) as [->|]; [|eauto]. rewrite T in Hu. injection Hu as <- <- <-. eauto.
  - (* End *) destruct (nth_error (threads w) t) as [[f o []]|] eqn:T; try discriminate E. injection E as <-.
    assert (L' : look w f = Some (OConn o)) by (apply (i1 w I); right; exists t, Erased; split; [exact T|discriminate]).
    assert (AT := setAt_at t (Thread f o Ended) _ _ T).
    unfold close. change (look (setThreads (setAt t (Thread f o Ended) (threads w)) w) f) with (look w f). rewrite L'. unfold setThreads. cbn [tab conns queue lp active mon threads freed log].
    set (w' := World _ _ _ _ _ _ _ _ _).
    assert (LK : forall g, look w' g = if g =? f then None else look w g) by (intros g; unfold look; cbn [w' tab]; apply nth_put).
    constructor; keep w I; cbn [w' lp threads active mon conns queue log].
    + intros g d H. rewrite LK. assert (Q : holder (lp w) (threads w) g d /\ g <> f) by
      (destruct H as [H|(u & p & H & P)];
       [split; [left; exact H|intros ->; assert (look w f = Some (OConn d)) as LL by (apply (i1 w I); left; exact H); rewrite L' in LL; injection LL as <-; apply (not_both w t f o Erased f I T H)]|
        rewrite AT in H; destruct (Nat.eqb_spec u t) as [->|N]; [congruence|]; split; [right; eauto|intros ->; assert (look w f = Some (OConn d)) as LL by (apply (i1 w I); right; eauto); rewrite L' in LL; injection LL as <-; apply N; apply (one_thread w u t _ _ _ _ _ I H T)]]).
      destruct Q as [Q N]. rewrite (proj2 (Nat.eqb_neq _ _) N). apply (i1 w I), Q.
    + intros g d. rewrite LK. destruct (Nat.eqb_spec g f) as [|N]; [discriminate|]. intros H. apply (i2 w I) in H. destruct H as [H|(u & p & H & P)]; [left; exact H|right]. exists u, p. rewrite AT.
      destruct (Nat.eqb_spec u t) as [->|]; [rewrite T in H; congruence|auto].
    + unfold known. cbn [w' queue lp threads]. rewrite (setAt_map mine _ _ _ _ T) by reflexivity. exact (i3 w I).
    + intros d. unfold known. cbn [w' queue lp threads]. rewrite (setAt_map mine _ _ _ _ T) by reflexivity. exact (i4 w I d).
    + intros g H. apply (i5 w I) in H. destruct H as [H|(u & d & p & H & P)]; [left; exact H|right].
      exists u, d, p. rewrite AT. destruct (Nat.eqb_spec u t) as [->|]; [|auto]. rewrite T in H. injection H as <- <- <-. destruct P; discriminate.
    + intros todo Hm g H. apply (i6 w I todo Hm) in H. destruct H as [H|(u & d & p & H & P)]; [left; exact H|right].
      exists u, d, p. rewrite AT. destruct (Nat.eqb_spec u t) as [->|]; [|auto]. rewrite T in H. injection H as <- <- <-. destruct P; discriminate.
    + intros u g d p H P. rewrite AT in H. destruct (Nat.eqb_spec u t) as [->|]; [injection H as <- <- <-; apply (i7 w I t f o Erased T); discriminate|apply (i7 w I u g d p H P)].
    + intros e H. apply in_app_or in H as [H|[<-|[]]].
      * apply (fine_same w); auto; [|apply (i9 w I _ H)]. cbn [w' threads]. intros u g d p Hu. rewrite AT. destruct (Nat.eqb_spec u t) as [->|]; [|eauto]. rewrite T in Hu. injection Hu as <- <- <-. eauto.
      * split; [apply (known_conn w o f t Erased I T)|]. apply (i7 w I t f o Erased T). discriminate.
  - (* OpenFile *) injection E as <-. set (f := lowest (tab w)). assert (LF : look w f = None) by apply lowest_free. set (w' := World _ _ _ _ _ _ _ _ _).
    assert (LK : forall g, look w' g = if g =? f then Some OFile else look w g) by (intros g; unfold look; cbn [w' tab]; apply nth_put).
    constructor; keep w I; cbn [w' lp threads active mon conns queue log].
    + intros g d H. apply (i1 w I) in H. rewrite LK. destruct (Nat.eqb_spec g f) as [->|]; [congruence|exact H].
    + intros g d. rewrite LK. destruct (g =? f); [discriminate|apply (i2 w I)].
  - (* CloseFile *) destruct (look w f) as [[c|]|] eqn:LF; try discriminate E. injection E as <-. set (w' := World _ _ _ _ _ _ _ _ _).
    assert (LK : forall g, look w' g = if g =? f then None else look w g) by (intros g; unfold look; cbn [w' tab]; apply nth_put).
    constructor; keep w I; cbn [w' lp threads active mon conns queue log].
    + intros g d H. apply (i1 w I) in H. rewrite LK. destruct (Nat.eqb_spec g f) as [->|]; [congruence|exact H].
    + intros g d. rewrite LK. destruct (g =? f); [discriminate|apply (i2 w I)].
  - destruct HD. auto.
Qed.

Lemma step_not_freed l w : freed w = false -> step l w <> Freed.
Proof.
  intros Hf E. assert (GU : forall r, guarded w r = Freed -> r = Freed) by (intros r H; unfold guarded in H; rewrite Hf in H; destruct r; congruence).
  destruct l as [|c|c|c| | | | | | |t|t|t|t| |f|]; cbn [step] in E; try (apply GU in E); try discriminate E; unfold clientDoes in E;
  repeat match type of E with
  | context [match nth_error ?l ?i with _ => _ end] => destruct (nth_error l i) as [[]|]
  | context [match ?x with _ => _ end] => destruct x
  end; discriminate E.
Qed.
Lemma run_snoc ls l : forall w w', run (ls ++ [l]) w = To w' <-> exists w1, run ls w = To w1 /\ step l w1 = To w'.
Proof.
  induction ls as [|x ls IH]; intros w w'; cbn [app run].
  - split.
    + intros E. exists w. split; auto. destruct (step l w); auto.
    + intros (w1 & E & E'). injection E as <-. rewrite E'. reflexivity.
  - destruct (step x w) as [| |w1]; [| |apply IH]; (split; [discriminate|]; intros (? & E & _); discriminate E).
Qed.
Lemma run_inv ls : calm ls -> forall w, run ls init = To w -> inv w.
Proof.
  induction ls as [|l ls IH] using rev_ind; intros [C1 C2] w E.
  - injection E as <-. apply init_inv.
  - apply run_snoc in E as (w1 & E1 & E2). apply (step_inv l w1); auto.
    + apply IH; auto. split; [intros H; apply C1, in_or_app; auto|intros c H; apply (C2 c), in_or_app; auto].
    + intros ->. apply C1, in_or_app. right. left. reflexivity.
    + intros c ->. apply (C2 c), in_or_app. right. left. reflexivity.
Qed.
Lemma step_keeps l w w' : freed w = false -> l <> Destroy -> step l w = To w' -> freed w' = false.
Proof.
  intros Hf HD E. assert (GU : forall r, guarded w r = To w' -> r = To w') by (intros r H; unfold guarded in H; rewrite Hf in H; destruct r; congruence).
  destruct l as [|c|c|c| | | | | | |t|t|t|t| |f|]; cbn [step] in E; try (apply GU in E); try congruence; unfold clientDoes in E;
  repeat match type of E with
  | context [match nth_error ?l ?i with _ => _ end] => destruct (nth_error l i) as [[]|]
  | context [match ?x with _ => _ end] => destruct x
  end; try discriminate E; injection E as <-; exact Hf.
Qed.
