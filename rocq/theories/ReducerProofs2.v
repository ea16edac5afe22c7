(** Proofs: one rank's part of a backward pass. *)
From Coq Require Import ZArith List Bool Arith Lia ZifyBool Reals Permutation.
From Verif Require Import ReducerModel ReducerSpec ReducerProofs.
Import ListNotations.
Open Scope nat_scope.

Lemma update_split : forall {A} (l1 : list A) x l2 y, update (l1 ++ x :: l2) (length l1) y = l1 ++ y :: l2.
Proof.
  intros A l1 x l2 y. unfold update. rewrite firstn_app, skipn_app, firstn_all, skipn_all, Nat.sub_diag.
  cbn. rewrite app_nil_r. reflexivity.
Qed.
Lemma nth_split' : forall {A} (l : list A) n x, nth_error l n = Some x -> exists l1 l2, l = l1 ++ x :: l2 /\ length l1 = n.
Proof. intros A l n x H. apply nth_error_split in H. destruct H as (l1 & l2 & -> & <-). eauto. Qed.
Lemma update_length : forall {A} (l : list A) n y, n < length l -> length (update l n y) = length l.
Proof.
  intros A l n y H. destruct (nth_error l n) as [x|] eqn:E; [|apply nth_error_None in E; lia].
  destruct (nth_split' _ _ _ E) as (l1 & l2 & -> & <-). rewrite update_split, !app_length. reflexivity.
Qed.
Lemma update_same : forall {A} (l : list A) n y d, n < length l -> nth n (update l n y) d = y.
Proof.
  intros A l n y d H. destruct (nth_error l n) as [x|] eqn:E; [|apply nth_error_None in E; lia].
  destruct (nth_split' _ _ _ E) as (l1 & l2 & -> & <-). rewrite update_split.
  rewrite app_nth2, Nat.sub_diag by lia. reflexivity.
Qed.
Lemma update_other : forall {A} (l : list A) n m y d, n < length l -> m <> n -> nth m (update l n y) d = nth m l d.
Proof.
  intros A l n m y d H N. destruct (nth_error l n) as [x|] eqn:E; [|apply nth_error_None in E; lia].
  destruct (nth_split' _ _ _ E) as (l1 & l2 & -> & <-). rewrite update_split.
  destruct (Nat.lt_ge_cases m (length l1)); [rewrite !app_nth1 by lia; reflexivity|].
  rewrite !app_nth2 by lia. destruct (m - length l1) as [|k] eqn:Ek; [lia|]. reflexivity.
Qed.

Lemma NoDup_app_intro_one : forall {A} (l : list A) x, NoDup l -> ~ In x l -> NoDup (l ++ [x]).
Proof. intros A l x N H. apply (Permutation_NoDup (l := x :: l)); [apply Permutation_cons_append|constructor; assumption]. Qed.

(** * Slices of a flat buffer *)
Lemma concat_len : forall (l : list (list R)), length (concat l) = list_sum (map (@length R) l).
Proof. induction l as [|x l IH]; [reflexivity|]. cbn [concat map]. rewrite app_length, IH. reflexivity. Qed.
Lemma slices_concat : forall sizes l, length l = list_sum sizes -> concat (slices sizes l) = l.
Proof.
  induction sizes as [|s r IH]; intros l H; cbn [slices concat].
  - destruct l; [reflexivity|]. cbn in H. lia.
  - change (list_sum (s :: r)) with (s + list_sum r) in H.
    rewrite IH by (rewrite skipn_length; lia). apply firstn_skipn.
Qed.
Lemma slices_len : forall sizes l, length l = list_sum sizes -> map (@length R) (slices sizes l) = sizes.
Proof.
  induction sizes as [|s r IH]; intros l H; cbn [slices map]; [reflexivity|].
  change (list_sum (s :: r)) with (s + list_sum r) in H.
  rewrite IH by (rewrite skipn_length; lia). rewrite firstn_length_le by lia. reflexivity.
Qed.
Lemma slices_pieces : forall pieces, slices (map (@length R) pieces) (concat pieces) = pieces.
Proof.
  induction pieces as [|x r IH]; [reflexivity|]. cbn [map slices concat].
  rewrite firstn_app, Nat.sub_diag, firstn_all, firstn_O, app_nil_r.
  rewrite skipn_app, Nat.sub_diag, skipn_all. cbn [app skipn]. rewrite IH. reflexivity.
Qed.
Lemma slices_map : forall (f : R -> R) sizes l, slices sizes (map f l) = map (map f) (slices sizes l).
Proof.
  induction sizes as [|s r IH]; intros l; [reflexivity|]. cbn [slices map].
  rewrite firstn_map, skipn_map, IH. reflexivity.
Qed.

Lemma tiling_at : forall offs sizes st stop p off s, tiling st offs sizes stop ->
  nth_error offs p = Some off -> nth_error sizes p = Some s -> off = st + list_sum (firstn p sizes).
Proof.
  induction offs as [|o offs IH]; intros [|z sizes] st stop p off s T Ho Hs; try (destruct p; discriminate).
  cbn [tiling] in T. destruct T as (-> & T). destruct p as [|p]; cbn in Ho, Hs.
  - injection Ho as <-. cbn. lia.
  - cbn [firstn]. change (list_sum (z :: firstn p sizes)) with (z + list_sum (firstn p sizes)).
    rewrite (IH _ _ _ _ _ _ T Ho Hs). lia.
Qed.
Lemma tiling_length : forall offs sizes st stop, tiling st offs sizes stop -> length offs = length sizes.
Proof.
  induction offs as [|o offs IH]; intros [|z sizes] st stop T; cbn in T; try contradiction; [reflexivity|].
  destruct T as (_ & T). cbn. f_equal. eapply IH. exact T.
Qed.

Lemma copy_piece : forall pieces offs stop p off s g,
  tiling 0 offs (map (@length R) pieces) stop -> nth_error offs p = Some off ->
  nth_error (map (@length R) pieces) p = Some s -> 0 < s -> length g = s ->
  copySlice (concat pieces) off s g = Some (concat (update pieces p g)).
Proof.
  intros pieces offs stop p off s g T Ho Hs Hp Hg.
  pose proof (tiling_at _ _ _ _ _ _ _ T Ho Hs) as E. cbn in E.
  destruct (nth_error pieces p) as [x|] eqn:Ex.
  2:{ apply nth_error_None in Ex. assert (p < length (map (@length R) pieces)) by (apply nth_error_Some; congruence). rewrite map_length in H. lia. }
  rewrite (map_nth_error _ _ _ Ex) in Hs. injection Hs as Hs.
  destruct (nth_split' _ _ _ Ex) as (l1 & l2 & -> & <-).
  rewrite update_split, !concat_app. cbn [concat].
  assert (Eo : off = length (concat l1)).
  { rewrite concat_len, E. rewrite map_app, firstn_app. rewrite map_length, Nat.sub_diag, firstn_O, app_nil_r.
    rewrite <- (map_length (@length R) l1), firstn_all. reflexivity. }
  clear E Ho T Ex. subst off. unfold copySlice.
  assert (C : ((length (concat l1) <? length (concat l1 ++ x ++ concat l2)) && (length (concat l1) + s <=? length (concat l1 ++ x ++ concat l2)) && (length g =? s)) = true).
  { rewrite !app_length. lia. }
  rewrite C. f_equal. rewrite firstn_app, Nat.sub_diag, firstn_all, firstn_O, app_nil_r. f_equal. f_equal.
  rewrite skipn_app. rewrite skipn_all2 by lia. replace (length (concat l1) + s - length (concat l1)) with s by lia.
  rewrite skipn_app, <- Hs, skipn_all, Nat.sub_diag. reflexivity.
Qed.

(** * Counting arrivals *)
Definition inb (b : nat) (x : nat * nat) : bool := fst x =? b.
Definition count (d : list (nat * nat)) (b : nat) : nat := length (filter (inb b) d).
Lemma count_app : forall d e b, count (d ++ e) b = count d b + count e b.
Proof. intros. unfold count. rewrite filter_app, app_length. reflexivity. Qed.
Lemma of_bucket : forall d b np, NoDup d -> (forall p, In (b, p) d -> p < np) ->
  let l := map snd (filter (inb b) d) in NoDup l /\ incl l (seq 0 np) /\ length l = count d b /\ (forall p, In p l <-> In (b, p) d).
Proof.
  intros d b np N H l.
  assert (I : forall p, In p l <-> In (b, p) d).
  { intros p. unfold l. rewrite in_map_iff. split.
    - intros ((b', p') & E & Q). cbn in E. subst p'. apply filter_In in Q. destruct Q as (Q & Q'). unfold inb in Q'. cbn in Q'.
      apply Nat.eqb_eq in Q'. subst. exact Q.
    - intros Q. exists (b, p). split; [reflexivity|]. apply filter_In. split; [exact Q|]. apply Nat.eqb_refl. }
  split; [|split; [|split; [unfold l, count; apply map_length|exact I]]].
  - clear I H. subst l. induction N as [|(b', p') d Hn N IH]; [constructor|]. cbn [filter]. unfold inb at 1. cbn [fst].
    destruct (b' =? b) eqn:E; [|exact IH]. cbn [map snd]. constructor; [|exact IH].
    rewrite in_map_iff. intros ((b2, p2) & E2 & Q). apply filter_In in Q. destruct Q as (Q & Q'). unfold inb in Q'. cbn in E2, Q'.
    apply Nat.eqb_eq in E, Q'. subst. contradiction.
  - intros p Hp. apply I in Hp. apply in_seq. specialize (H p Hp). lia.
Qed.
Lemma count_le : forall d b np, NoDup d -> (forall p, In (b, p) d -> p < np) -> count d b <= np.
Proof.
  intros d b np N H. destruct (of_bucket d b np N H) as (A & B & C & _). rewrite <- C, <- (seq_length np 0).
  apply NoDup_incl_length; assumption.
Qed.
Lemma count_full : forall d b np, NoDup d -> (forall p, In (b, p) d -> p < np) -> count d b = np -> forall p, p < np -> In (b, p) d.
Proof.
  intros d b np N H E p Hp. destruct (of_bucket d b np N H) as (A & B & C & D). apply D.
  apply (NoDup_length_incl (l' := seq 0 np) A); [rewrite C, E, seq_length; lia|exact B|apply in_seq; lia].
Qed.
Lemma full_count : forall d b np, NoDup d -> (forall p, In (b, p) d <-> p < np) -> count d b = np.
Proof.
  intros d b np N H. destruct (of_bucket d b np N (fun p Hp => proj1 (H p) Hp)) as (A & B & C & D). rewrite <- C.
  apply Nat.le_antisymm; [rewrite <- (seq_length np 0); apply NoDup_incl_length; assumption|].
  rewrite <- (seq_length np 0). apply NoDup_incl_length; [apply seq_NoDup|].
  intros p Hp. apply D, H. apply in_seq in Hp. lia.
Qed.
Lemma count_zero : forall d b, existsb (fun x => fst x =? b) d = false <-> count d b = 0.
Proof.
  intros d b. unfold count. change (fun x : nat * nat => fst x =? b) with (inb b).
  induction d as [|x d IH]; [cbn; tauto|]. cbn [existsb filter].
  destruct (inb b x); cbn; [split; [discriminate|lia]|exact IH].
Qed.

(** * The invariant of a rank *)
Section Pass.
  Variables (bs : list bucket) (e cap : Z) (i : input).
  Hypothesis W : Forall (well e cap) bs.
  Hypothesis P : forall bk q, In bk bs -> In q (bparams bk) -> 0 < pnumel q.
  Hypothesis F : fits bs i.

  Definition np (bk : bucket) := length (bparams bk).
  Definition gl (b : nat) (bk : bucket) : list (list R) := map (grad i b) (seq 0 (np bk)).
  Definition inrange (d : list (nat * nat)) := forall b p, In (b, p) d -> exists bk, nth_error bs b = Some bk /\ p < np bk.

  Definition inv (d : list (nat * nat)) (st : rank) : Prop :=
    length (bufs st) = length bs /\ length (readyCnt st) = length bs /\ length (started st) = length bs /\
    (forall b bk, nth_error bs b = Some bk ->
       nth b (readyCnt st) 0 = count d b /\ nth b (started st) false = (count d b =? np bk) /\
       exists pieces, nth b (bufs st) [] = concat pieces /\ map (@length R) pieces = bsizes bk /\
         forall p, In (b, p) d -> nth p pieces [] = grad i b p) /\
    NoDup (map fst (issued st)) /\
    (forall b x, In (b, x) (issued st) -> exists bk, nth_error bs b = Some bk /\ x = concat (gl b bk) /\ count d b = np bk) /\
    (forall b bk, nth_error bs b = Some bk -> count d b = np bk -> In b (map fst (issued st))).

  Lemma well_nth : forall b bk, nth_error bs b = Some bk -> well e cap bk.
  Proof. intros b bk H. rewrite Forall_forall in W. apply W. eapply nth_error_In. exact H. Qed.
  Lemma sizes_len : forall b bk, nth_error bs b = Some bk -> map (@length R) (gl b bk) = bsizes bk.
  Proof.
    intros b bk H. destruct (well_nth _ _ H) as (_ & -> & _). unfold gl, np. destruct F as (_ & G). destruct (G b bk H) as (_ & G').
    rewrite map_map. apply (nth_ext _ _ 0 0); [rewrite !map_length, seq_length; reflexivity|].
    intros p Hp. rewrite map_length, seq_length in Hp.
    destruct (nth_error (bparams bk) p) as [q|] eqn:E; [|apply nth_error_None in E; lia].
    rewrite (nth_indep _ 0 (length (grad i b 0))) by (rewrite map_length, seq_length; lia).
    rewrite (map_nth (fun x => length (grad i b x))), seq_nth by lia. cbn. rewrite (G' _ _ E).
    symmetry. apply nth_error_nth. apply map_nth_error. exact E.
  Qed.
  Lemma pieces_full : forall b bk pieces, nth_error bs b = Some bk -> map (@length R) pieces = bsizes bk ->
    (forall p, p < np bk -> nth p pieces [] = grad i b p) -> pieces = gl b bk.
  Proof.
    intros b bk pieces H L A. destruct (well_nth _ _ H) as (_ & Z & _).
    assert (Lp : length pieces = np bk) by (rewrite <- (map_length (@length R)), L, Z, map_length; reflexivity).
    apply (nth_ext _ _ [] []); [unfold gl; rewrite map_length, seq_length; exact Lp|].
    intros p Hp. rewrite A by lia. unfold gl. rewrite (nth_indep _ [] (grad i b 0)) by (rewrite map_length, seq_length; lia).
    rewrite (map_nth (grad i b)), seq_nth by lia. reflexivity.
  Qed.

  Lemma inv_start : inv [] (prepare bs (stale i)).
  Proof.
    unfold inv, prepare. cbn [bufs readyCnt started issued]. rewrite !map_length. destruct F as (Fl & G).
    split; [exact Fl|]. split; [reflexivity|]. split; [reflexivity|].
    split; [|split; [constructor|split; [intros b x []|]]].
    - intros b bk H. destruct (well_nth _ _ H) as (N & Z & T & S & _).
      assert (Hb : b < length bs) by (apply nth_error_Some; congruence).
      split; [apply (nth_error_nth (map (fun _ => 0) bs)); apply (map_nth_error (fun _ : bucket => 0) _ _ H)|].
      split.
      + rewrite (nth_error_nth (map (fun _ => false) bs) b false (map_nth_error (fun _ : bucket => false) _ _ H)).
        unfold count, np. cbn. destruct (bparams bk); [congruence|reflexivity].
      + destruct (G b bk H) as (Lb & _). exists (slices (bsizes bk) (nth b (stale i) [])).
        rewrite slices_concat by (rewrite Lb, S, Z; reflexivity). split; [reflexivity|].
        split; [apply slices_len; rewrite Lb, S, Z; reflexivity|]. intros p [].
    - intros b bk H E. exfalso. destruct (well_nth _ _ H) as (N & _). unfold count, np in E. cbn in E. destruct (bparams bk); [congruence|discriminate].
  Qed.

  Lemma inv_step : forall d st b p, inv d st -> NoDup (d ++ [(b, p)]) -> inrange (d ++ [(b, p)]) ->
    exists st', onGradReady bs st b p (grad i b p) = Some st' /\ inv (d ++ [(b, p)]) st' /\
      (forall bk, nth_error bs b = Some bk ->
       issued st' = issued st ++ (if count (d ++ [(b, p)]) b =? np bk then [(b, concat (gl b bk))] else [])).
  Proof.
    intros d st b p (L1 & L2 & L3 & B & ND & I1 & I2) N Rg.
    destruct (Rg b p) as (bk & Hb & Hp); [apply in_or_app; right; left; reflexivity|].
    destruct (B b bk Hb) as (C & Sx & pieces & Eb & Lp & Ep).
    destruct (well_nth _ _ Hb) as (Ne & Z & T & Tot & _).
    assert (Hlt : b < length bs) by (apply nth_error_Some; congruence).
    destruct (nth_error (bparams bk) p) as [q|] eqn:Eq; [|apply nth_error_None in Eq; unfold np in Hp; lia].
    assert (Pq : 0 < pnumel q) by (apply (P bk q); eapply nth_error_In; eassumption).
    assert (Hsz : nth_error (bsizes bk) p = Some (pnumel q)) by (rewrite Z; apply map_nth_error; exact Eq).
    destruct (nth_error (boffsets bk) p) as [off|] eqn:Eo.
    2:{ apply nth_error_None in Eo. rewrite (tiling_length _ _ _ _ T), Z, map_length in Eo. unfold np in Hp. lia. }
    assert (Ht : (btotal bk =? 0) = false).
    { apply Nat.eqb_neq. rewrite Tot. destruct (nth_split' _ _ _ Eq) as (l1 & l2 & -> & _).
      rewrite map_app, list_sum_app. cbn. lia. }
    assert (Gq : length (grad i b p) = pnumel q) by (destruct F as (_ & G); apply (proj2 (G b bk Hb)); exact Eq).
    assert (Cp : copySlice (concat pieces) off (pnumel q) (grad i b p) = Some (concat (update pieces p (grad i b p)))).
    { apply (copy_piece pieces (boffsets bk) (btotal bk)); rewrite ?Lp; auto. }
    assert (Lpp : p < length pieces) by (rewrite <- (map_length (@length R)), Lp, Z, map_length; exact Hp).
    assert (Rb : forall p0, In (b, p0) (d ++ [(b, p)]) -> p0 < np bk).
    { intros p0 H0. destruct (Rg b p0 H0) as (bk' & E' & H'). congruence. }
    assert (C1 : count (d ++ [(b, p)]) b = S (count d b)).
    { rewrite count_app. unfold count at 2. cbn. unfold inb. cbn. rewrite Nat.eqb_refl. cbn. lia. }
    assert (Co : forall b', b' <> b -> count (d ++ [(b, p)]) b' = count d b').
    { intros b' Hn. rewrite count_app. unfold count at 2. cbn. unfold inb. cbn. destruct (b =? b') eqn:E'; [apply Nat.eqb_eq in E'; congruence|]. cbn. lia. }
    assert (Le : S (count d b) <= np bk) by (rewrite <- C1; apply count_le; assumption).
    assert (St : nth b (started st) false = false) by (rewrite Sx; apply Nat.eqb_neq; lia).
    assert (Lu : map (@length R) (update pieces p (grad i b p)) = bsizes bk).
    { rewrite <- Lp. destruct (nth_error pieces p) as [x|] eqn:Ex; [|apply nth_error_None in Ex; lia].
      assert (Hx : length x = pnumel q).
      { rewrite <- Lp in Hsz. rewrite (map_nth_error _ _ _ Ex) in Hsz. congruence. }
      destruct (nth_split' _ _ _ Ex) as (l1 & l2 & -> & <-). rewrite update_split, !map_app. cbn. congruence. }
    assert (Eu : forall p0, In (b, p0) (d ++ [(b, p)]) -> nth p0 (update pieces p (grad i b p)) [] = grad i b p0).
    { intros p0 H0. destruct (Nat.eq_dec p0 p) as [->|Hn]; [apply update_same; exact Lpp|].
      rewrite update_other by assumption. apply Ep. apply in_app_or in H0. destruct H0 as [H0|[H0|[]]]; [exact H0|congruence]. }
    assert (Full : count (d ++ [(b, p)]) b = np bk -> update pieces p (grad i b p) = gl b bk).
    { intros E. apply pieces_full; [exact Hb|exact Lu|]. intros p0 H0. apply Eu. apply (count_full _ _ (np bk)); assumption. }
    assert (Nin : ~ In b (map fst (issued st))).
    { intros H. apply in_map_iff in H. destruct H as ((b', x) & E' & H). cbn in E'. subst b'.
      destruct (I1 _ _ H) as (bk' & E1 & _ & E2). replace bk' with bk in E2 by congruence. lia. }
    unfold onGradReady. rewrite Hb, Ht, Eo, Hsz, Eb, Cp. cbv zeta. rewrite St, C.
    cbn [bufs readyCnt started issued].
    change (length (bparams bk)) with (np bk). rewrite <- C1.
    assert (Others : forall b' bk', nth_error bs b' = Some bk' -> b' <> b ->
      nth b' (update (readyCnt st) b (count (d ++ [(b, p)]) b)) 0 = count (d ++ [(b, p)]) b' /\
      nth b' (started st) false = (count (d ++ [(b, p)]) b' =? np bk') /\
      exists pieces', nth b' (update (bufs st) b (concat (update pieces p (grad i b p)))) [] = concat pieces' /\
        map (@length R) pieces' = bsizes bk' /\ forall p0, In (b', p0) (d ++ [(b, p)]) -> nth p0 pieces' [] = grad i b' p0).
    { intros b' bk' H' Hn. destruct (B b' bk' H') as (C' & S' & pieces' & Eb' & Lp' & Ep'). rewrite !update_other by (lia || exact Hn).
      rewrite Co by exact Hn. split; [exact C'|]. split; [exact S'|]. exists pieces'. split; [exact Eb'|]. split; [exact Lp'|].
      intros p0 H0. apply Ep'. apply in_app_or in H0. destruct H0 as [H0|[H0|[]]]; [exact H0|congruence]. }
    destruct (count (d ++ [(b, p)]) b =? np bk) eqn:Ec.
    - apply Nat.eqb_eq in Ec. eexists. split; [reflexivity|]. split.
      + unfold inv. cbn [bufs readyCnt started issued]. rewrite !update_length by lia.
        split; [exact L1|]. split; [exact L2|]. split; [exact L3|].
        split; [|split; [|split]].
        * intros b' bk' H'. destruct (Nat.eq_dec b' b) as [->|Hn].
          -- replace bk' with bk by congruence. rewrite !update_same by lia. split; [reflexivity|].
             split; [symmetry; apply Nat.eqb_eq; exact Ec|]. exists (update pieces p (grad i b p)). auto.
          -- rewrite (update_other (started st)) by (lia || exact Hn). apply Others; assumption.
        * rewrite map_app. cbn. apply NoDup_app_intro_one; assumption.
        * intros b' x H'. apply in_app_or in H'. destruct H' as [H'|[H'|[]]].
          -- destruct (I1 _ _ H') as (bk' & E1 & E2 & E3). exists bk'. split; [exact E1|]. split; [exact E2|].
             rewrite Co; [exact E3|]. intros ->. apply Nin. apply in_map_iff. exists (b, x). auto.
          -- injection H' as <- <-. exists bk. split; [exact Hb|]. split; [rewrite Full by exact Ec; reflexivity|exact Ec].
        * intros b' bk' H' E'. rewrite map_app. apply in_or_app. destruct (Nat.eq_dec b' b) as [->|Hn]; [right; left; reflexivity|].
          left. apply (I2 b' bk' H'). rewrite <- Co by exact Hn. exact E'.
      + intros bk' Hb'. replace bk' with bk by congruence. cbn [issued]. rewrite Ec, Nat.eqb_refl, (Full Ec). reflexivity.
    - apply Nat.eqb_neq in Ec. eexists. split; [reflexivity|]. split.
      + unfold inv. cbn [bufs readyCnt started issued]. rewrite !update_length by lia.
        split; [exact L1|]. split; [exact L2|]. split; [exact L3|].
        split; [|split; [|split]].
        * intros b' bk' H'. destruct (Nat.eq_dec b' b) as [->|Hn]; [|apply Others; assumption].
          replace bk' with bk by congruence. rewrite !update_same by lia. split; [reflexivity|].
          split; [rewrite St; symmetry; apply Nat.eqb_neq; exact Ec|]. exists (update pieces p (grad i b p)). auto.
        * exact ND.
        * intros b' x H'. destruct (I1 _ _ H') as (bk' & E1 & E2 & E3). exists bk'. split; [exact E1|]. split; [exact E2|].
          rewrite Co; [exact E3|]. intros ->. apply Nin. apply in_map_iff. exists (b, x). auto.
        * intros b' bk' H' E'. destruct (Nat.eq_dec b' b) as [->|Hn]; [congruence|]. apply (I2 b' bk' H'). rewrite <- Co by exact Hn. exact E'.
      + intros bk' Hb'. replace bk' with bk by congruence. cbn [issued].
        replace (count (d ++ [(b, p)]) b =? np bk) with false by (symmetry; apply Nat.eqb_neq; exact Ec). rewrite app_nil_r. reflexivity.
  Qed.
End Pass.
