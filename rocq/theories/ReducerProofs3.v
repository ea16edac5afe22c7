(** Proofs: all ranks together. *)
From Coq Require Import ZArith List Bool Arith Lia ZifyBool Reals Lra Permutation.
From Verif Require Import ReducerModel ReducerSpec ReducerProofs ReducerProofs2.
Import ListNotations.
Open Scope nat_scope.

Lemma NoDup_app_l : forall {A} (a b : list A), NoDup (a ++ b) -> NoDup a.
Proof.
  induction a as [|x a IH]; intros b H; [constructor|]. inversion H as [|y l Hn N]; subst. constructor; [|apply (IH _ N)].
  intros Q. apply Hn. apply in_or_app. left. exact Q.
Qed.

Section Rank.
  Variables (bs : list bucket) (e cap : Z) (i : input).
  Hypothesis W : Forall (well e cap) bs.
  Hypothesis P : forall bk q, In bk bs -> In q (bparams bk) -> 0 < pnumel q.
  Hypothesis F : fits bs i.

  Lemma pass_any : forall rest d st, inv bs i d st -> NoDup (d ++ rest) -> inrange bs (d ++ rest) ->
    exists st', arrivals bs st (grad i) rest = Some st' /\ inv bs i (d ++ rest) st' /\
      ((forall b bk, nth_error bs b = Some bk -> count (d ++ rest) b = np bk) ->
        map fst (issued st') = map fst (issued st) ++ completions rest).
  Proof.
    induction rest as [|(b, p) rest IH]; intros d st I N Rg.
    - exists st. cbn [arrivals completions]. rewrite !app_nil_r in *. auto.
    - assert (E : d ++ (b, p) :: rest = (d ++ [(b, p)]) ++ rest) by (rewrite <- app_assoc; reflexivity).
      rewrite E in N, Rg.
      assert (N1 : NoDup (d ++ [(b, p)])) by (apply NoDup_app_l in N; exact N).
      assert (R1 : inrange bs (d ++ [(b, p)])) by (intros b' p' H; apply Rg; apply in_or_app; left; exact H).
      destruct (inv_step bs e cap i W P F d st b p I N1 R1) as (st1 & S1 & I1 & Is).
      destruct (IH _ _ I1 N Rg) as (st' & S' & I' & C').
      exists st'. cbn [arrivals]. rewrite S1. split; [exact S'|]. rewrite E. split; [exact I'|].
      intros Full. rewrite (C' Full).
      destruct (R1 b p) as (bk & Hb & Hp); [apply in_or_app; right; left; reflexivity|].
      rewrite (Is bk Hb). cbn [completions]. specialize (Full b bk Hb). rewrite count_app in Full.
      destruct (existsb (fun x => fst x =? b) rest) eqn:Ex.
      + assert (count rest b <> 0) by (intros Q; apply count_zero in Q; congruence).
        replace (count (d ++ [(b, p)]) b =? np bk) with false by (symmetry; apply Nat.eqb_neq; lia).
        rewrite app_nil_r. reflexivity.
      + apply count_zero in Ex. replace (count (d ++ [(b, p)]) b =? np bk) with true by (symmetry; apply Nat.eqb_eq; lia).
        rewrite map_app, <- app_assoc. reflexivity.
  Qed.

  Lemma pass : complete bs (order i) ->
    exists st, arrivals bs (prepare bs (stale i)) (grad i) (order i) = Some st /\
      map fst (issued st) = completions (order i) /\ Permutation (map fst (issued st)) (seq 0 (length bs)) /\
      forall b x, In (b, x) (issued st) -> exists bk, nth_error bs b = Some bk /\ x = concat (gl i b bk).
  Proof.
    intros (N & C).
    destruct (pass_any (order i) [] _ (inv_start bs e cap i W F) N) as (st & S & I & K).
    { intros b p H. apply C in H. exact H. }
    assert (Full : forall b bk, nth_error bs b = Some bk -> count ([] ++ order i) b = np bk).
    { intros b bk Hb. apply full_count; [exact N|]. intros p. cbn [app]. rewrite C. split.
      - intros (bk' & E & H). unfold np. congruence.
      - intros H. eauto. }
    exists st. split; [exact S|]. split; [exact (K Full)|].
    destruct I as (_ & _ & _ & _ & ND & I1 & I2). split.
    - apply NoDup_Permutation; [exact ND|apply seq_NoDup|]. intros b. rewrite in_seq. split.
      + intros H. apply in_map_iff in H. destruct H as ((b', x) & E & H). cbn in E. subst b'.
        destruct (I1 _ _ H) as (bk & Hb & _). assert (b < length bs) by (apply nth_error_Some; congruence). lia.
      + intros H. destruct (nth_error bs b) as [bk|] eqn:Hb; [|apply nth_error_None in Hb; lia].
        apply (I2 b bk Hb). apply Full. exact Hb.
    - intros b x H. destruct (I1 _ _ H) as (bk & Hb & E & _). eauto.
  Qed.

  (** A bucket in which a parameter got no gradient is never handed over. *)
  Lemma pass_missing : forall b p bk, NoDup (order i) ->
    (forall b p, In (b, p) (order i) -> exists bk, nth_error bs b = Some bk /\ p < length (bparams bk)) ->
    nth_error bs b = Some bk -> p < length (bparams bk) -> ~ In (b, p) (order i) ->
    exists st, arrivals bs (prepare bs (stale i)) (grad i) (order i) = Some st /\ length (issued st) < length bs.
  Proof.
    intros b p bk N Rg Hb Hp Hn.
    destruct (pass_any (order i) [] _ (inv_start bs e cap i W F) N Rg) as (st & S & I & _).
    exists st. split; [exact S|]. destruct I as (_ & _ & _ & _ & ND & I1 & _). cbn [app] in I1.
    assert (Nb : ~ In b (map fst (issued st))).
    { intros H. apply in_map_iff in H. destruct H as ((b', x) & E & H). cbn in E. subst b'.
      destruct (I1 _ _ H) as (bk' & Hb' & _ & E). replace bk' with bk in E by congruence.
      apply Hn. apply (count_full _ _ (np bk) N); [|exact E|exact Hp].
      intros p0 H0. destruct (Rg b p0 H0) as (bk0 & E0 & H0'). unfold np. congruence. }
    assert (Hlt : b < length bs) by (apply nth_error_Some; congruence).
    assert (ND' : NoDup (b :: map fst (issued st))) by (constructor; assumption).
    apply (NoDup_incl_length (l' := seq 0 (length bs))) in ND'.
    - cbn in ND'. rewrite map_length, seq_length in ND'. lia.
    - intros x [<-|H]; [apply in_seq; lia|]. apply in_map_iff in H. destruct H as ((b', y) & E & H). cbn in E. subst b'.
      destruct (I1 _ _ H) as (bk' & Hb' & _). apply in_seq. assert (x < length bs) by (apply nth_error_Some; congruence). lia.
  Qed.
  (** A second backward pass without a forward pass in between fails at once. *)
  Lemma pass_again : complete bs (order i) -> forall st, arrivals bs (prepare bs (stale i)) (grad i) (order i) = Some st ->
    forall b p g, onGradReady bs st b p g = None.
  Proof.
    intros (N & C) st S b p g.
    destruct (pass_any (order i) [] _ (inv_start bs e cap i W F) N) as (st' & S' & I & _).
    { intros b' p' H. apply C in H. exact H. }
    replace st' with st in I by congruence. destruct I as (_ & _ & _ & B & _). unfold onGradReady.
    destruct (nth_error bs b) as [bk|] eqn:Hb; [|reflexivity]. destruct (btotal bk =? 0); [reflexivity|].
    destruct (nth_error (boffsets bk) p); [|reflexivity]. destruct (nth_error (bsizes bk) p); [|reflexivity].
    destruct (copySlice _ _ _ _); [|reflexivity]. cbv zeta. destruct (B b bk Hb) as (_ & Q & _). rewrite Q.
    cbn [app]. rewrite (full_count (order i) b (np bk) N), Nat.eqb_refl; [reflexivity|].
    intros p0. rewrite C. split; [intros (bk' & E & H); unfold np; congruence|intros H; eauto].
  Qed.
End Rank.

(** * Summing over ranks *)
Lemma vadd_ok : forall a b, length a = length b -> exists c, vadd a b = Some c /\ length c = length a /\
  forall k, nth k c 0%R = (nth k a 0 + nth k b 0)%R.
Proof.
  induction a as [|x a IH]; intros [|y b] H; try discriminate.
  - exists []. split; [reflexivity|]. split; [reflexivity|]. intros [|k]; cbn; lra.
  - injection H as H. destruct (IH b H) as (c & E & L & V). exists ((x + y)%R :: c). cbn [vadd]. rewrite E.
    split; [reflexivity|]. split; [cbn; lia|]. intros [|k]; [reflexivity|]. cbn. apply V.
Qed.
Lemma reduceAll_ok : forall n b len (xs : list (rank * list R)), xs <> [] ->
  (forall st x, In (st, x) xs -> nth_error (issued st) n = Some (b, x) /\ length x = len) ->
  exists s, reduceAll (map fst xs) n = Some s /\ length s = len /\
    forall k, nth k s 0%R = fold_right Rplus 0%R (map (fun y => nth k (snd y) 0%R) xs).
Proof.
  intros n b len. induction xs as [|(st, x) xs IH]; intros N H; [congruence|].
  destruct (H st x (or_introl eq_refl)) as (E & L). destruct xs as [|y xs].
  - exists x. cbn [map fst reduceAll fold_right snd]. rewrite E. split; [reflexivity|]. split; [exact L|]. intros k. lra.
  - destruct IH as (s & Es & Ls & V); [discriminate|intros st' x' H'; apply H; right; exact H'|].
    destruct (vadd_ok x s) as (c & Ec & Lc & Vc); [lia|]. exists c.
    change (reduceAll (map fst ((st, x) :: y :: xs)) n) with
      (match nth_error (issued st) n, reduceAll (map fst (y :: xs)) n with Some (_, x0), Some y0 => vadd x0 y0 | _, _ => None end).
    rewrite E, Es. split; [exact Ec|]. split; [lia|]. intros k. rewrite Vc, V. reflexivity.
Qed.

Lemma position_nth : forall b l n, NoDup (map fst l) -> position b l = Some n -> exists x, nth_error l n = Some (b, x).
Proof.
  induction l as [|(b', x) l IH]; intros n N H; [discriminate|]. cbn in H. destruct (b' =? b) eqn:E.
  - injection H as <-. apply Nat.eqb_eq in E. subst. exists x. reflexivity.
  - destruct (position b l) as [m|]; [|discriminate]. injection H as <-. inversion N; subst. apply IH; auto.
Qed.
Lemma position_some : forall b l, In b (map fst l) -> exists n, position b l = Some n.
Proof.
  induction l as [|(b', x) l IH]; intros H; [destruct H|]. cbn. destruct (b' =? b) eqn:E; [eauto|].
  destruct H as [H|H]; [cbn in H; apply Nat.eqb_neq in E; congruence|]. destruct (IH H) as (n & ->). cbn. eauto.
Qed.

(** Reading a slice. *)
Lemma slices_nth : forall sizes l p s, nth_error sizes p = Some s ->
  nth p (slices sizes l) [] = firstn s (skipn (list_sum (firstn p sizes)) l).
Proof.
  induction sizes as [|z sizes IH]; intros l p s H; [destruct p; discriminate|].
  destruct p as [|p]; cbn in H; [injection H as ->; reflexivity|].
  cbn [slices nth firstn]. rewrite (IH _ _ _ H). change (list_sum (z :: firstn p sizes)) with (z + list_sum (firstn p sizes)).
  f_equal. clear. revert l. induction z as [|z IH]; intros l; [reflexivity|]. destruct l as [|x l].
  - cbn. rewrite !skipn_nil. reflexivity.
  - cbn. apply IH.
Qed.
Lemma nth_firstn_skipn : forall (l : list R) s o k, k < s -> nth k (firstn s (skipn o l)) 0%R = nth (o + k) l 0%R.
Proof.
  intros l s o k H. rewrite <- (firstn_skipn o l) at 2.
  destruct (Nat.le_gt_cases (length l) o) as [C|C].
  - rewrite skipn_all2 by lia. rewrite firstn_nil. rewrite app_nil_r, firstn_all2 by lia.
    rewrite (nth_overflow l) by lia. destruct k; reflexivity.
  - rewrite app_nth2 by (rewrite firstn_length; lia). rewrite firstn_length. replace (o + k - Nat.min o (length l)) with k by lia.
    revert k H. generalize (skipn o l). clear. induction s as [|s IH]; intros l k H; [lia|]. destruct l as [|x l]; [destruct k; reflexivity|].
    destruct k as [|k]; [reflexivity|]. cbn. apply IH. lia.
Qed.
Lemma piece_nth : forall pieces p s k, nth_error (map (@length R) pieces) p = Some s -> k < s ->
  nth (list_sum (firstn p (map (@length R) pieces)) + k) (concat pieces) 0%R = nth k (nth p pieces []) 0%R.
Proof.
  intros pieces p s k H Hk. rewrite <- (slices_pieces pieces) at 3. rewrite (slices_nth _ _ _ _ H).
  rewrite nth_firstn_skipn by exact Hk. reflexivity.
Qed.

Section All.
  Variables (bs : list bucket) (e cap : Z) (ins : list input) (c : list nat).
  Hypothesis W : Forall (well e cap) bs.
  Hypothesis P : forall bk q, In bk bs -> In q (bparams bk) -> 0 < pnumel q.
  Hypothesis H : forall i, In i ins -> fits bs i /\ complete bs (order i) /\ completions (order i) = c.

  Definition goodrank (i : input) (st : rank) : Prop :=
    map fst (issued st) = c /\ Permutation (map fst (issued st)) (seq 0 (length bs)) /\
    forall b x, In (b, x) (issued st) -> exists bk, nth_error bs b = Some bk /\ x = concat (gl i b bk).

  Lemma passAll_ok : exists sts, passAll bs ins = Some sts /\ Forall2 goodrank ins sts.
  Proof.
    clear -W P H. induction ins as [|i r IH]; [exists []; split; [reflexivity|constructor]|].
    destruct (H i (or_introl eq_refl)) as (F & C & Ec).
    destruct (pass bs e cap i W P F C) as (st & S & A & B & D).
    destruct IH as (sts & Es & G); [intros j Hj; apply H; right; exact Hj|].
    exists (st :: sts). cbn [passAll]. rewrite S, Es. split; [reflexivity|]. constructor; [|exact G].
    unfold goodrank. rewrite A at 1. auto.
  Qed.

  Lemma average_at : forall sts i st, Forall2 goodrank ins sts -> ins <> [] -> In (i, st) (combine ins sts) ->
    forall b p bk q, nth_error bs b = Some bk -> nth_error (bparams bk) p = Some q ->
    exists v, gradAfter bs sts st (grad i) b p = Some v /\ length v = pnumel q /\
      forall k, k < pnumel q -> nth k v 0%R = mean ins b p k.
  Proof.
    intros sts i st G Ne Hin b p bk q Hb Hq.
    assert (Gp : forall i st, In (i, st) (combine ins sts) -> goodrank i st /\ In i ins).
    { clear -G. induction G as [|i st ins sts g G IH]; intros j s Hj; [destruct Hj|]. cbn in Hj. destruct Hj as [Hj|Hj].
      - injection Hj as -> ->. split; [exact g|left; reflexivity].
      - destruct (IH _ _ Hj). split; [assumption|right; assumption]. }
    destruct (Gp _ _ Hin) as ((A & B & D) & Hi).
    assert (Hlt : b < length bs) by (apply nth_error_Some; congruence).
    assert (Lr : length (issued st) = length bs).
    { rewrite <- (map_length fst), (Permutation_length B), seq_length. reflexivity. }
    assert (Inb : In b (map fst (issued st))) by (apply (Permutation_in _ (Permutation_sym B)), in_seq; lia).
    destruct (position_some _ _ Inb) as (n & Hn).
    assert (NDb : NoDup (map fst (issued st))) by (apply (Permutation_NoDup (Permutation_sym B)), seq_NoDup).
    destruct (position_nth _ _ _ NDb Hn) as (x0 & Hx0).
    assert (Hc : nth_error c n = Some b) by (rewrite <- A; apply (map_nth_error fst _ _ Hx0)).
    (* every rank's n-th call carries bucket b *)
    set (xs := map (fun y => (snd y, concat (gl (fst y) b bk))) (combine ins sts)).
    assert (Ll : length ins = length sts) by (clear -G; induction G; cbn; lia).
    assert (Xs : map fst xs = sts).
    { unfold xs. rewrite map_map. cbn [fst]. clear -Ll. revert sts Ll. induction ins as [|i r IH]; intros [|s sts] Ll; try discriminate; [reflexivity|].
      cbn. f_equal. apply IH. cbn in Ll. lia. }
    assert (Xi : forall k, map (fun y => nth k (snd y) 0%R) xs = map (fun j => nth k (concat (gl j b bk)) 0%R) ins).
    { intros k. unfold xs. rewrite map_map. cbn [snd]. clear -Ll. revert sts Ll. induction ins as [|i r IH]; intros [|s sts] Ll; try discriminate; [reflexivity|].
      cbn. f_equal. apply IH. cbn in Ll. lia. }
    destruct (well_nth bs e cap W _ _ Hb) as (Nk & Z & T & Tot & _).
    assert (SL : forall j, In j ins -> map (@length R) (gl j b bk) = bsizes bk).
    { intros j Hj. destruct (H j Hj) as (Fj & _ & _). exact (sizes_len bs e cap j W Fj b bk Hb). }
    destruct (reduceAll_ok n b (btotal bk) xs) as (s & Es & Ls & Vs).
    - destruct ins as [|i0 r]; [congruence|]. destruct sts; [discriminate|]. discriminate.
    - intros st' x' Hx'. unfold xs in Hx'. apply in_map_iff in Hx'. destruct Hx' as ((j, s') & E & Hj). cbn in E. injection E as -> <-.
      destruct (Gp _ _ Hj) as ((A' & B' & D') & Hj').
      destruct (nth_error (issued st') n) as [(b', y)|] eqn:En.
      2:{ apply nth_error_None in En. assert (n < length c) by (apply nth_error_Some; congruence).
          rewrite <- A', map_length in H0. lia. }
      assert (b' = b).
      { pose proof (map_nth_error fst _ _ En) as Q. rewrite A' in Q. cbn in Q. congruence. }
      subst b'. destruct (D' b y (nth_error_In _ _ En)) as (bk' & Hb' & ->). replace bk' with bk by congruence.
      split; [reflexivity|]. rewrite concat_len, (SL j Hj'). rewrite Tot, Z. reflexivity.
    - rewrite Xs in Es.
      assert (Hsz : nth_error (bsizes bk) p = Some (pnumel q)) by (rewrite Z; apply map_nth_error; exact Hq).
      assert (Elt : (length (issued st) <? length bs) = false) by (apply Nat.ltb_ge; lia).
      unfold gradAfter. rewrite Elt, Hn, Es, Hb. eexists. split; [reflexivity|].
      rewrite (slices_nth _ _ _ _ Hsz).
      assert (Hsum : list_sum (firstn p (bsizes bk)) + pnumel q <= length s).
      { rewrite Ls, Tot, <- Z. rewrite <- (firstn_skipn p (bsizes bk)) at 2. rewrite list_sum_app.
        destruct (nth_split' _ _ _ Hsz) as (l1 & l2 & E & <-). rewrite E, skipn_app, skipn_all, Nat.sub_diag. cbn. lia. }
      split; [rewrite firstn_length, skipn_length, map_length; lia|].
      intros k Hk. rewrite nth_firstn_skipn by exact Hk.
      rewrite (nth_indep _ 0%R ((fun x => x / INR (length sts))%R 0%R)) by (rewrite map_length; lia).
      rewrite (map_nth (fun x => (x / INR (length sts))%R)).
      rewrite Vs, Xi, <- Ll. unfold mean. f_equal. f_equal.
      apply map_ext_in. intros j Hj. rewrite <- (SL j Hj). rewrite (piece_nth (gl j b bk) p (pnumel q)) by (rewrite ?(SL j Hj); assumption).
      f_equal. unfold gl. assert (Hp : p < np bk) by (unfold np; apply nth_error_Some; congruence).
      rewrite (nth_indep _ [] (grad j b 0)) by (rewrite map_length, seq_length; exact Hp).
      rewrite (map_nth (grad j b)), seq_nth by exact Hp. reflexivity.
  Qed.
End All.

(** * Broadcasting the parameters *)
Lemma copyParams_ok : forall bk vals n p pieces,
  tiling 0 (boffsets bk) (bsizes bk) (btotal bk) -> bsizes bk = map pnumel (bparams bk) ->
  (forall j q, nth_error (bparams bk) j = Some q -> length (vals j) = pnumel q /\ 0 < pnumel q) ->
  map (@length R) pieces = bsizes bk -> p + n = length (bparams bk) ->
  exists pieces', copyParams bk (concat pieces) vals p n = Some (concat pieces') /\ map (@length R) pieces' = bsizes bk /\
    (forall j, p <= j < length (bparams bk) -> nth j pieces' [] = vals j) /\ (forall j, j < p -> nth j pieces' [] = nth j pieces []).
Proof.
  intros bk vals. induction n as [|n IH]; intros p pieces T Z V L E.
  - exists pieces. cbn. split; [reflexivity|]. split; [exact L|]. split; [intros j Hj; lia|reflexivity].
  - destruct (nth_error (bparams bk) p) as [q|] eqn:Eq; [|apply nth_error_None in Eq; lia].
    destruct (V p q Eq) as (Lq & Pq).
    assert (Hsz : nth_error (bsizes bk) p = Some (pnumel q)) by (rewrite Z; apply map_nth_error; exact Eq).
    destruct (nth_error (boffsets bk) p) as [off|] eqn:Eo.
    2:{ apply nth_error_None in Eo. rewrite (tiling_length _ _ _ _ T), Z, map_length in Eo. lia. }
    assert (Lpp : p < length pieces) by (rewrite <- (map_length (@length R)), L, Z, map_length; lia).
    cbn [copyParams]. rewrite Eo, Hsz.
    rewrite (copy_piece pieces (boffsets bk) (btotal bk) p off (pnumel q) (vals p)) by (rewrite ?L; assumption).
    assert (Lu : map (@length R) (update pieces p (vals p)) = bsizes bk).
    { rewrite <- L. destruct (nth_error pieces p) as [x|] eqn:Ex; [|apply nth_error_None in Ex; lia].
      assert (Hx : length x = pnumel q) by (rewrite <- L in Hsz; rewrite (map_nth_error _ _ _ Ex) in Hsz; congruence).
      destruct (nth_split' _ _ _ Ex) as (l1 & l2 & -> & <-). rewrite update_split, !map_app. cbn. congruence. }
    destruct (IH (S p) (update pieces p (vals p)) T Z V Lu ltac:(lia)) as (pieces' & C & L' & A & B).
    exists pieces'. split; [exact C|]. split; [exact L'|]. split.
    + intros j Hj. destruct (Nat.eq_dec j p) as [->|Hn]; [rewrite B by lia; apply update_same; exact Lpp|apply A; lia].
    + intros j Hj. rewrite B by lia. apply update_other; lia.
Qed.

Lemma broadcast_ok : forall bs e cap root me, Forall (well e cap) bs ->
  (forall bk q, In bk bs -> In q (bparams bk) -> 0 < pnumel q) -> fits bs root -> fits bs me ->
  forall b p bk, nth_error bs b = Some bk -> p < length (bparams bk) -> broadcastParam bs root me b p = Some (grad root b p).
Proof.
  intros bs e cap root me W P Fr Fm b p bk Hb Hp. unfold broadcastParam. rewrite Hb.
  destruct (well_nth bs e cap W _ _ Hb) as (Nk & Z & T & Tot & _).
  destruct (nth_error (bparams bk) p) as [q|] eqn:Eq; [|apply nth_error_None in Eq; lia].
  assert (Ht : (btotal bk =? 0) = false).
  { apply Nat.eqb_neq. rewrite Tot. assert (0 < pnumel q) by (apply (P bk q); eapply nth_error_In; eassumption).
    destruct (nth_split' _ _ _ Eq) as (l1 & l2 & -> & _). rewrite map_app, list_sum_app. cbn. lia. }
  rewrite Ht.
  assert (Each : forall i, fits bs i -> exists pieces', copyParams bk (nth b (stale i) []) (grad i b) 0 (length (bparams bk)) = Some (concat pieces') /\
     map (@length R) pieces' = bsizes bk /\ forall j, j < length (bparams bk) -> nth j pieces' [] = grad i b j).
  { intros i (Fl & G). destruct (G b bk Hb) as (Lb & Gb).
    destruct (copyParams_ok bk (grad i b) (length (bparams bk)) 0 (slices (bsizes bk) (nth b (stale i) [])) T Z) as (pieces' & C & L & A & _).
    - intros j q' Hq'. split; [apply Gb; exact Hq'|]. apply (P bk q'); eapply nth_error_In; eassumption.
    - apply slices_len. rewrite Lb, Tot, Z. reflexivity.
    - reflexivity.
    - rewrite slices_concat in C by (rewrite Lb, Tot, Z; reflexivity). exists pieces'. split; [exact C|]. split; [exact L|].
      intros j Hj. apply A. lia. }
  destruct (Each me Fm) as (pm & Cm & _ & _). destruct (Each root Fr) as (pr & Cr & Lr & Ar).
  rewrite Cm, Cr, <- Lr, slices_pieces. rewrite (Ar p Hp). reflexivity.
Qed.
