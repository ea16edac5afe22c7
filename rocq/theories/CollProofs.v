From Coq Require Import List Bool Arith Reals Lia Lra.
From Verif Require Import ShapeModel TensorModel TensorLemmas BcastModel CollModel CollSpec.
Import ListNotations.

Lemma seqopt_f2 {A B} (f : A -> option B) l : forall ys, seqopt (map f l) = Some ys <-> Forall2 (fun x y => f x = Some y) l ys.
Proof.
  induction l as [|x l IH]; intro ys; cbn.
  - split; [intro E; injection E as <-; constructor|]. intro H. inversion H. auto.
  - split.
    + destruct (f x) as [y|] eqn:E; cbn; [|discriminate]. destruct (seqopt (map f l)) as [r|] eqn:Q; cbn; [|discriminate]. intro H. injection H as <-. constructor; auto. apply IH. auto.
    + intro H. inversion H as [|? y ? r E Q]; subst. rewrite E. cbn. rewrite (proj2 (IH r) Q). auto.
Qed.
Lemma f2_impl {A B} (P Q : A -> B -> Prop) l1 l2 : (forall a b, In a l1 -> P a b -> Q a b) -> Forall2 P l1 l2 -> Forall2 Q l1 l2.
Proof. intros H F. induction F; constructor; auto. - apply H; auto. left; auto. - apply IHF. intros a b I. apply H. right; auto. Qed.
Lemma f2_exists {A B} (P : A -> B -> Prop) l : (forall a, In a l -> exists b, P a b) -> exists l2, Forall2 P l l2.
Proof.
  induction l as [|a l IH]; intro H; [exists []; constructor|]. destruct (H a) as (b & Hb); [left; auto|]. destruct IH as (l2 & F); [intros x I; apply H; right; auto|]. exists (b :: l2). constructor; auto.
Qed.
Lemma f2_length {A B} (P : A -> B -> Prop) l1 l2 : Forall2 P l1 l2 -> length l1 = length l2.
Proof. induction 1; cbn; auto. Qed.
Lemma f2_in_l {A B} (P : A -> B -> Prop) l1 l2 a : Forall2 P l1 l2 -> In a l1 -> exists b, In b l2 /\ P a b.
Proof. induction 1; intros []; [subst; exists y; split; auto; left; auto|]. destruct IHForall2 as (b & I & Hb); auto. exists b. split; auto. right; auto. Qed.
Lemma f2_in_r {A B} (P : A -> B -> Prop) l1 l2 b : Forall2 P l1 l2 -> In b l2 -> exists a, In a l1 /\ P a b.
Proof. induction 1; intros []; [subst; exists x; split; auto; left; auto|]. destruct IHForall2 as (a & I & Ha); auto. exists a. split; auto. right; auto. Qed.
Lemma wr_changed (m : mem) a b : a < length m -> exists m', wr m a b = Some m' /\ changed m a b m' /\ length m' = length m.
Proof.
  revert a. induction m as [|x m IH]; intros [|a] H; cbn in *; try lia.
  - eexists. split; [reflexivity|]. split; auto. split; auto. intros [|a'] N; [congruence|]. auto.
  - destruct (IH a) as (m' & E & [C1 C2] & L); [lia|]. rewrite E. eexists. split; [reflexivity|]. split; [|cbn; auto]. split; auto. intros [|a'] N; auto. cbn. apply C2. congruence.
Qed.
Lemma passes_passed n ranks bufs : passes n ranks bufs -> passed ranks = Some bufs.
Proof. intro P. unfold passed. apply seqopt_f2. eapply f2_impl; [|apply P]. intros a b _ [H _]. exact H. Qed.
Lemma common n bufs : bufs <> [] -> (forall b, In b bufs -> length b = n) -> commonCount bufs = Some n.
Proof.
  destruct bufs as [|b r]; [congruence|]. intros _ H. cbn. rewrite (proj2 (forallb_forall _ _)).
  - f_equal. apply H. left; auto.
  - intros c I. apply Nat.eqb_eq. rewrite (H c), (H b); auto. left; auto. right; auto.
Qed.
Lemma passes_common n ranks bufs : ranks <> [] -> passes n ranks bufs -> commonCount bufs = Some n.
Proof.
  intros N P. apply common.
  - intro E. subst. inversion P. subst. congruence.
  - intros b I. eapply f2_in_r in I; [|apply P]. destruct I as (a & _ & _ & L). auto.
Qed.
Lemma fold_sum (l : list R) : forall v, fold_left Rplus l v = (v + fold_right Rplus 0 l)%R.
Proof. induction l as [|x l IH]; intro v; cbn; [ring|]. rewrite IH. ring. Qed.
Lemma fold_prod (l : list R) : forall v, fold_left Rmult l v = (v * fold_right Rmult 1 l)%R.
Proof. induction l as [|x l IH]; intro v; cbn; [ring|]. rewrite IH. ring. Qed.
Lemma fold_min (l : list R) : forall v, (fold_left Rmin l v = v \/ In (fold_left Rmin l v) l) /\ (fold_left Rmin l v <= v)%R /\ forall x, In x l -> (fold_left Rmin l v <= x)%R.
Proof.
  induction l as [|y l IH]; intro v; cbn; [split; auto; split; [lra|contradiction]|]. destruct (IH (Rmin v y)) as (A & B & C). split; [|split].
  - destruct A as [A|A]; [|auto]. rewrite A. unfold Rmin. destruct (Rle_dec v y); auto.
  - eapply Rle_trans; [apply B|apply Rmin_l].
  - intros x [<-|I]; auto. eapply Rle_trans; [apply B|apply Rmin_r].
Qed.
Lemma fold_max (l : list R) : forall v, (fold_left Rmax l v = v \/ In (fold_left Rmax l v) l) /\ (v <= fold_left Rmax l v)%R /\ forall x, In x l -> (x <= fold_left Rmax l v)%R.
Proof.
  induction l as [|y l IH]; intro v; cbn; [split; auto; split; [lra|contradiction]|]. destruct (IH (Rmax v y)) as (A & B & C). split; [|split].
  - destruct A as [A|A]; [|auto]. rewrite A. unfold Rmax. destruct (Rle_dec v y); auto.
  - eapply Rle_trans; [apply Rmax_l|apply B].
  - intros x [<-|I]; auto. eapply Rle_trans; [apply Rmax_r|apply B].
Qed.
Lemma red_spec op nop vals : getNcclReduceOp op = Some nop -> vals <> [] -> reduction op vals (ncclRed nop vals).
Proof.
  intros E N. destruct vals as [|v r]; [congruence|]. destruct op; cbn in E; try discriminate; injection E as <-; unfold ncclRed, reduction.
  - apply fold_sum.
  - rewrite fold_sum. cbn [fold_right]. field. apply not_0_INR. discriminate.
  - apply fold_prod.
  - destruct (fold_min r v) as (A & B & C). split; [destruct A as [-> |A]; [left; auto|right; auto]|]. intros x [<-|I]; auto.
  - destruct (fold_max r v) as (A & B & C). split; [destruct A as [-> |A]; [left; auto|right; auto]|]. intros x [<-|I]; auto.
Qed.
Lemma column_some bufs i : (forall b, In b bufs -> i < length b) -> column bufs i = Some (map (fun b => nth i b 0%R) bufs).
Proof.
  unfold column. intro H. apply seqopt_f2. induction bufs as [|b r IH]; cbn; constructor.
  - unfold rd. apply nth_error_nth'. apply H. left; auto.
  - apply IH. intros c I. apply H. right; auto.
Qed.
Lemma range_some nop bufs from n : (forall b, In b bufs -> from + n <= length b) ->
  exists b, reduceRange nop bufs from n = Some b /\ length b = n /\ forall i, i < n -> nth i b 0%R = ncclRed nop (map (fun b => nth (from + i) b 0%R) bufs).
Proof.
  intro H. exists (map (fun i => ncclRed nop (map (fun b => nth (from + i) b 0%R) bufs)) (seq 0 n)). split; [|split].
  - unfold reduceRange, tab. apply seqopt_f2.
    assert (G : forall l, (forall i, In i l -> i < n) -> Forall2 (fun x y => obind (column bufs (from + x)) (fun vals => Some (ncclRed nop vals)) = Some y) l (map (fun i => ncclRed nop (map (fun b => nth (from + i) b 0%R) bufs)) l)).
    { induction l as [|i l IH]; intro Hl; cbn; constructor.
      - rewrite column_some; auto. intros b I. specialize (H b I). specialize (Hl i (or_introl eq_refl)). lia.
      - apply IH. intros j J. apply Hl. right; auto. }
    apply G. intros i I. apply in_seq in I. lia.
  - rewrite map_length, seq_length. auto.
  - intros i Hi. apply nth_error_nth. rewrite nth_error_map, (nth_error_nth' _ 0) by (rewrite seq_length; auto). cbn [option_map]. rewrite seq_nth by auto. reflexivity.
Qed.
Lemma store_all n ranks bufs b : passes n ranks bufs -> exists ms, seqopt (map (fun ra => store ra b) ranks) = Some ms /\ Forall2 (fun ra m' => changed (fst ra) (snd ra) b m') ranks ms.
Proof.
  intro P. destruct (f2_exists (fun ra m' => store ra b = Some m' /\ changed (fst ra) (snd ra) b m') ranks) as (ms & F).
  - intros [m a] I. eapply f2_in_l in I; [|apply P]. destruct I as (b' & _ & E & _). cbn in E. destruct (wr_changed m a b) as (m' & E' & C & _); [apply nth_error_Some; congruence|]. exists m'. auto.
  - exists ms. split; [apply seqopt_f2|]; (eapply f2_impl; [|apply F]); cbn; tauto.
Qed.

(** * Stacking and gathering *)
Lemma mapRes_ok {A B} (f : A -> res B) (P : A -> B -> Prop) l : (forall a, In a l -> exists b, f a = Ok b /\ P a b) -> exists bs, mapRes f l = Ok bs /\ Forall2 P l bs.
Proof.
  induction l as [|a l IH]; intro H; cbn; [exists []; split; auto|]. destruct (H a) as (b & E & Pb); [left; auto|]. destruct IH as (bs & E' & F); [intros x I; apply H; right; auto|].
  rewrite E, E'. exists (b :: bs). split; auto.
Qed.
Lemma stack_ok n m addrs l : addrs <> [] -> lists n m addrs l -> stackT m addrs = Ok (m ++ [concat l], length m).
Proof.
  intros N F. unfold stackT.
  assert (E : seqopt (map (rd m) addrs) = Some l) by (apply seqopt_f2; eapply f2_impl; [|apply F]; cbn; tauto).
  rewrite E. destruct l as [|b r]; [inversion F; subst; congruence|]. rewrite (proj2 (forallb_forall _ _)); auto.
  intros c I. apply Nat.eqb_eq. assert (L : forall x, In x (b :: r) -> length x = n) by (intros x X; eapply f2_in_r in X; [|apply F]; destruct X as (a & _ & _ & Q); auto).
  rewrite (L c), (L b); auto. left; auto. right; auto.
Qed.
Lemma concat_length n (l : list (list R)) : (forall b, In b l -> length b = n) -> length (concat l) = length l * n.
Proof. induction l as [|b l IH]; intro H; cbn; auto. rewrite app_length, (H b) by (left; auto). rewrite IH by (intros c I; apply H; right; auto). auto. Qed.
Lemma concat_nth n (l : list (list R)) : (forall b, In b l -> length b = n) -> forall k i, k < length l -> i < n -> nth (k * n + i) (concat l) 0%R = nth i (nth k l []) 0%R.
Proof.
  induction l as [|b l IH]; intros H k i Hk Hi; cbn in Hk; [lia|]. assert (Lb : length b = n) by (apply H; left; auto). destruct k as [|k]; cbn [concat nth].
  - cbn. apply app_nth1. lia.
  - rewrite app_nth2 by (rewrite Lb; nia). replace (S k * n + i - length b) with (k * n + i) by (rewrite Lb; cbn; lia). apply IH; auto; [|lia]. intros c I. apply H. right; auto.
Qed.
Lemma lists_len n m addrs l : lists n m addrs l -> forall b, In b l -> length b = n.
Proof. intros F b I. eapply f2_in_r in I; [|apply F]. destruct I as (a & _ & _ & Q). auto. Qed.

Lemma broadcast_ok : forall root ranks bufs n b, passes n ranks bufs -> nth_error bufs root = Some b ->
  exists ms, broadcast root ranks = Ok ms /\ Forall2 (fun ra m' => changed (fst ra) (snd ra) b m') ranks ms.
Proof.
  intros root ranks bufs n b P E. assert (L : root < length ranks) by (rewrite (f2_length _ _ _ P); apply nth_error_Some; congruence).
  assert (N : ranks <> []) by (intros ->; cbn in L; lia). unfold broadcast. rewrite (proj2 (Nat.ltb_lt _ _) L). cbn [negb]. unfold collective. rewrite (passes_passed _ _ _ P), (passes_common _ _ _ N P).
  cbn [obind]. unfold rd. rewrite E. cbn [obind]. destruct (store_all n ranks bufs b P) as (ms & E2 & F). rewrite E2. exists ms. auto.
Qed.
Lemma passes_range n ranks bufs nop : passes n ranks bufs -> exists b, reduceRange nop bufs 0 n = Some b /\ length b = n /\ forall i, i < n -> nth i b 0%R = ncclRed nop (map (fun b => nth i b 0%R) bufs).
Proof.
  intro P. apply (range_some nop bufs 0 n). intros b I. eapply f2_in_r in I; [|apply P]. destruct I as (a & _ & _ & L). lia.
Qed.
Lemma reduced_ok op nop bufs n b : getNcclReduceOp op = Some nop -> bufs <> [] -> (forall i, i < n -> nth i b 0%R = ncclRed nop (map (fun b => nth i b 0%R) bufs)) ->
  forall i, i < n -> reduction op (map (fun b => nth i b 0%R) bufs) (nth i b 0%R).
Proof. intros E N H i Hi. rewrite H by auto. apply red_spec; auto. destruct bufs; [congruence|discriminate]. Qed.
Lemma allReduce_ok : forall op ranks bufs n, op <> UNUSED -> ranks <> [] -> passes n ranks bufs ->
  exists b ms, allReduce op ranks = Ok ms /\ length b = n /\ (forall i, i < n -> reduction op (map (fun b => nth i b 0%R) bufs) (nth i b 0%R))
  /\ Forall2 (fun ra m' => changed (fst ra) (snd ra) b m') ranks ms.
Proof.
  intros op ranks bufs n U N P. unfold allReduce. destruct (getNcclReduceOp op) as [nop|] eqn:E; [|destruct op; try discriminate; congruence].
  destruct (passes_range n ranks bufs nop P) as (b & Eb & Lb & Hb). destruct (store_all n ranks bufs b P) as (ms & E2 & F). exists b, ms.
  unfold collective. rewrite (passes_passed _ _ _ P), (passes_common _ _ _ N P). cbn [obind]. rewrite Eb. cbn [obind]. rewrite E2. split; auto. split; auto. split; auto.
  eapply reduced_ok; eauto. intro Q. subst. inversion P; subst; congruence.
Qed.
Lemma combine_seq_f2 {A B} (P : nat -> A -> B -> Prop) (l : list A) : forall k, (forall i a, nth_error l i = Some a -> exists b, P (k + i) a b) ->
  exists bs, Forall2 (fun ia b => P (fst ia) (snd ia) b) (combine (seq k (length l)) l) bs /\ length bs = length l /\ forall i a b, nth_error l i = Some a -> nth_error bs i = Some b -> P (k + i) a b.
Proof.
  induction l as [|a l IH]; intros k H; cbn.
  - exists []. split; [constructor|]. split; auto. intros [|i]; discriminate.
  - destruct (H 0 a eq_refl) as (b & Hb). rewrite Nat.add_0_r in Hb. destruct (IH (S k)) as (bs & F & L & Q).
    + intros i x Hx. rewrite Nat.add_succ_comm. apply H. auto.
    + exists (b :: bs). split; [constructor; auto|]. split; [cbn; auto|]. intros [|i] x y Hx Hy; cbn in *.
      * injection Hx as <-. injection Hy as <-. rewrite Nat.add_0_r. auto.
      * rewrite <- Nat.add_succ_comm. eauto.
Qed.
Lemma f2_nth {A B} (P : A -> B -> Prop) l1 l2 : Forall2 P l1 l2 -> forall i a, nth_error l1 i = Some a -> exists b, nth_error l2 i = Some b /\ P a b.
Proof. induction 1; intros [|i] a E; cbn in *; try discriminate; [injection E as <-; eauto|eauto]. Qed.
Lemma reduce_ok : forall op root ranks bufs n, op <> UNUSED -> root < length ranks -> passes n ranks bufs ->
  exists b ms, reduce op root ranks = Ok ms /\ length b = n /\ (forall i, i < n -> reduction op (map (fun b => nth i b 0%R) bufs) (nth i b 0%R))
  /\ length ms = length ranks /\ forall r ra m', nth_error ranks r = Some ra -> nth_error ms r = Some m' -> if r =? root then changed (fst ra) (snd ra) b m' else m' = fst ra.
Proof.
  intros op root ranks bufs n U L P. assert (N : ranks <> []) by (intros ->; cbn in L; lia). unfold reduce. destruct (getNcclReduceOp op) as [nop|] eqn:E; [|destruct op; try discriminate; congruence].
  rewrite (proj2 (Nat.ltb_lt _ _) L). cbn [negb].
  destruct (passes_range n ranks bufs nop P) as (b & Eb & Lb & Hb).
  destruct (combine_seq_f2 (fun r ra m' => (if r =? root then store ra b else Some (fst ra)) = Some m' /\ if r =? root then changed (fst ra) (snd ra) b m' else m' = fst ra) ranks 0) as (ms & F & Lm & Q).
  - intros i [m a] H. cbn [fst snd]. destruct (0 + i =? root); [|eauto]. destruct (f2_nth _ _ _ P _ _ H) as (b' & _ & E' & _). cbn in E'. destruct (wr_changed m a b) as (m' & E2 & C & _); [apply nth_error_Some; congruence|]. exists m'. auto.
  - exists b, ms. unfold collective. rewrite (passes_passed _ _ _ P), (passes_common _ _ _ N P). cbn [obind]. rewrite Eb. cbn [obind].
    assert (S : seqopt (map (fun ira => if fst ira =? root then store (snd ira) b else Some (fst (snd ira))) (combine (seq 0 (length ranks)) ranks)) = Some ms) by (apply seqopt_f2; eapply f2_impl; [|apply F]; cbn; tauto).
    rewrite S. split; auto. split; auto. split; [eapply reduced_ok; eauto; intro K; subst; inversion P; subst; congruence|]. split; auto. intros r ra m' H1 H2. apply (Q r ra m' H1 H2).
Qed.
Lemma gather_stack w n ranks inputs : w <> 0 -> gathers w n ranks inputs ->
  exists st, mapRes (fun g => stackT (gmem g) (gouts g)) ranks = Ok st
  /\ Forall2 (fun g s => exists old, s = (gmem g ++ [old], length (gmem g)) /\ length old = w * n) ranks st
  /\ passed (combine (map fst st) (map gin ranks)) = Some inputs.
Proof.
  intros N G.
  destruct (mapRes_ok (fun g => stackT (gmem g) (gouts g)) (fun g s => exists old, s = (gmem g ++ [old], length (gmem g)) /\ length old = w * n) ranks) as (st & E & F).
  { intros g I. eapply f2_in_l in I; [|apply G]. destruct I as (b & _ & Hin & Lb & Lo & l & Hl). rewrite (stack_ok n _ _ l); auto; [|intro Q; rewrite Q in Lo; cbn in Lo; congruence].
    eexists. split; [reflexivity|]. exists (concat l). split; auto. rewrite (concat_length n) by (eapply lists_len; eauto). f_equal. rewrite <- Lo. symmetry. apply (f2_length _ _ _ Hl). }
  exists st. split; auto. split; auto.
  unfold passed. apply seqopt_f2. clear E N. revert inputs G. induction F as [|g s ranks' st' (old & -> & Lo) F IH]; intros inputs G; inversion G as [|? b ? bs H1 H2]; subst; cbn; constructor; cbn.
  - unfold rd. rewrite nth_error_app1; [apply H1|]. apply nth_error_Some. destruct H1 as [H1 _]. congruence.
  - apply IH; auto.
Qed.
Lemma wr_last {A} (m : list A) x y : wr (m ++ [x]) (length m) y = Some (m ++ [y]).
Proof. induction m as [|a m IH]; cbn; auto. rewrite IH. auto. Qed.
Lemma allGather_ok : forall n ranks inputs, ranks <> [] -> gathers (length ranks) n ranks inputs ->
  allGather ranks = Ok (map (fun g => gmem g ++ [concat inputs]) ranks, map (fun g => length (gmem g)) ranks).
Proof.
  intros n ranks inputs N G. assert (W : length ranks <> 0) by (destruct ranks; [congruence|discriminate]).
  destruct (gather_stack _ n ranks inputs W G) as (st & E & F & P). unfold allGather. rewrite E, P.
  assert (Li : forall b, In b inputs -> length b = n) by (intros b I; eapply f2_in_r in I; [|apply G]; destruct I as (a & _ & _ & L & _); auto).
  assert (Ni : inputs <> []) by (intros ->; inversion G; subst; congruence).
  rewrite (common n inputs Ni Li). cbn [obind].
  assert (Lc : length (concat inputs) = length ranks * n) by (rewrite (concat_length n) by auto; rewrite (f2_length _ _ _ G); auto).
  assert (S : seqopt (map (fun s => obind (rd (fst s) (snd s)) (fun recv => obind (ncclAllGather inputs recv) (fun b => store s b))) st) = Some (map (fun g => gmem g ++ [concat inputs]) ranks)).
  { apply seqopt_f2. clear -F Lc. revert F Lc. generalize (length ranks) as w. intros w F Lc. induction F as [|g s ranks' st' (old & -> & Lo) F IH]; cbn [map]; constructor; auto. cbn [fst snd]. unfold rd. rewrite nth_error_app2, Nat.sub_diag by lia. cbn [nth_error obind].
    unfold ncclAllGather. rewrite Lc, Lo, Nat.ltb_irrefl. cbn [obind]. rewrite <- Lo. rewrite skipn_all, app_nil_r. unfold store. apply wr_last. }
  rewrite S. f_equal. f_equal. clear -F. induction F as [|g s ranks' st' (old & -> & _) F IH]; cbn; congruence.
Qed.
Lemma scatter_stack w n ranks ins : w <> 0 -> scatters w n ranks ins ->
  mapRes (fun g => stackT (gmem g) (gouts g)) ranks = Ok (map (fun gl => (gmem (fst gl) ++ [concat (snd gl)], length (gmem (fst gl)))) (combine ranks ins)).
Proof.
  intros W G. induction G as [|g l ranks' ins' (H1 & H2 & _) G IH]; cbn; auto. rewrite (stack_ok n _ _ l); auto; [|intro Q; rewrite Q in H2; cbn in H2; congruence]. rewrite IH. auto.
Qed.
Lemma scatter_passed w n ranks ins : scatters w n ranks ins -> passed (map (fun gl => (gmem (fst gl) ++ [concat (snd gl)], length (gmem (fst gl)))) (combine ranks ins)) = Some (map (@concat R) ins).
Proof.
  intro G. unfold passed. apply seqopt_f2. induction G as [|g l ranks' ins' H G IH]; cbn; constructor; auto. cbn. unfold rd. rewrite nth_error_app2, Nat.sub_diag by lia. auto.
Qed.
Lemma places ranks : forall ins r g l, nth_error ranks r = Some g -> nth_error ins r = Some l ->
  let st := map (fun gl : gargs * list (list R) => (gmem (fst gl) ++ [concat (snd gl)], length (gmem (fst gl)))) (combine ranks ins) in
  nth_error (combine (map fst st) (map gin ranks)) r = Some (gmem g ++ [concat l], gin g) /\ nth_error st r = Some (gmem g ++ [concat l], length (gmem g)).
Proof. induction ranks as [|g0 ranks' IH]; intros [|l0 ins'] [|r] g l H1 H2; cbn in *; try discriminate; [injection H1 as <-; injection H2 as <-; auto|]. apply IH; auto. Qed.
Lemma reduceScatter_ok : forall op n ranks ins, op <> UNUSED -> ranks <> [] -> scatters (length ranks) n ranks ins ->
  exists ms, reduceScatter op ranks = Ok ms /\ length ms = length ranks
  /\ forall r g m', nth_error ranks r = Some g -> nth_error ms r = Some m' ->
       exists b, length b = n /\ changed_old (gmem g) (gin g) b m' /\ forall i, i < n -> reduction op (map (fun l => nth i (nth r l []) 0%R) ins) (nth i b 0%R).
Proof.
  intros op n ranks ins U N G. assert (W : length ranks <> 0) by (destruct ranks; [congruence|discriminate]).
  unfold reduceScatter.
  destruct (getNcclReduceOp op) as [nop|] eqn:Eo; [|destruct op; try discriminate; congruence].
  pose proof (scatter_stack _ n ranks ins W G) as ST.
  rewrite ST. set (st := map _ (combine ranks ins)).
  assert (Ls : length st = length ranks) by (unfold st; rewrite map_length, combine_length, (f2_length _ _ _ G); apply Nat.min_id).
  set (outs := combine (map fst st) (map gin ranks)).
  assert (Lo : length outs = length ranks) by (unfold outs; rewrite combine_length, !map_length, Ls; apply Nat.min_id).
  (* what is in the i-th place *)
  assert (HO : forall r g l, nth_error ranks r = Some g -> nth_error ins r = Some l -> nth_error outs r = Some (gmem g ++ [concat l], gin g) /\ nth_error st r = Some (gmem g ++ [concat l], length (gmem g))).
  { apply places. }
  assert (P1 : exists outBufs, passed outs = Some outBufs /\ Forall (fun b => length b = n) outBufs /\ outBufs <> []).
  { destruct (f2_exists (fun ra b => rd (fst ra) (snd ra) = Some b /\ length b = n) outs) as (ob & F).
    - intros ra I. apply In_nth_error in I. destruct I as (r & I). assert (Hr : r < length ranks) by (rewrite <- Lo; apply nth_error_Some; congruence).
      destruct (nth_error ranks r) as [g|] eqn:Eg; [|apply nth_error_None in Eg; lia]. destruct (f2_nth _ _ _ G r g Eg) as (l & El & _ & _ & old & Hold & Lold).
      destruct (HO r g l Eg El) as [Ho _]. rewrite Ho in I. injection I as <-. cbn. exists old. split; auto. unfold rd. rewrite nth_error_app1; auto. apply nth_error_Some. congruence.
    - exists ob. split; [apply seqopt_f2; eapply f2_impl; [|apply F]; cbn; tauto|]. split; [apply Forall_forall; intros b I; eapply f2_in_r in I; [|apply F]; destruct I as (a & _ & _ & L); auto|].
      intros ->. apply W. rewrite <- Lo. apply (f2_length _ _ _ F). }
  destruct P1 as (ob & P1 & FO & NO).
  assert (P2 : passed st = Some (map (@concat R) ins)).
  { apply (scatter_passed _ _ _ _ G). }
  rewrite P1, P2. rewrite (common n ob NO) by (apply Forall_forall; auto). cbn [obind].
  assert (Lc : forall c, In c (map (@concat R) ins) -> length c = length ranks * n).
  { intros c I. apply in_map_iff in I. destruct I as (l & <- & I). eapply f2_in_r in I; [|apply G]. destruct I as (g & _ & Hl & Lg & _). rewrite (concat_length n) by (eapply lists_len; eauto). rewrite <- (f2_length _ _ _ Hl), Lg. auto. }
  destruct (combine_seq_f2 (fun r ra m' => exists b, reduceRange nop (map (@concat R) ins) (r * n) n = Some b /\ store ra b = Some m' /\ length b = n /\ changed (fst ra) (snd ra) b m'
      /\ forall i, i < n -> nth i b 0%R = ncclRed nop (map (fun b => nth (r * n + i) b 0%R) (map (@concat R) ins))) outs 0) as (ms & F & Lm & Q).
  { intros r ra Hra. assert (Hr : r < length ranks) by (rewrite <- Lo; apply nth_error_Some; congruence).
    destruct (range_some nop (map (@concat R) ins) ((0 + r) * n) n) as (b & Eb & Lb & Hb).
    { intros c I. rewrite (Lc c I). nia. }
    destruct (nth_error ranks r) as [g|] eqn:Eg; [|apply nth_error_None in Eg; lia]. destruct (f2_nth _ _ _ G r g Eg) as (l & El & _ & _ & old & Hold & Lold).
    destruct (HO r g l Eg El) as [Ho _]. rewrite Ho in Hra. injection Hra as <-. destruct (wr_changed (gmem g ++ [concat l]) (gin g) b) as (m' & E2 & C & _); [rewrite app_length; assert (gin g < length (gmem g)) by (apply nth_error_Some; congruence); lia|].
    exists m', b. auto. }
  assert (S : seqopt (map (fun ira => obind (reduceRange nop (map (@concat R) ins) (fst ira * n) n) (fun b => store (snd ira) b)) (combine (seq 0 (length outs)) outs)) = Some ms).
  { apply seqopt_f2. eapply f2_impl; [|apply F]. intros [r ra] m' _ (b & E1 & E2 & _). cbn [fst snd] in *. rewrite E1. auto. }
  rewrite S. exists ms. split; auto. split; [congruence|]. intros r g m' Hg Hm. destruct (f2_nth _ _ _ G r g Hg) as (l & El & _). destruct (HO r g l Hg El) as [Ho _].
  destruct (Q r _ m' Ho Hm) as (b & _ & _ & Lb & [C1 C2] & Hb). exists b. split; auto. cbn [fst snd] in *. split.
  - split; auto. intros a' Ha Na. rewrite C2 by auto. apply nth_error_app1. auto.
  - intros i Hi. rewrite Hb by auto. replace (map (fun l => nth i (nth r l []) 0%R) ins) with (map (fun b => nth ((0 + r) * n + i) b 0%R) (map (@concat R) ins)).
    + apply red_spec; auto. intro Z. apply map_eq_nil in Z. apply map_eq_nil in Z. subst ins. inversion G; subst. congruence.
    + rewrite map_map. apply map_ext_in. intros l' I. eapply f2_in_r in I; [|apply G]. destruct I as (g' & _ & Hl & Lg & _). apply concat_nth; auto; [eapply lists_len; eauto|].
      rewrite <- (f2_length _ _ _ Hl), Lg. apply nth_error_Some. congruence.
Qed.
