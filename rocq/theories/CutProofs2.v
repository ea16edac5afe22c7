From Coq Require Import ZArith List Bool Arith Lia.
From Coq Require Import ZifyBool ZifyNat.
From Verif Require Import ShapeModel ShapeSpec ShapeProofs TensorModel TensorSpec TensorLemmas BcastModel BcastProofs BcastProofs2 BufModel BufProofs PermProofs PermProofs2 CutModel CutSpec CutProofs.
Import ListNotations.

(** * Running offsets *)
Fixpoint starts {X} (w : X -> nat) (off : nat) (l : list X) : list (nat * X) :=
  match l with [] => [] | x :: r => (off, x) :: starts w (off + w x) r end.
Lemma loop_state {S X} (w : X -> nat) (g : S -> nat -> X -> option S) : forall l b off,
  loop l (b, off) (fun acc t => obind (g (fst acc) (snd acc) t) (fun b => Some (b, snd acc + w t)))
  = obind (loop (starts w off l) b (fun b p => g b (fst p) (snd p))) (fun b => Some (b, off + list_sum (map w l))).
Proof.
  induction l as [|x l IH]; intros b off; simpl; [rewrite Nat.add_0_r; auto|].
  destruct (g b off x); cbn [obind]; auto. rewrite IH. destruct (loop _ _ _); simpl; auto. rewrite Nat.add_assoc. auto.
Qed.
Lemma starts_map {X Y} (w : Y -> nat) (T : X -> Y) : forall l off,
  starts w off (map T l) = map (fun p => (fst p, T (snd p))) (starts (fun x => w (T x)) off l).
Proof. induction l as [|x l IH]; intro off; simpl; auto. rewrite IH. auto. Qed.
Lemma starts_in {X} (w : X -> nat) : forall l off p, In p (starts w off l) ->
  exists i, nth_error l i = Some (snd p) /\ fst p = off + list_sum (map w (firstn i l)).
Proof.
  induction l as [|x l IH]; intros off p H; simpl in H; [destruct H|]. destruct H as [<-|H].
  - exists 0. simpl. split; auto.
  - apply IH in H. destruct H as (i & E1 & E2). exists (S i). split; auto. simpl. rewrite E2. unfold list_sum. lia.
Qed.
Lemma starts_nth {X} (w : X -> nat) : forall l off i x, nth_error l i = Some x -> In (off + list_sum (map w (firstn i l)), x) (starts w off l).
Proof.
  induction l as [|y l IH]; intros off [|i] x H; simpl in H; try discriminate.
  - injection H as ->. left. simpl. f_equal. lia.
  - right. apply (IH (off + w y)) in H. simpl. unfold list_sum in *. rewrite Nat.add_assoc. auto.
Qed.
Lemma starts_bound {X} (w : X -> nat) l off p : In p (starts w off l) -> fst p + w (snd p) <= off + list_sum (map w l).
Proof.
  revert off. induction l as [|x l IH]; intros off H; simpl in H; [destruct H|].
  change (list_sum (map w (x :: l))) with (w x + list_sum (map w l)).
  destruct H as [<-|H]; simpl; [lia|]. apply IH in H. lia.
Qed.
Lemma starts_cover {X} (w : X -> nat) : forall l off k, off <= k < off + list_sum (map w l) ->
  exists p, In p (starts w off l) /\ fst p <= k < fst p + w (snd p).
Proof.
  induction l as [|x l IH]; intros off k H; [simpl in H; lia|].
  change (list_sum (map w (x :: l))) with (w x + list_sum (map w l)) in H.
  destruct (Nat.lt_ge_cases k (off + w x)).
  - exists (off, x). split; [left; auto|simpl; lia].
  - destruct (IH (off + w x) k) as (p & Hp & Hk); [lia|]. exists p. split; [right; auto|auto].
Qed.
Fixpoint locate {X} (w : X -> nat) (off : nat) (l : list X) (k : nat) : option (nat * X) :=
  match l with [] => None | x :: r => if k <? off + w x then Some (off, x) else locate w (off + w x) r k end.
Lemma starts_ge {X} (w : X -> nat) : forall l off p, In p (starts w off l) -> off <= fst p.
Proof. induction l as [|x l IH]; intros off p H; simpl in H; [destruct H|]. destruct H as [<-|H]; auto. apply IH in H. lia. Qed.
Lemma locate_spec {X} (w : X -> nat) : forall l off p k, In p (starts w off l) -> fst p <= k < fst p + w (snd p) -> locate w off l k = Some p.
Proof.
  induction l as [|x l IH]; intros off p k H Hk; simpl in *; [destruct H|]. destruct H as [<-|H].
  - simpl in Hk. rewrite (proj2 (Nat.ltb_lt _ _)) by lia. auto.
  - pose proof (starts_ge _ _ _ _ H). rewrite (proj2 (Nat.ltb_ge _ _)) by lia. apply IH; auto.
Qed.

Lemma loop_nest3 {S I J L} (l : list I) (m : I -> list J) (n : I -> J -> list L) (f : S -> I -> J -> L -> option S) s :
  loop l s (fun s i => loop (m i) s (fun s j => loop (n i j) s (fun s k => f s i j k)))
  = loop (flat_map (fun i => map (pair i) (flat_map (fun j => map (pair j) (n i j)) (m i))) l) s (fun s p => f s (fst p) (fst (snd p)) (snd (snd p))).
Proof.
  rewrite <- (loop_nest (fun i => flat_map (fun j => map (pair j) (n i j)) (m i)) l (fun s i q => f s i (fst q) (snd q))).
  apply loop_ext. intros s' i _. rewrite <- (loop_nest (n i) (m i) (fun s j k => f s i j k)). auto.
Qed.

(** * concat *)
Section Concat.
Context {A : Type} (pre post : list nat).
Let T (p : nat * (list nat -> A)) : tensor A := tensor_of (pre ++ fst p :: post) (snd p).
Definition catG (p0 : nat * (list nat -> A)) (ps : list (nat * (list nat -> A))) (idx : list nat) : A :=
  match locate fst 0 ps (nth (length pre) idx 0) with
  | Some (st, p) => snd p (set_nth idx (length pre) (nth (length pre) idx 0 - st))
  | None => snd p0 idx
  end.
Lemma catG_spec p0 ps p a x b : In p (starts fst 0 ps) -> x < fst (snd p) -> length a = length pre ->
  catG p0 ps (a ++ (x + fst p) :: b) = snd (snd p) (a ++ x :: b).
Proof.
  intros H Hx L. unfold catG. rewrite <- L. rewrite app_nth2, Nat.sub_diag by lia. cbn [nth].
  rewrite (locate_spec fst ps 0 p) by (auto; lia). destruct p as [st p]. cbn [fst snd] in *.
  rewrite set_nth_app. do 3 f_equal. lia.
Qed.
Lemma nth_mid (a : list nat) x b : nth (length a) (a ++ x :: b) 0 = x.
Proof. rewrite app_nth2, Nat.sub_diag by lia. auto. Qed.
Lemma concat_correct p0 ps dim : dim_is (length pre + S (length post)) dim (length pre) ->
  concat (map T (p0 :: ps)) dim = Ok (tensor_of (pre ++ list_sum (map fst (p0 :: ps)) :: post) (catG p0 (p0 :: ps))).
Proof.
  intros Hd. unfold concat. cbn [map]. fold (map T). change (T p0 :: map T ps) with (map T (p0 :: ps)).
  change (tshape (T p0)) with (pre ++ fst p0 :: post). cbv zeta.
  assert (LE : length (pre ++ fst p0 :: post) = length pre + S (length post)) by (rewrite app_length; auto).
  rewrite LE. rewrite (proj2 (axis_some _ _ _) Hd).
  replace (forallb _ (map T ps)) with true.
  2:{ symmetry. apply forallb_forall. intros t Ht. apply in_map_iff in Ht. destruct Ht as (p & <- & _). change (tshape (T p)) with (pre ++ fst p :: post).
      rewrite app_length. cbn [length]. rewrite Nat.eqb_refl. cbn [andb]. apply forallb_forall. intros k _.
      destruct (Nat.eqb_spec k (length pre)); auto. cbn [orb]. apply Nat.eqb_eq.
      destruct (Nat.lt_ge_cases k (length pre)); [rewrite !app_nth1 by lia; auto|]. rewrite !app_nth2 by lia.
      destruct (k - length pre) eqn:Ek; [lia|]. reflexivity. }
  rewrite nth_mid.
  assert (ES : fold_left (fun acc t => acc + nth (length pre) (tshape t) 0) (map T ps) (fst p0) = list_sum (map fst (p0 :: ps))).
  { change (list_sum (map fst (p0 :: ps))) with (fst p0 + list_sum (map fst ps)). generalize (fst p0) as s0. clear -pre.
    induction ps as [|p ps IH]; intro s0; simpl; [lia|]. rewrite IH. change (nth (length pre) (pre ++ fst p :: post) 0) with (nth (length pre) (pre ++ fst p :: post) 0). rewrite nth_mid. unfold list_sum. lia. }
  rewrite ES. clear ES. set (size := list_sum (map fst (p0 :: ps))). rewrite set_nth_mid.
  change (list_sum (fst p0 :: map fst ps)) with size. set (rsh := pre ++ size :: post). set (qs := p0 :: ps) in *.
  assert (EI : numel (skipn (S (length pre)) rsh) = numel post).
  { unfold rsh. f_equal. change (S (length pre)) with (1 + length pre). rewrite Nat.add_comm, skipn_app, skipn_all2 by lia.
    replace (length pre + 1 - length pre) with 1 by lia. auto. }
  assert (EO : numel (firstn (length pre) rsh) = numel pre).
  { unfold rsh. rewrite firstn_app, firstn_all, Nat.sub_diag. simpl firstn. rewrite app_nil_r. auto. }
  rewrite EI, EO. set (inner := numel post) in *.
  pose proof (loop_state (fun t : tensor A => nth (length pre) (tshape t) 0) (fun b off t =>
    loop (seq 0 (numel pre)) b (fun b o => memcpy b (o * size * inner + off * inner) (tdata t)
       (o * nth (length pre) (tshape t) 0 * inner) (nth (length pre) (tshape t) 0 * inner))) (map T qs) (fresh (numel rsh)) 0) as LS.
  cbv beta in LS. rewrite LS. clear LS. rewrite starts_map.
  assert (EW : starts (fun x => nth (length pre) (tshape (T x)) 0) 0 qs = starts fst 0 qs).
  { clear. assert (H : forall l off, starts (fun x => nth (length pre) (tshape (T x)) 0) off l = starts fst off l); [|apply H].
    induction l as [|p l IH]; intro off; simpl; auto. rewrite !nth_mid. rewrite IH. auto. }
  rewrite EW, loop_map.
  match goal with |- finish _ (obind (obind ?L _) _) = _ => transitivity (finish rsh L) end.
  { unfold finish. destruct (loop _ _ _); auto. }
  unfold memcpy. cbn [fst snd].
  rewrite (loop_ext _ _ (fun b j => loop (seq 0 (numel pre)) b (fun b o => loop (seq 0 (fst (snd j) * inner)) b (fun b k =>
     obind (rd (tdata (T (snd j))) (o * fst (snd j) * inner + k)) (fun x => put b (o * size * inner + fst j * inner + k) x))))).
  2:{ intros b [off p] _. cbn [fst snd]. change (tshape (T p)) with (pre ++ fst p :: post). rewrite nth_mid. auto. }
  rewrite (loop_nest3 (starts fst 0 qs) (fun _ => seq 0 (numel pre)) (fun j _ => seq 0 (fst (snd j) * inner))
    (fun b j o k => obind (rd (tdata (T (snd j))) (o * fst (snd j) * inner + k)) (fun x => put b (o * size * inner + fst j * inner + k) x))).
  set (items := flat_map _ _).
  assert (HI : forall j o k, In (j, (o, k)) items <-> In j (starts fst 0 qs) /\ o < numel pre /\ k < fst (snd j) * inner).
  { intros j o k. unfold items. rewrite flat_map_pair_in. cbn [fst snd]. rewrite flat_map_pair_in. cbn [fst snd]. rewrite !in_seq. intuition lia. }
  apply (fill_tensor items (fun q => shift (length pre) (fst (fst q)) (offsetToIndices (pre ++ fst (snd (fst q)) :: post) (fst (snd q) * (fst (snd (fst q)) * inner) + snd (snd q))))).
  - intros b [[off p] [o k]] Hq _. apply HI in Hq. cbn [fst snd] in *. destruct Hq as (Hj & Ho & Hk).
    pose proof (starts_bound _ _ _ _ Hj) as HB. cbn [fst snd] in HB. fold size in HB.
    destruct (block_idx pre (fst p) post o k Ho Hk) as (x & q & Hx & Vq & Ek). fold inner in Ek.
    pose proof (o2i_valid pre o Ho) as Va. pose proof (ravel_o2i pre o Ho) as Ea. set (a := offsetToIndices pre o) in *.
    pose proof (valid_length _ _ Va) as La.
    replace (o * (fst p * inner) + k) with (ravel pre a * (fst p * numel post) + x * numel post + ravel post q) by (fold inner; nia).
    replace (o * fst p * inner + k) with (ravel (pre ++ fst p :: post) (a ++ x :: q)) by (rewrite ravel_mid by auto; fold inner; nia).
    rewrite o2i_mid by auto. unfold T at 1. rewrite rd_of_idx by (apply valid_mid; exists a, x, q; auto). cbn [obind].
    rewrite <- La, shift_app.
    f_equal; [unfold rsh; rewrite ravel_mid by auto; fold inner; rewrite Ek, Ea; ring|].
    symmetry. apply (catG_spec p0 qs (off, p)); auto.
  - intros [[off p] [o k]] Hq. apply HI in Hq. cbn [fst snd] in *. destruct Hq as (Hj & Ho & Hk).
    pose proof (starts_bound _ _ _ _ Hj) as HB. cbn [fst snd] in HB. fold size in HB.
    destruct (block_idx pre (fst p) post o k Ho Hk) as (x & q & Hx & Vq & Ek). fold inner in Ek.
    pose proof (o2i_valid pre o Ho) as Va. pose proof (ravel_o2i pre o Ho) as Ea. set (a := offsetToIndices pre o) in *.
    pose proof (valid_length _ _ Va) as La.
    replace (o * (fst p * inner) + k) with (ravel pre a * (fst p * numel post) + x * numel post + ravel post q) by (fold inner; nia).
    rewrite o2i_mid by auto. rewrite <- La, shift_app. apply valid_mid. exists a, (x + off), q. repeat split; auto. lia.
  - intros idx V. apply valid_mid in V. destruct V as (a & y & q & -> & Va & Hy & Vq).
    destruct (starts_cover fst qs 0 y) as ([off p] & Hp & Hk); [fold size; lia|]. cbn [fst snd] in Hk.
    pose proof (ravel_lt _ _ Va). pose proof (ravel_lt _ _ Vq). fold inner in H0.
    exists ((off, p), (ravel pre a, (y - off) * inner + ravel post q)). split.
    + apply HI. cbn [fst snd]. split; auto. split; auto. nia.
    + cbn [fst snd]. rewrite Nat.add_assoc. unfold inner. rewrite o2i_mid by (auto; lia). rewrite <- (valid_length _ _ Va), shift_app. repeat f_equal. lia.
Qed.
End Concat.

Lemma concat_parts {A} sh (ps : list (nat * (list nat -> A))) dim d : ps <> [] -> dim_is (length sh) dim d ->
  exists G, concat (map (fun p => tensor_of (piece_shape sh d (fst p)) (snd p)) ps) dim
            = Ok (tensor_of (piece_shape sh d (list_sum (map fst ps))) G)
  /\ forall i l F, nth_error ps i = Some (l, F) -> agree (piece_shape sh d l) (piece d (start_of (map fst ps) i) G) F.
Proof.
  intros Hne Hd. destruct ps as [|p0 ps]; [congruence|]. pose proof Hd as [Hlt _].
  destruct (list_split_at sh d Hlt) as (pre & x & post & -> & <-).
  exists (catG pre p0 (p0 :: ps)). rewrite app_length in Hd. cbn [length] in Hd. split.
  - unfold piece_shape. rewrite set_nth_mid. rewrite <- (concat_correct pre post p0 ps dim Hd). f_equal. apply map_ext. intro p. rewrite set_nth_mid. auto.
  - intros i l F E idx V. unfold piece_shape in V. rewrite set_nth_mid in V. apply valid_mid in V. destruct V as (a & y & q & -> & Va & Hy & Vq).
    unfold piece. rewrite <- (valid_length _ _ Va), shift_app.
    pose proof (starts_nth fst (p0 :: ps) 0 i _ E) as HI. rewrite Nat.add_0_l in HI. unfold start_of. rewrite firstn_map.
    apply (catG_spec pre post p0 (p0 :: ps) (list_sum (map fst (firstn i (p0 :: ps))), (l, F))); auto. apply (valid_length _ _ Va).
Qed.

(** Pieces put together again. *)
Lemma concat_of_pieces {A} sh (F : list nat -> A) secs dim d : secs <> [] -> dim_is (length sh) dim d -> list_sum secs = nth d sh 0 ->
  concat (map (fun i => tensor_of (piece_shape sh d (nth i secs 0)) (piece d (start_of secs i) F)) (seq 0 (length secs))) dim
  = Ok (tensor_of sh F).
Proof.
  intros Hne Hd Hs. set (ps := map (fun i => (nth i secs 0, piece d (start_of secs i) F)) (seq 0 (length secs))).
  assert (Efst : map fst ps = secs) by (unfold ps; rewrite map_map; cbn [fst]; apply map_nth_seq).
  destruct (concat_parts sh ps dim d) as (G & E & HG); auto.
  { unfold ps. destruct secs; [congruence|]. discriminate. }
  unfold ps in E at 1. rewrite map_map in E. cbn [fst snd] in E. rewrite E. rewrite Efst, Hs in *.
  destruct Hd as [Hlt _]. destruct (list_split_at sh d Hlt) as (pre & x & post & -> & <-). rewrite nth_mid in *.
  f_equal. unfold piece_shape in *. rewrite set_nth_mid. apply tensor_of_ext. intros idx V.
  apply valid_mid in V. destruct V as (a & y & q & -> & Va & Hy & Vq).
  destruct (starts_cover (fun x => x) secs 0 y) as ([off l] & Hp & Hk); [rewrite map_id; lia|]. cbn [fst snd] in Hk.
  apply starts_in in Hp. cbn [fst snd] in Hp. destruct Hp as (i & Ei & Eoff). rewrite map_id in Eoff. simpl in Eoff. fold (start_of secs i) in Eoff.
  assert (Hi : i < length secs) by (apply nth_error_Some; congruence).
  assert (Ep : nth_error ps i = Some (l, piece (length pre) (start_of secs i) F)).
  { unfold ps. rewrite nth_error_map, nth_error_seq, (proj2 (Nat.ltb_lt _ _) Hi). cbn [option_map]. do 2 f_equal. apply nth_error_nth. auto. }
  specialize (HG i l _ Ep (a ++ (y - off) :: q)). unfold piece in HG.
  rewrite <- (valid_length _ _ Va), !shift_app in HG. replace (y - off + start_of secs i) with y in HG by lia.
  apply HG. rewrite (valid_length _ _ Va). rewrite set_nth_mid. apply valid_mid. exists a, (y - off), q. repeat split; auto. lia.
Qed.


(** * stack *)
Section Stack.
Context {A : Type} (pre post : list nat).
Definition stackG (F0 : list nat -> A) (Fs : list (list nat -> A)) (idx : list nat) : A :=
  nth (nth (length pre) idx 0) Fs F0 (firstn (length pre) idx ++ skipn (S (length pre)) idx).
Lemma stackG_spec F0 Fs i F a b : nth_error Fs i = Some F -> length a = length pre -> stackG F0 Fs (a ++ i :: b) = F (a ++ b).
Proof.
  intros E L. unfold stackG. rewrite <- L, nth_mid. rewrite (nth_error_nth _ _ _ E). f_equal.
  rewrite firstn_app, firstn_all, Nat.sub_diag. simpl firstn. rewrite app_nil_r. f_equal.
  change (S (length a)) with (1 + length a). rewrite Nat.add_comm, skipn_app, skipn_all2 by lia. replace (length a + 1 - length a) with 1 by lia. auto.
Qed.
Lemma list_eqb_refl (l : list nat) : list_eqb l l = true.
Proof. unfold list_eqb. destruct (list_eq_dec _ l l); congruence. Qed.
Lemma combine_seq_in {X} (l : list X) : forall s i x, In (i, x) (combine (seq s (length l)) l) <-> s <= i /\ nth_error l (i - s) = Some x.
Proof.
  induction l as [|y l IH]; intros s i x; cbn [length seq combine In].
  - split; [tauto|]. intros [_ H]. destruct (i - s); discriminate.
  - rewrite IH. split.
    + intros [H|[H1 H2]]; [injection H as -> ->; split; auto; rewrite Nat.sub_diag; auto|]. split; [lia|]. replace (i - s) with (S (i - S s)) by lia. auto.
    + intros [H1 H2]. destruct (Nat.eq_dec i s) as [->|N]; [rewrite Nat.sub_diag in H2; injection H2 as ->; auto|].
      right. split; [lia|]. replace (i - s) with (S (i - S s)) in H2 by lia. auto.
Qed.
Lemma stack_correct F0 Fs dim : dim_is (S (length pre + length post)) dim (length pre) ->
  stack (map (tensor_of (pre ++ post)) (F0 :: Fs)) dim = Ok (tensor_of (pre ++ length (F0 :: Fs) :: post) (stackG F0 (F0 :: Fs))).
Proof.
  intros Hd. unfold stack. cbn [map]. fold (map (@tensor_of A (pre ++ post))). change (tensor_of (pre ++ post) F0 :: map (tensor_of (pre ++ post)) Fs) with (map (tensor_of (pre ++ post)) (F0 :: Fs)).
  change (tshape (tensor_of (pre ++ post) F0)) with (pre ++ post). cbv zeta. rewrite app_length. rewrite (proj2 (axis_some _ _ _) Hd).
  replace (forallb _ (map _ Fs)) with true.
  2:{ symmetry. apply forallb_forall. intros t Ht. apply in_map_iff in Ht. destruct Ht as (F & <- & _). apply list_eqb_refl. }
  rewrite firstn_app, firstn_all, Nat.sub_diag, skipn_app, skipn_all, Nat.sub_diag. simpl firstn. rewrite app_nil_r. simpl skipn. cbn [app].
  set (qs := F0 :: Fs). rewrite map_length. set (n := length qs). set (inner := numel post). set (rsh := pre ++ n :: post).
  assert (EC : combine (seq 0 n) (map (tensor_of (pre ++ post)) qs) = map (fun p => (fst p, tensor_of (pre ++ post) (snd p))) (combine (seq 0 n) qs)).
  { generalize (seq 0 n) as ns. generalize qs. clear. induction qs as [|q qs IH]; intros [|s ns]; simpl; auto. rewrite IH. auto. }
  rewrite EC, loop_map. unfold memcpy. cbn [fst snd].
  rewrite (loop_nest3 (combine (seq 0 n) qs) (fun _ => seq 0 (numel pre)) (fun _ _ => seq 0 inner)
    (fun b p j k => obind (rd (tdata (tensor_of (pre ++ post) (snd p))) (j * inner + k)) (fun x => put b (fst p * inner + j * (n * inner) + k) x))).
  set (items := flat_map _ _).
  assert (HI : forall i F j k, In ((i, F), (j, k)) items <-> nth_error qs i = Some F /\ j < numel pre /\ k < inner).
  { intros i F j k. unfold items. rewrite flat_map_pair_in. cbn [fst snd]. rewrite flat_map_pair_in. cbn [fst snd]. rewrite !in_seq.
    unfold n. rewrite combine_seq_in, Nat.sub_0_r. intuition lia. }
  apply (fill_tensor items (fun q => offsetToIndices pre (fst (snd q)) ++ fst (fst q) :: offsetToIndices post (snd (snd q)))).
  - intros b [[i F] [j k]] Hq _. apply HI in Hq. cbn [fst snd]. destruct Hq as (E & Hj & Hk).
    pose proof (o2i_valid pre j Hj) as Va. pose proof (ravel_o2i pre j Hj) as Ea. pose proof (o2i_valid post k Hk) as Vb. pose proof (ravel_o2i post k Hk) as Eb.
    assert (E1 : j * inner + k = ravel (pre ++ post) (offsetToIndices pre j ++ offsetToIndices post k)).
    { rewrite ravel_app by (apply (valid_length _ _ Va)). rewrite Ea, Eb. auto. }
    rewrite E1. rewrite rd_of_idx by (apply valid_app; [apply (valid_length _ _ Va)|auto]). cbn [obind]. f_equal.
    + unfold rsh. rewrite ravel_mid by (apply (valid_length _ _ Va)). rewrite Ea, Eb. fold inner. ring.
    + symmetry. apply stackG_spec; auto. apply (valid_length _ _ Va).
  - intros [[i F] [j k]] Hq. apply HI in Hq. cbn [fst snd]. destruct Hq as (E & Hj & Hk). apply valid_mid.
    exists (offsetToIndices pre j), i, (offsetToIndices post k). repeat split; auto using o2i_valid. unfold n. apply nth_error_Some. congruence.
  - intros idx V. apply valid_mid in V. destruct V as (a & y & q & -> & Va & Hy & Vq).
    destruct (nth_error qs y) as [F|] eqn:E; [|apply nth_error_None in E; unfold n in Hy; lia].
    exists ((y, F), (ravel pre a, ravel post q)). split; [apply HI; split; auto; split; apply ravel_lt; auto|].
    cbn [fst snd]. rewrite !o2i_ravel by auto. auto.
Qed.
End Stack.
Lemma stack_slices {A} sh (Fs : list (list nat -> A)) dim d : Fs <> [] -> dim_is (S (length sh)) dim d ->
  exists G, stack (map (tensor_of sh) Fs) dim = Ok (tensor_of (firstn d sh ++ length Fs :: skipn d sh) G)
  /\ forall i F, nth_error Fs i = Some F -> agree sh (fun idx => G (firstn d idx ++ i :: skipn d idx)) F.
Proof.
  intros Hne Hd. destruct Fs as [|F0 Fs]; [congruence|]. pose proof Hd as [Hlt _].
  rewrite <- (firstn_skipn d sh) in Hd. rewrite app_length in Hd.
  assert (L : length (firstn d sh) = d) by (rewrite firstn_length; lia).
  pose proof (stack_correct (firstn d sh) (skipn d sh) F0 Fs dim) as H. rewrite L in *. specialize (H Hd). rewrite firstn_skipn in H.
  eexists. split; [exact H|]. intros i F E idx V. pose proof (valid_length _ _ V) as LV.
  rewrite (stackG_spec _ _ _ i F) by (auto; rewrite L, firstn_length; lia). rewrite firstn_skipn. auto.
Qed.

(** * Rejections *)
Lemma concat_rejects {A} (t0 : tensor A) rest dim : (forall d, dim_is (length (tshape t0)) dim d ->
    exists t, In t rest /\ (length (tshape t) <> length (tshape t0) \/ exists k, k < length (tshape t0) /\ k <> d /\ nth k (tshape t) 0 <> nth k (tshape t0) 0)) ->
  concat (t0 :: rest) dim = Fail.
Proof.
  intros H. unfold concat. cbv zeta. destruct (axis _ dim) as [d|] eqn:E; auto.
  apply axis_some in E. destruct (H d E) as (t & Ht & Hbad).
  replace (forallb _ rest) with false; auto. symmetry. apply not_true_is_false. intro C. rewrite forallb_forall in C. specialize (C t Ht).
  apply andb_prop in C. destruct C as [C1 C2]. apply Nat.eqb_eq in C1. destruct Hbad as [N|(k & Hk & Nk & Ne)]; [congruence|].
  rewrite forallb_forall in C2. specialize (C2 k). rewrite in_seq in C2. specialize (C2 ltac:(lia)).
  apply orb_prop in C2. rewrite !Nat.eqb_eq in C2. tauto.
Qed.
Lemma stack_rejects {A} (t0 : tensor A) rest dim : (forall d, ~ dim_is (S (length (tshape t0))) dim d) \/ (exists t, In t rest /\ tshape t <> tshape t0) ->
  stack (t0 :: rest) dim = Fail.
Proof.
  intros H. unfold stack. destruct (axis _ dim) as [d|] eqn:E; auto. apply axis_some in E.
  destruct H as [H|(t & Ht & N)]; [destruct (H d E)|].
  replace (forallb _ rest) with false; auto. symmetry. apply not_true_is_false. intro C. rewrite forallb_forall in C. specialize (C t Ht).
  unfold list_eqb in C. destruct (list_eq_dec _ _ _); congruence.
Qed.

(** Forgetting the storage of the pieces. *)
Lemma pieces_contents {A} (ps : list (sten A)) sh (F : list nat -> A) d secs : are_pieces ps sh F d secs ->
  map contents ps = map Some (map (fun i => tensor_of (piece_shape sh d (nth i secs 0)) (piece d (start_of secs i) F)) (seq 0 (length secs))).
Proof.
  intros [L H]. apply nth_error_ext'. intro i. rewrite map_map, !nth_error_map, nth_error_seq, <- L.
  destruct (Nat.ltb_spec i (length ps)) as [Hi|Hi].
  - destruct (nth_error ps i) as [p|] eqn:E; [|apply nth_error_None in E; lia]. cbn [option_map]. destruct (H i p E) as [_ ->]. auto.
  - rewrite (proj2 (nth_error_None _ _)) by auto. auto.
Qed.
Lemma join_pieces {A} (ps : list (sten A)) sh (F : list nat -> A) dim d secs : secs <> [] -> dim_is (length sh) dim d -> list_sum secs = nth d sh 0 ->
  are_pieces ps sh F d secs -> exists ts, map contents ps = map Some ts /\ concat ts dim = Ok (tensor_of sh F).
Proof. intros Hne Hd Hs H. eexists. split; [apply (pieces_contents _ _ _ _ _ H)|]. apply concat_of_pieces; auto. Qed.
