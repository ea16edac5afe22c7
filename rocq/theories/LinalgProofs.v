From Coq Require Import ZArith List Bool Arith Lia.
From Verif Require Import ShapeModel ShapeSpec ShapeProofs TensorModel TensorSpec TensorLemmas BcastModel BcastSpec BcastProofs BufModel BufProofs
  PermModel PermProofs2 CutModel CutProofs CutProofs2 ReduceModel ReduceProofs ReduceProofs2 LinalgModel LinalgSpec.
Import ListNotations.

Section Gemm.
Context {K : cring}.
Add Ring Kr : (cring_ring K).

Lemma sum_seq_single (f : nat -> K) n i : i < n -> sum (fun j => if j =? i then f j else zero) (seq 0 n) = f i.
Proof. intro H. apply (sum_single Nat.eqb Nat.eqb_eq); [apply seq_NoDup|apply in_seq; lia]. Qed.

Lemma pos_inj n i j i' j' : j < n -> j' < n -> i * n + j = i' * n + j' -> i = i' /\ j = j'.
Proof. intros. assert (i = i') by nia. subst. lia. Qed.

Lemma gemm_correct (a b : list K) ao bo m k n (ta tb : bool) (A B : nat -> nat -> K) :
  (forall i p, i < m -> p < k -> nth_error a (ao + (if ta then p * m + i else i * k + p)) = Some (A i p)) ->
  (forall p j, p < k -> j < n -> nth_error b (bo + (if tb then j * k + p else p * n + j)) = Some (B p j)) ->
  gemm a ao b bo m k n ta tb = Some (map (on2 zero (product A B k)) (indices [m; n])).
Proof.
  intros HA HB. unfold gemm.
  rewrite (loop_ext _ _ (fun c i => loop (seq 0 k) c (fun c p => loop (seq 0 n) c (fun c j =>
      obind (rd c (i * n + j)) (fun x => wr c (i * n + j) (add x (mul (A i p) (B p j)))))))).
  2: { intros c i Hi. apply in_seq in Hi. apply loop_ext. intros c' p Hp. apply in_seq in Hp.
       unfold rd at 1. rewrite HA by lia. cbn [obind]. apply loop_ext. intros c'' j Hj. apply in_seq in Hj.
       unfold rd at 1. rewrite HB by lia. reflexivity. }
  rewrite (loop_nest3 (seq 0 m) (fun _ => seq 0 k) (fun _ _ => seq 0 n) (fun c i p j =>
      obind (rd c (i * n + j)) (fun x => wr c (i * n + j) (add x (mul (A i p) (B p j)))))).
  set (items := flat_map _ _).
  assert (HI : forall i p j, In (i, (p, j)) items -> i < m /\ p < k /\ j < n).
  { intros i p j. unfold items. rewrite flat_map_pair_in. cbn [fst snd]. rewrite flat_map_pair_in. cbn [fst snd]. rewrite !in_seq. lia. }
  destruct (scatter_add (K := K) (fun q => fst q * n + snd (snd q)) (fun q => mul (A (fst q) (fst (snd q))) (B (fst (snd q)) (snd (snd q))))
    (fun s p => obind (rd s (fst p * n + snd (snd p))) (fun x => wr s (fst p * n + snd (snd p)) (add x (mul (A (fst p) (fst (snd p))) (B (fst (snd p)) (snd (snd p)))))))
    items (repeat zero (m * n))) as (r & E & L & N).
  - intros r [i [p j]] x Hq Hx. cbn [fst snd] in *. unfold rd. rewrite Hx. reflexivity.
  - intros [i [p j]] Hq. apply HI in Hq. cbn [fst snd]. rewrite repeat_length. nia.
  - refine (eq_trans E _). f_equal. rewrite repeat_length in L. apply nth_error_ext'. intro q. rewrite nth_error_map.
    destruct (Nat.ltb_spec q (m * n)) as [Hq|Hq].
    2: { rewrite (proj2 (nth_error_None _ _)) by lia. symmetry. rewrite (proj2 (nth_error_None _ _)); auto.
         rewrite indices_length. unfold numel. cbn. lia. }
    rewrite indices_nth by (rewrite !numel_cons, numel_nil; lia). cbn [option_map].
    assert (En : nth_error (repeat (@zero K) (m * n)) q = Some zero) by (rewrite nth_error_repeat; auto).
    rewrite (N q zero En). f_equal.
    assert (n <> 0) by nia. pose proof (Nat.div_mod q n) as Hdm. pose proof (Nat.mod_upper_bound q n).
    assert (q / n < m) by (apply Nat.div_lt_upper_bound; lia).
    replace (offsetToIndices [m; n] q) with [q / n; q mod n].
    2: { rewrite <- (o2i_ravel [m; n] [q / n; q mod n]); [f_equal; rewrite !ravel_cons, ravel_nil, !numel_cons, numel_nil; nia|].
         repeat constructor; auto. }
    cbn [on2]. set (i0 := q / n) in *. set (j0 := q mod n) in *.
    rewrite sum_filter. unfold items. rewrite sum_flat_map.
    transitivity (sum (fun i => if i =? i0 then product A B k i j0 else zero) (seq 0 m)).
    2: { apply (sum_seq_single (fun i => product A B k i j0)). auto. }
    replace (add zero (sum _ _)) with (sum (K := K) (fun i => sum (fun i1 => if fst i1 * n + snd (snd i1) =? q then mul (A (fst i1) (fst (snd i1))) (B (fst (snd i1)) (snd (snd i1))) else zero)
       (map (pair i) (flat_map (fun j : nat => map (pair j) (seq 0 n)) (seq 0 k)))) (seq 0 m)) by ring.
    apply sum_ext. intros i Hi. apply in_seq in Hi. rewrite sum_map, sum_flat_map. cbn [fst snd].
    destruct (Nat.eqb_spec i i0) as [->|Hne].
    + unfold product. apply sum_ext. intros p Hp. rewrite sum_map. cbn [fst snd].
      rewrite <- (sum_seq_single (fun j => mul (A i0 p) (B p j)) n j0) by lia. apply sum_ext. intros j Hj.
      destruct (Nat.eqb_spec (i0 * n + j) q), (Nat.eqb_spec j j0); auto; exfalso; nia.
    + apply sum_zero'. intros p Hp. rewrite sum_map. apply sum_zero'. intros j Hj. apply in_seq in Hj. cbn [fst snd].
      destruct (Nat.eqb_spec (i * n + j) q); auto. exfalso. apply Hne. apply (pos_inj n i j i0 j0); lia.
Qed.

(** * Batch shapes *)
Fixpoint bc (t0 t1 : list nat) : option (list nat) :=
  match t0, t1 with
  | [], _ => Some t1
  | _, [] => Some t0
  | d0 :: t0, d1 :: t1 =>
    match (if d0 =? d1 then Some d1 else if (d0 =? 1) || (d1 =? 1) then Some (Nat.max d0 d1) else None), bc t0 t1 with
    | Some r', Some ret' => Some (r' :: ret') | _, _ => None end
  end.
Lemma broadcastRev_bc : forall t0 t1, broadcastRev t0 t1 (if length t1 <? length t0 then t0 else t1) = bc t0 t1.
Proof.
  induction t0 as [|d0 t0 IH]; intros [|d1 t1]; auto. cbn [length].
  specialize (IH t1). change (S (length t1) <? S (length t0)) with (length t1 <? length t0).
  destruct (length t1 <? length t0) eqn:E; cbn [broadcastRev bc]; rewrite IH; destruct (Nat.eqb_spec d0 d1); subst; auto.
Qed.
Lemma bc_spec : forall t0 t1 r, positive t0 -> positive t1 ->
  bc t0 t1 = Some r <->
  length r = Nat.max (length t0) (length t1)
  /\ forall p, p < length r -> (nth p t0 1 = 1 \/ nth p t0 1 = nth p r 1) /\ (nth p t1 1 = 1 \/ nth p t1 1 = nth p r 1)
       /\ (nth p r 1 = 1 \/ nth p t0 1 = nth p r 1 \/ nth p t1 1 = nth p r 1).
Proof.
  assert (N : forall p, nth p (@nil nat) 1 = 1) by (intros []; auto).
  assert (X : forall a b : list nat, length a = length b -> (forall p, p < length a -> nth p a 1 = nth p b 1) -> a = b).
  { intros a b L H. apply (nth_ext _ _ 1 1); auto. }
  induction t0 as [|d0 t0 IH]; intros [|d1 t1] r P0 P1; cbn [bc].
  - split.
    + intros [= <-]. split; auto; cbn; lia.
    + intros [L _]. destruct r; auto. discriminate.
  - split.
    + intros [= <-]. split; auto.
    + intros [L H]. f_equal. symmetry. apply X; auto. intros p Hp. destruct (H p Hp) as (_ & H1 & H2). rewrite N in H2. lia.
  - split.
    + intros [= <-]. split; [cbn; lia|]. intros p Hp. rewrite N. intuition.
    + intros [L H]. f_equal. symmetry. apply X; [cbn in *; lia|]. intros p Hp. destruct (H p Hp) as (H1 & _ & H2). rewrite N in H2. lia.
  - inversion_clear P0. inversion_clear P1. specialize (IH t1).
    assert (D : forall r0, (if d0 =? d1 then Some d1 else if (d0 =? 1) || (d1 =? 1) then Some (Nat.max d0 d1) else None) = Some r0 <->
      (d0 = 1 \/ d0 = r0) /\ (d1 = 1 \/ d1 = r0) /\ (r0 = 1 \/ d0 = r0 \/ d1 = r0)).
    { intro r0. destruct (Nat.eqb_spec d0 d1); [|destruct (Nat.eqb_spec d0 1), (Nat.eqb_spec d1 1)]; cbn [orb]; split; (intros [= <-] || intro); try lia; f_equal; lia. }
    destruct r as [|r0 r].
    + split; [|intros [L _]; discriminate]. destruct (if d0 =? d1 then _ else _); [destruct (bc t0 t1)|]; discriminate.
    + transitivity ((if d0 =? d1 then Some d1 else if (d0 =? 1) || (d1 =? 1) then Some (Nat.max d0 d1) else None) = Some r0 /\ bc t0 t1 = Some r).
      { destruct (if d0 =? d1 then _ else _); [destruct (bc t0 t1)|]; (split; [intros [= -> ->]; auto|intros [[= ->] [= ->]]; auto]) || (split; [discriminate|intros [? ?]; discriminate]). }
      rewrite D, IH by auto. cbn [length]. split.
      * intros (H3 & L & H4). split; [lia|]. intros [|p] Hp; cbn [nth]; auto. apply H4. lia.
      * intros (L & H3). split; [apply (H3 0); lia|]. split; [lia|]. intros p Hp. apply (H3 (S p)). lia.
Qed.
Lemma positive_rev s : positive s <-> positive (rev s).
Proof. unfold positive. rewrite !Forall_forall. split; intros H x Hx; apply H; [apply in_rev in Hx|apply in_rev; rewrite rev_involutive]; auto. Qed.
Lemma skip2 (s : list nat) x y : skipn 2 (rev (s ++ [x; y])) = rev s.
Proof. rewrite rev_app_distr. reflexivity. Qed.

Lemma broadcastBatch_bc ba bb x y u v : exists z, broadcastBatch (ba ++ [x; y]) (bb ++ [u; v]) 2
  = option_map (fun r => rev r ++ z) (bc (rev ba) (rev bb)) /\ length z = 2.
Proof.
  unfold broadcastBatch. rewrite !skip2.
  replace (length (bb ++ [u; v]) <? length (ba ++ [x; y])) with (length bb <? length ba).
  2: { rewrite !app_length. cbn [length]. destruct (Nat.ltb_spec (length bb) (length ba)), (Nat.ltb_spec (length bb + 2) (length ba + 2)); auto; lia. }
  pose proof (broadcastRev_bc (rev ba) (rev bb)) as E. rewrite !rev_length in E.
  destruct (length bb <? length ba).
  - exists [x; y]. rewrite skip2, E. split; auto. destruct (bc (rev ba) (rev bb)); auto. cbn [option_map]. do 2 f_equal.
    rewrite app_length. cbn [length]. replace (length ba + 2 - 2) with (length ba) by lia. rewrite skipn_app, Nat.sub_diag, skipn_all. auto.
  - exists [u; v]. rewrite skip2, E. split; auto. destruct (bc (rev ba) (rev bb)); auto. cbn [option_map]. do 2 f_equal.
    rewrite app_length. cbn [length]. replace (length bb + 2 - 2) with (length bb) by lia. rewrite skipn_app, Nat.sub_diag, skipn_all. auto.
Qed.
Lemma is_broadcast_bc ba bb bs : positive ba -> positive bb -> is_broadcast [ba; bb] bs <-> bc (rev ba) (rev bb) = Some (rev bs).
Proof.
  intros Pa Pb. rewrite bc_spec by (apply -> positive_rev; auto). rewrite !rev_length. unfold is_broadcast, from_right. cbn [map list_max fold_right].
  rewrite Nat.max_0_r. split; intros [L H]; (split; [auto|]); intros p Hp.
  - destruct (H p Hp) as (H1 & H2). split; [apply H1; cbn; auto|]. split; [apply H1; cbn; auto|].
    destruct H2 as [?|(s & [<-|[<-|[]]] & ?)]; auto.
  - destruct (H p Hp) as (H1 & H2 & H3). split.
    + intros s [<-|[<-|[]]]; auto.
    + destruct H3 as [?|[?|?]]; auto; right; [exists ba|exists bb]; cbn; auto.
Qed.

(** * Batch offsets *)
Definition bstep (p : nat * nat * nat) (acc : nat * nat) : nat * nat :=
  let '(d, s, r) := p in
  (fst acc / r, if negb (d =? 1) then snd acc + fst acc mod r * s else snd acc).
Lemma bfold batch : forall bs st ret, positive ret -> length bs = length ret -> length st = length ret ->
  fold_right bstep (batch, 0) (combine (combine bs st) ret)
  = (batch / numel ret, indicesToOffset st (bidx bs (offsetToIndices ret batch))).
Proof.
  induction bs as [|d bs IH]; intros [|s st] [|r ret] P L1 L2; try discriminate.
  - change (numel []) with 1. rewrite Nat.div_1_r. reflexivity.
  - inversion_clear P. cbn [combine fold_right]. rewrite IH by (cbn in *; auto). cbn [bstep fst snd].
    pose proof (positive_numel ret H0) as Hn. rewrite numel_cons, o2i_cons by lia. f_equal.
    + rewrite Nat.div_div by lia. f_equal. lia.
    + unfold bidx. assert (Lo : length (offsetToIndices ret batch) = length ret) by apply o2i_length.
      cbn [length]. rewrite Lo. cbn in L1. replace (S (length ret) - S (length bs)) with 0 by lia. replace (length ret - length bs) with 0 by lia.
      cbn [skipn combine map fst snd]. rewrite ito_cons. destruct (d =? 1); cbn [negb]; lia.
Qed.
Lemma map_nth_seq {A} (d : A) : forall (l : list A) n, n <= length l -> map (fun i => nth i l d) (seq 0 n) = firstn n l.
Proof.
  induction l as [|x l IH]; intros [|n] H; auto; [cbn in H; lia|]. cbn [seq map nth firstn]. f_equal. rewrite <- seq_shift, map_map. apply IH. cbn in H; lia.
Qed.
Lemma combine_map {I A B} (f : I -> A) (g : I -> B) l : combine (map f l) (map g l) = map (fun i => (f i, g i)) l.
Proof. induction l; simpl; auto. f_equal; auto. Qed.
Lemma fold_right_map {I J A} (f : J -> A -> A) (g : I -> J) a l : fold_right f a (map g l) = fold_right (fun i acc => f (g i) acc) a l.
Proof. induction l; simpl; auto. f_equal; auto. Qed.
Lemma fold_right_ext {I A} (f g : I -> A -> A) a l : (forall i x, In i l -> f i x = g i x) -> fold_right f a l = fold_right g a l.
Proof. induction l as [|i l IH]; intro H; simpl; auto. rewrite IH by (intros; apply H; right; auto). apply H. left; auto. Qed.
Lemma ito_scale c : forall st idx, indicesToOffset (map (fun s => s * c) st) idx = indicesToOffset st idx * c.
Proof. induction st as [|s st IH]; intros [|i idx]; auto. cbn [map]. rewrite !ito_cons, IH. lia. Qed.

Lemma batchOffset_full bs sh2 ret batch : positive ret -> length bs = length ret -> length sh2 = 2 ->
  batchOffset (bs ++ sh2) (makePaddedStrides (strides (bs ++ sh2)) (length ret + 2)) ret batch
  = ravel bs (bidx bs (offsetToIndices ret batch)) * numel sh2.
Proof.
  intros P L L2. unfold batchOffset, makePaddedStrides. rewrite strides_length, app_length.
  replace (length ret + 2 - (length bs + length sh2)) with 0 by lia. cbn [repeat app].
  rewrite (fold_right_ext _ (fun i acc => bstep (nth i bs 0, nth i (map (fun s => s * numel sh2) (strides bs)) 0, nth i ret 0) acc)).
  2: { intros i acc Hi. apply in_seq in Hi. cbn [bstep]. rewrite strides_app, !app_nth1 by (rewrite ?map_length, ?strides_length; lia).
       rewrite (proj2 (Nat.ltb_lt i _)) by lia. reflexivity. }
  rewrite <- (fold_right_map bstep (fun i => (nth i bs 0, nth i (map (fun s => s * numel sh2) (strides bs)) 0, nth i ret 0))).
  rewrite <- (combine_map (fun i => (nth i bs 0, nth i (map (fun s => s * numel sh2) (strides bs)) 0)) (fun i => nth i ret 0)).
  rewrite <- (combine_map (fun i => nth i bs 0)). rewrite !map_nth_seq by (rewrite ?map_length, ?strides_length; lia).
  assert (F : forall l : list nat, length l = length ret -> firstn (length ret) l = l) by (intros l E; rewrite <- E; apply firstn_all).
  rewrite !F by (rewrite ?map_length, ?strides_length; lia).
  rewrite bfold by (rewrite ?map_length, ?strides_length; auto). cbn [snd]. apply ito_scale.
Qed.
Lemma batchOffset_none sh ret batch : length sh <= 2 ->
  batchOffset sh (makePaddedStrides (strides sh) (length ret + 2)) ret batch = 0.
Proof.
  intro L. unfold batchOffset. set (str := makePaddedStrides _ _).
  assert (Z : forall i, i < length ret -> nth i str 0 = 0).
  { intros i Hi. unfold str, makePaddedStrides. rewrite strides_length, app_nth1 by (rewrite repeat_length; lia). apply nth_repeat. }
  assert (H : forall l, (forall i, In i l -> i < length ret) ->
    snd (fold_right (fun i acc => (fst acc / nth i ret 0, if (i <? length sh) && negb (nth i sh 0 =? 1) then snd acc + fst acc mod nth i ret 0 * nth i str 0 else snd acc)) (batch, 0) l) = 0).
  { induction l as [|i l IH]; intro Hl; auto. cbn [fold_right snd]. rewrite IH by (intros; apply Hl; right; auto). rewrite Z by (apply Hl; left; auto).
    rewrite Nat.mul_0_r. destruct (_ && _); auto. }
  apply H. intros i Hi. apply in_seq in Hi. lia.
Qed.
End Gemm.
