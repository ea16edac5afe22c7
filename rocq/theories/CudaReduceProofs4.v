(* Sums over one dimension. *)
From Coq Require Import List Arith ZArith Bool Lia Permutation.
From Verif Require Import ShapeModel ShapeSpec ShapeProofs TensorModel TensorSpec TensorLemmas BcastModel BufModel BufProofs CutSpec ReduceModel ReduceSpec ReduceProofs2
  GpuModel GpuSpec GpuProofs GpuLemmas GpuWarp GpuOrder
  CudaModel CudaSpec CudaProofs CudaItems CudaFillProofs CudaMoveModel CudaTile CudaReduceModel CudaReduceSpec CudaReduceProofs CudaReduceProofs2 CudaReduceProofs3.
Import ListNotations.

(* ---- geometry ---- *)

Lemma srcIndexCuda_nat : forall rsh sstr i dim, numel rsh <> 0 ->
  srcIndexCuda rsh sstr (Z.of_nat i) dim
  = Z.of_nat (snd (fold_right (fun p acc => (fst acc / fst p, snd acc + fst acc mod fst p * nth (if snd p <? dim then snd p else S (snd p)) sstr 0)) (i, 0) (combine rsh (seq 0 (length rsh))))).
Proof.
  intros rsh sstr i dim Hn. unfold srcIndexCuda.
  assert (G : forall rsh a, numel rsh <> 0 ->
    fold_right (fun p acc => (fst acc / Z.of_nat (fst p), snd acc + fst acc mod Z.of_nat (fst p) * Z.of_nat (nth (if (snd p <? dim)%nat then snd p else S (snd p)) sstr 0%nat))%Z)
       (Z.of_nat i, 0%Z) (combine rsh (seq a (length rsh)))
    = let p := fold_right (fun p acc => (fst acc / fst p, snd acc + fst acc mod fst p * nth (if snd p <? dim then snd p else S (snd p)) sstr 0)) (i, 0) (combine rsh (seq a (length rsh))) in
      (Z.of_nat (fst p), Z.of_nat (snd p))).
  { clear. induction rsh as [|d rsh IH]; intros a Hn; [reflexivity|]. rewrite numel_cons in Hn. assert (numel rsh <> 0 /\ d <> 0) as [? ?] by nia.
    cbn [length seq combine fold_right]. rewrite IH by assumption. cbv zeta. cbn [fst snd].
    set (q := fold_right _ _ _). f_equal.
    - rewrite Nat2Z.inj_div. reflexivity.
    - rewrite Nat2Z.inj_add, Nat2Z.inj_mul, Nat2Z.inj_mod. reflexivity. }
  rewrite G by exact Hn. reflexivity.
Qed.

Lemma srcIndexCuda_ok : forall pre d post i, i < numel (pre ++ post) ->
  srcIndexCuda (pre ++ post) (strides (pre ++ d :: post)) (Z.of_nat i) (length pre)
  = Z.of_nat (getReduceSrcIndex (pre ++ post) (pre ++ d :: post) i (length pre) false).
Proof.
  intros pre d post i Hi. rewrite srcIndexCuda_nat by lia. f_equal. unfold getReduceSrcIndex. cbv zeta. f_equal.
  set (l := combine _ _). clearbody l. induction l as [|p l IH]; [reflexivity|]. cbn [fold_right]. rewrite IH.
  cbn [orb]. rewrite Nat.add_1_r. reflexivity.
Qed.

Lemma line_same : forall {A} (F : list nat -> A) pre n post i, i < numel (pre ++ post) ->
  line F true (length pre) n (offsetToIndices (pre ++ 1 :: post) i) = line F false (length pre) n (offsetToIndices (pre ++ post) i).
Proof.
  intros A F pre n post i Hi.
  assert (Hk : i < numel (pre ++ [1] ++ post)) by (rewrite !numel_app in *; rewrite numel_cons, numel_nil; lia).
  destruct (srcIndex_correct pre 1 post true i Hk) as (a & b & Va & Vb & E & _). cbn [app] in E. rewrite E.
  assert (E' : offsetToIndices (pre ++ post) i = a ++ b).
  { pose proof (ravel_o2i (pre ++ 1 :: post) i Hk) as R. rewrite E in R.
    rewrite <- (o2i_ravel (pre ++ post) (a ++ b)); [|apply valid_app; [apply valid_length; auto|auto]]. f_equal. rewrite <- R.
    rewrite !ravel_app by (apply valid_length; auto). rewrite ravel_cons, numel_cons. lia. }
  rewrite E'. unfold line. apply map_ext. intros j. unfold with_coord. f_equal. pose proof (valid_length _ _ Va) as La. rewrite <- La.
  rewrite firstn_app, firstn_all, Nat.sub_diag, app_nil_r, skipn_app, skipn_all, Nat.sub_diag. cbn [firstn skipn app]. rewrite ?app_nil_r. apply set_nth_app.
Qed.

(* the elements of a line, where they are *)
Lemma line_at : forall {A} (F : list nat -> A) pre n post i, i < numel (pre ++ post) ->
  exists src, getReduceSrcIndex (pre ++ post) (pre ++ n :: post) i (length pre) false = src /\
    (pre = [] -> src = i) /\ (post = [] -> src = i * n) /\
    exists idx : nat -> list nat, line F false (length pre) n (offsetToIndices (pre ++ post) i) = map (fun j => F (idx j)) (seq 0 n) /\
      forall j, j < n -> valid (pre ++ n :: post) (idx j) /\ ravel (pre ++ n :: post) (idx j) = src + j * numel post.
Proof.
  intros A F pre n post i Hi. destruct (srcIndex_correct pre n post false i Hi) as (a & b & Va & Vb & E & S). cbn [app] in E, S.
  exists (ravel (pre ++ n :: post) (a ++ 0 :: b)). split; [exact S|].
  pose proof (ravel_o2i (pre ++ post) i Hi) as R. rewrite E in R. rewrite ravel_app in R by (apply valid_length; auto).
  split; [|split].
  - intros ->. assert (a = []) as -> by (inversion Va; auto). cbn [app] in *. rewrite ravel_cons. rewrite ravel_nil in R. lia.
  - intros ->. assert (b = []) as -> by (inversion Vb; auto). rewrite ravel_app by (apply valid_length; auto). rewrite ravel_cons, numel_cons. rewrite !numel_nil, ?ravel_nil in *. lia.
  - exists (fun j => a ++ j :: b). split.
    + rewrite E. unfold line. apply map_ext. intros j. unfold with_coord. f_equal. pose proof (valid_length _ _ Va) as La. rewrite <- La.
      rewrite firstn_app, firstn_all, Nat.sub_diag, app_nil_r, skipn_app, skipn_all, Nat.sub_diag. reflexivity.
    + intros j Hj. split.
      * apply valid_app; [apply valid_length; auto|]. split; [exact Va|]. constructor; [exact Hj|exact Vb].
      * rewrite !ravel_app, !ravel_cons by (apply valid_length; auto). lia.
Qed.

Lemma sizes : forall pre n post, (0 < Z.of_nat (numel (pre ++ n :: post)))%Z ->
  numel (pre ++ post) <= numel (pre ++ n :: post) /\ 0 < n /\ 0 < numel (pre ++ post) /\ numel (pre ++ n :: post) = numel (pre ++ post) * n.
Proof.
  intros pre n post HZ. assert (H : 0 < numel (pre ++ n :: post)) by lia. rewrite !numel_app, numel_cons in *. clear - H. revert H.
  generalize (numel pre) (numel post). intros a b H. assert (0 < a /\ 0 < n /\ 0 < b) as (A & B & C) by (destruct a, n, b; lia). nia.
Qed.

Section Dim.
Context {V : Type} (op : V -> V -> V) (e : V).
Hypothesis Hc : forall a b, op a b = op b a.
Hypothesis Ha : forall a b c, op a (op b c) = op (op a b) c.
Hypothesis He : op e e = e.

Lemma scan_plan : forall n p src stride target k (m : addr -> cell V) (x : nat -> V) R W,
  (forall j, j < n -> m (p, src + Z.of_nat j * stride)%Z = Some (Some (x j))) ->
  plan (k (fold_left (fun t v => op v t) (map x (seq 0 n)) target)) m = Some (R, W) ->
  exists R', plan (scanLoads op n p src stride target k) m = Some (R', W) /\ forall a, In a R' -> fst a = p \/ In a R.
Proof.
  induction n as [|n IH]; intros p src stride target k m x R W Hx Hp; cbn [scanLoads].
  - exists R. split; [exact Hp|auto].
  - destruct (IH p (src + stride)%Z stride (op (x 0) target) k m (fun j => x (S j)) R W) as (R' & E & H).
    + intros j Hj. rewrite <- (Hx (S j)) by lia. f_equal. f_equal. lia.
    + cbn [seq map fold_left] in Hp. rewrite <- seq_shift, map_map in Hp. exact Hp.
    + exists ((p, src) :: R'). split.
      * apply (plan_ld _ _ _ (x 0)); [|exact E]. rewrite <- (Hx 0) by lia. f_equal. f_equal. lia.
      * intros a [<-|Hin]; [auto|]. apply H, Hin.
Qed.

Lemma fold_left_right : forall l, fold_left (fun t v => op v t) l e = fold_right op e l.
Proof.
  intros l. rewrite <- fold_left_rev_right. rewrite (fold_perm op e Hc Ha _ l); [reflexivity|]. apply Permutation_sym, Permutation_rev.
Qed.

Lemma kernelFor_ok : forall m total n out (P : Z -> thr V) (y : nat -> V),
  n <= total -> (0 < Z.of_nat total <= 2 ^ 32)%Z ->
  (forall i, i < n -> exists R, plan (P (Z.of_nat i)) m = Some (R, [((out, Z.of_nat i), y i)]) /\ forall a, In a R -> fst a <> out) ->
  always (kernelFor (Z.of_nat total) (Z.of_nat n) P) m (fun m' =>
    (forall i, i < n -> m' (out, Z.of_nat i) = Some (Some (y i))) /\
    (forall a, (forall i, i < n -> a <> (out, Z.of_nat i)) -> m' a = m a)).
Proof.
  intros m total n out P y HT HZ HP.
  assert (K : is1d (kernelFor (Z.of_nat total) (Z.of_nat n) P) (Z.of_nat total) (fun i => if (i <? Z.of_nat n)%Z then P i else Done)).
  { split; [reflexivity|]. split; [reflexivity|]. split; [reflexivity|]. intros b t. cbn [code kernelFor].
    destruct (Z.ltb_spec (gidx blockSize b t) (Z.of_nat n)); destruct (Z.ltb_spec (gidx blockSize b t) (Z.of_nat total)); auto; lia. }
  eapply always_mono.
  - apply (covers_at _ m out 0 (Z.of_nat n) (fun i => y (Z.to_nat i)) (is1d_accepted _ _ _ K HZ)).
    + intros b t Hb Ht. destruct (item_code _ _ _ b t K) as [->|(i & Hi & _ & ->)].
      { exists [], []. split; [reflexivity|]. split; intros ? *; intros []. }
      destruct (Z.ltb_spec i (Z.of_nat n)) as [L|L].
      * destruct (HP (Z.to_nat i) ltac:(lia)) as (R & E & H). rewrite Z2Nat.id in E by lia. exists R, [((out, i), y (Z.to_nat i))]. split; [exact E|]. split.
        -- intros a Hin X. destruct (H a Hin X).
        -- intros a v [X|[]]. injection X as <- <-. exists i. split; [lia|]. split; [f_equal; lia|reflexivity].
      * exists [], []. split; [reflexivity|]. split; intros ? *; intros [].
    + intros i Hi. destruct (item_thread _ _ _ i K HZ ltac:(lia)) as (b & t & Hb & Ht & _ & Ec). exists b, t. split; [exact Hb|]. split; [exact Ht|].
      intros R W E. rewrite Ec in E. destruct (Z.ltb_spec i (Z.of_nat n)); [|lia]. destruct (HP (Z.to_nat i) ltac:(lia)) as (R' & E' & _). rewrite Z2Nat.id in E' by lia.
      rewrite E' in E. injection E as _ <-. left. reflexivity.
  - intros m' [A B]. cbn [Z.add] in A, B. split.
    + intros i Hi. rewrite A by lia. rewrite Nat2Z.id. reflexivity.
    + intros a Hn. apply B. intros i Hi X. apply (Hn (Z.to_nat i)); [lia|]. rewrite Z2Nat.id by lia. exact X.
Qed.

Section Scan.
Variables (pre : list nat) (n : nat) (post : list nat) (F : list nat -> V) (m : addr -> cell V) (out p : nat).
Let sh := pre ++ n :: post.
Let rsh := pre ++ post.
Hypothesis HZ : (0 < Z.of_nat (numel sh) <= 2 ^ 32)%Z.
Hypothesis HF : has m p sh F.
Hypothesis HR : room m out (numel rsh).
Hypothesis N : out <> p.
Let y i := fold_right op e (line F false (length pre) n (offsetToIndices rsh i)).

Lemma scan_line : forall i src, i < numel rsh -> src = Z.of_nat (getReduceSrcIndex rsh sh i (length pre) false) ->
  forall stride, stride = Z.of_nat (numel post) ->
  exists R, plan (scanLoads op n p src stride e (fun val => St (out, Z.of_nat i) val Done)) m = Some (R, [((out, Z.of_nat i), y i)]) /\ forall a, In a R -> fst a <> out.
Proof.
  intros i src Hi -> stride ->. destruct (line_at F pre n post i Hi) as (src & Es & _ & _ & idx & EL & HX). fold rsh sh in Es.
  destruct (scan_plan n p (Z.of_nat src) (Z.of_nat (numel post)) e (fun val => St (out, Z.of_nat i) val Done) m (fun j => F (idx j)) [] [((out, Z.of_nat i), y i)]) as (R & E & H).
  - intros j Hj. destruct (HX j Hj) as [HV HE]. replace (Z.of_nat src + Z.of_nat j * Z.of_nat (numel post))%Z with (Z.of_nat (ravel sh (idx j))) by (unfold sh; rewrite HE; lia).
    apply (has_at _ m p sh F _ HF). exact HV.
  - rewrite fold_left_right, <- EL. apply plan_st; [|reflexivity]. apply (room_at V m out _ _ HR). lia.
  - exists R. rewrite Es. split; [exact E|]. intros a Hin. destruct (H a Hin) as [->|[]]. auto.
Qed.

Lemma scan_mid : always (kReduceDim op e out rsh (mkD p sh) (length pre)) m (fun m' =>
    (forall i, i < numel rsh -> m' (out, Z.of_nat i) = Some (Some (y i))) /\
    (forall a, (forall i, i < numel rsh -> a <> (out, Z.of_nat i)) -> m' a = m a)).
Proof.
  pose proof (sizes pre n post (proj1 HZ)) as SZ. fold sh rsh in SZ. apply kernelFor_ok; [exact (proj1 SZ)|exact HZ|]. intros i Hi. cbn [dbuf dshape].
  assert (nth (length pre) sh 0 = n) as -> by apply nth_mid.
  assert (nth (length pre) (strides sh) 0 = numel post) as ->.
  { unfold sh. rewrite strides_app, app_nth2; rewrite map_length, strides_length; [|lia]. rewrite Nat.sub_diag, strides_cons. reflexivity. }
  apply scan_line; [exact Hi| |reflexivity]. apply srcIndexCuda_ok, Hi.
Qed.

Lemma scan_end : forall first, (first = true -> pre = []) -> (first = false -> post = []) ->
  always (kReduceDimFirstOrLast op e first out p (Z.of_nat (numel sh)) (Z.of_nat n) (Z.of_nat (numel rsh))) m (fun m' =>
    (forall i, i < numel rsh -> m' (out, Z.of_nat i) = Some (Some (y i))) /\
    (forall a, (forall i, i < numel rsh -> a <> (out, Z.of_nat i)) -> m' a = m a)).
Proof.
  intros first H1 H2. pose proof (sizes pre n post (proj1 HZ)) as SZ. fold sh rsh in SZ. apply kernelFor_ok; [exact (proj1 SZ)|exact HZ|]. intros i Hi. rewrite Nat2Z.id.
  destruct (line_at F pre n post i Hi) as (src & Es & A & B & _). fold rsh sh in Es. apply scan_line; [exact Hi| |].
  - rewrite Es. destruct first; [rewrite A by auto; reflexivity|rewrite B by auto; lia].
  - destruct first; [unfold rsh; rewrite H1 by auto; reflexivity|rewrite H2 by auto; reflexivity].
Qed.

(* the same, in rows: n at most 512 or one row at most 512 * 512 *)
Lemma last_rows : forall tmp, post = [] -> (n <= 512 /\ (Z.of_nat (numel rsh) * 512 < 2 ^ 32)%Z) \/ (numel rsh = 1 /\ n <= 512 * 512) -> tmp <> p -> out <> tmp ->
  room m tmp (numel rsh * ((n + 511) / 512)) ->
  exists ls, reduceDimLast op e out p tmp (Z.of_nat n) (Z.of_nat (numel rsh)) = Some ls /\
    always_all ls m (merged_to m out tmp (numel rsh) y).
Proof.
  intros tmp Hpost HC N1 N2 HT. pose proof (sizes pre n post (proj1 HZ)) as SZ. fold sh rsh in SZ. unfold reduceDimLast.
  assert (HX : forall i, i < numel rsh * n -> m (p, Z.of_nat i) = Some (Some (F (offsetToIndices sh i)))).
  { intros i Hi. rewrite (has_ix V m p sh F) by (auto; lia). rewrite Nat2Z.id. reflexivity. }
  assert (HY : forall r, r < numel rsh -> y r = fold_right op e (map (fun j => F (offsetToIndices sh (r * n + j))) (seq 0 n))).
  { intros r Hr. unfold y. destruct (line_at F pre n post r Hr) as (src & Es & _ & B & idx & EL & HX'). fold rsh in EL. rewrite EL. f_equal. apply map_ext_in. intros j Hj. apply in_seq in Hj.
    destruct (HX' j ltac:(lia)) as [HV HE]. fold sh in HV, HE. rewrite (B Hpost) in HE. assert (En : numel post = 1) by (rewrite Hpost; apply numel_nil).
    rewrite En, Nat.mul_1_r in HE. rewrite <- HE, o2i_ravel by exact HV. reflexivity. }
  assert (GE : exists ls, reduceMerge op e indexLastDim out p tmp (Z.of_nat n) (Z.of_nat (numel rsh)) = Some ls /\
     always_all ls m (merged_to m out tmp (numel rsh) (fun r => fold_right op e (map (fun j => F (offsetToIndices sh (r * n + j))) (seq 0 n))))).
  { destruct HC as [[HC HK]|[H1 HC]].
    - assert (EB : (n + 511) / 512 = 1) by (pose proof (Nat.div_mod (n + 511) 512 ltac:(lia)); pose proof (Nat.mod_upper_bound (n + 511) 512 ltac:(lia)); lia).
      rewrite EB, Nat.mul_1_r in HT. apply (merge_rows op e Hc Ha He m out p tmp n (numel rsh) (fun i => F (offsetToIndices sh i))); try assumption; try lia.
      + intros i Hi. apply (room_at V m tmp _ _ HT). lia.
      + intros i Hi. apply (room_at V m out _ _ HR). lia.
    - rewrite H1 in *. change (Z.of_nat 1) with 1%Z.
      destruct (merge_list op e Hc Ha He indexLastDim m out p tmp n (fun i => F (offsetToIndices sh i))) as (ls & E & G); try assumption; try lia.
      + intros. apply (index_last_one op e Hc Ha); assumption.
      + intros i Hi. apply HX. lia.
      + intros i Hi. apply (room_at V m tmp _ _ HT). lia.
      + apply (room_at V m out _ _ HR). lia.
      + exists ls. split; [exact E|]. revert G. apply always_all_mono. intros m' [A B]. split; [|exact B]. intros r Hr. rewrite A by exact Hr.
        assert (r = 0) as -> by lia. reflexivity. }
  destruct GE as (ls & E & G). exists ls. split; [exact E|]. revert G. apply (always_all_mono). intros m' [A B]. split; [|exact B]. intros r Hr. rewrite HY by exact Hr. apply A, Hr.
Qed.
End Scan.

(* the first dimension, through a transposed copy *)
Lemma first_rows : forall n post F m out p tmp tr, (0 < Z.of_nat (numel (n :: post)) <= 2 ^ 32)%Z -> has m p (n :: post) F -> room m out (numel post) ->
  (n <= 512 /\ (Z.of_nat (numel post) * 512 < 2 ^ 32)%Z) \/ (numel post = 1 /\ n <= 512 * 512) -> out <> p -> tmp <> p -> tr <> p -> out <> tmp -> out <> tr -> tmp <> tr ->
  room m tmp (numel post * ((n + 511) / 512)) -> room m tr (n * numel post) ->
  exists ls, reduceDimFirst op e out p tmp tr (Z.of_nat n) (Z.of_nat (numel post)) = Some ls /\
    always_all ls m (fun m' => (forall i, i < numel post -> m' (out, Z.of_nat i) = Some (Some (fold_right op e (line F false 0 n (offsetToIndices post i))))) /\
      forall a, fst a <> tmp -> fst a <> tr -> (forall i, i < numel post -> a <> (out, Z.of_nat i)) -> m' a = m a).
Proof.
  intros n post F m out p tmp tr HZ HF HR HC N1 N2 N3 N4 N5 N6 HT HTR.
  pose proof (sizes [] n post (proj1 HZ)) as SZ. cbn [app] in SZ.
  set (k := numel post) in *.
  set (G := fun idx => F (offsetToIndices (n :: post) (ravel [n; k] idx))).
  assert (HG : has m p [n; k] G).
  { unfold has in *. replace (map G (indices [n; k])) with (map F (indices (n :: post))); [exact HF|].
    rewrite <- !map_seq_indices. replace (numel [n; k]) with (numel (n :: post)) by (rewrite !numel_cons, numel_nil; fold k; lia).
    apply map_ext_in. intros i Hi. apply in_seq in Hi. unfold G. rewrite ravel_o2i; [reflexivity|]. rewrite !numel_cons, numel_nil in *. fold k in Hi. lia. }
  unfold reduceDimFirst.
  (* after the transposition *)
  assert (AFTER : forall m1, has m1 tr [k; n] (fun idx => G (rev idx)) -> same_but tr m m1 ->
    exists ls, reduceMerge op e indexLastDim out tr tmp (Z.of_nat n) (Z.of_nat k) = Some ls /\
      always_all ls m1 (merged_to m1 out tmp k (fun i => fold_right op e (line F false 0 n (offsetToIndices post i))))).
  { intros m1 H1 S1.
    assert (E1 : numel ([k] ++ []) = k) by (cbn [app]; rewrite numel_cons, numel_nil; lia).
    destruct (last_rows [k] n [] (fun idx => G (rev idx)) m1 out tr) with (tmp := tmp) as (ls & E & A); cbn [app] in *.
    - rewrite !numel_cons, numel_nil in *. fold k in HZ. lia.
    - exact H1.
    - rewrite E1. intros i. rewrite (S1 out) by exact N5. apply HR.
    - exact N5.
    - reflexivity.
    - rewrite E1. exact HC.
    - exact N6.
    - exact N4.
    - rewrite E1. intros i. rewrite (S1 tmp) by exact N6. apply HT.
    - rewrite E1 in *. exists ls. split; [exact E|]. revert A. apply always_all_mono. intros m' [A B]. split; [|exact B]. intros r Hr. rewrite (A r Hr). do 3 f_equal.
      assert (Ho : offsetToIndices [k] r = [r]).
      { rewrite <- (o2i_ravel [k] [r]) by (repeat constructor; exact Hr). f_equal. rewrite ravel_cons, ravel_nil, numel_nil. lia. }
      unfold line. rewrite Ho. apply map_ext_in. intros j Hj. apply in_seq in Hj. unfold with_coord, G. cbn [length firstn skipn app rev].
      rewrite <- (o2i_ravel (n :: post) (j :: offsetToIndices post r)); [|constructor; [lia|apply o2i_valid; exact Hr]]. do 2 f_equal.
      rewrite !ravel_cons, ravel_nil, numel_nil, numel_cons, numel_nil, ravel_o2i by exact Hr. fold k. lia. }
  assert (EX : exists ls, reduceMerge op e indexLastDim out tr tmp (Z.of_nat n) (Z.of_nat k) = Some ls).
  { unfold reduceMerge. destruct HC as [[HC HK]|[H1 HC]].
    - destruct (grid_le n ltac:(lia)) as (E & E0 & E1 & E2); [lia|]. rewrite E. assert ((n + 511) / 512 = 1) as -> by lia. cbn [mergeRounds Z.of_nat Pos.of_succ_nat Z.ltb Z.compare Pos.compare Pos.compare_cont]. eexists. reflexivity.
    - assert (Z.of_nat n <= 262144)%Z by lia. destruct (grid_le n ltac:(lia)) as (E & E0 & E1 & E2); [lia|]. rewrite E. cbn [mergeRounds]. destruct (Z.ltb_spec 1 (Z.of_nat ((n + 511) / 512))); [|eexists; reflexivity].
      destruct (grid_le ((n + 511) / 512) ltac:(lia)) as (EG & G0 & G1 & G2); [lia|]. rewrite EG. assert (((n + 511) / 512 + 511) / 512 = 1) as -> by lia. eexists. reflexivity. }
  destruct EX as (ls & E). rewrite E. eexists. split; [reflexivity|].
  eapply always_all_cons.
  { apply (tile_ok k n G tr p m).
    - rewrite numel_cons in HZ. fold k in HZ. lia.
    - lia.
    - exact HG.
    - exact HTR.
    - exact N3. }
  intros m1 [H1 S1]. destruct (AFTER m1 H1 S1) as (ls' & E' & A). rewrite E in E'. injection E' as <-. revert A. apply always_all_mono.
  intros m' [A B]. split; [exact A|]. intros a Q1 Q2 Q3. rewrite B by assumption. destruct a as [q i]. apply S1. exact Q2.
Qed.
End Dim.

(* ---- all the ways ---- *)

Definition sum_dim_ok (n rest : nat) (first last : bool) : Prop :=
  if first || last then n < 512 \/ (n = 512 /\ (Z.of_nat rest * 512 < 2 ^ 32)%Z) \/ (rest = 1 /\ n <= 512 * 512) else True.

Theorem sum_dim : forall {K : cring} pre n post (F : list nat -> K) m p dim keep out tmp tr,
  let sh := pre ++ n :: post in let rest := numel (pre ++ post) in
  axis (length sh) dim = Some (length pre) ->
  (0 < Z.of_nat (numel sh) <= 2 ^ 32)%Z -> sum_dim_ok n rest (match pre with [] => true | _ => false end) (match post with [] => true | _ => false end) ->
  has m p sh F -> room m out rest -> room m tmp (rest * ((n + 511) / 512)) -> room m tr (n * rest) ->
  NoDup [p; out; tmp; tr] ->
  exists ls, reduceDimCuda (mkD p sh) dim keep out tmp tr = Ok (pre ++ (if keep then [1] else []) ++ post, ls) /\
    computes_all ls m out [tmp; tr] (pre ++ (if keep then [1] else []) ++ post)
      (fun ridx => sum (fun j => F (with_coord keep (length pre) ridx j)) (seq 0 n)).
Proof.
  intros K pre n post F m p dim keep out tmp tr sh rest Hd HZ HO HF HR HT HTR ND.
  inversion ND as [|? ? D1 ND1]; subst. inversion ND1 as [|? ? D2 ND2]; subst. inversion ND2 as [|? ? D3 ND3]; subst. cbn [In] in D1, D2, D3.
  assert (N1 : out <> p) by tauto. assert (N2 : tmp <> p) by tauto. assert (N3 : tr <> p) by tauto.
  assert (N4 : out <> tmp) by (intros ->; tauto). assert (N5 : out <> tr) by (intros ->; tauto). assert (N6 : tmp <> tr) by (intros ->; tauto).
  pose proof (sizes pre n post (proj1 HZ)) as SZ. fold sh rest in SZ.
  pose proof (@add_comm K) as Hc. pose proof (@add_assoc K) as Ha. assert (He : add (zero (c := K)) zero = zero) by apply add_0_l.
  (* from the elements in a row to the tensor *)
  assert (FIN : forall m', (forall i, i < rest -> m' (out, Z.of_nat i) = Some (Some (fold_right add zero (line F false (length pre) n (offsetToIndices (pre ++ post) i))))) ->
      (forall i, ~ (0 <= i < Z.of_nat rest)%Z -> m' (out, i) = m (out, i)) ->
      has m' out (pre ++ (if keep then [1] else []) ++ post) (fun ridx => sum (fun j => F (with_coord keep (length pre) ridx j)) (seq 0 n))).
  { intros m' A B. set (ksh := pre ++ (if keep then [1] else []) ++ post).
    assert (EK : numel ksh = rest) by (unfold ksh, rest; destruct keep; rewrite !numel_app, ?numel_cons, numel_nil; lia).
    unfold has. rewrite <- map_seq_indices. rewrite EK. intros i. destruct (Z.ltb_spec i 0).
    - rewrite B by lia. apply HR. lia.
    - destruct (Z.ltb_spec i (Z.of_nat rest)) as [L|L].
      + rewrite nth_error_map, (nth_error_nth' _ 0) by (rewrite seq_length; lia). cbn [option_map]. rewrite seq_nth by lia. cbn [Nat.add].
        rewrite <- (Z2Nat.id i) at 1 by lia. rewrite A by lia. do 2 f_equal. unfold sum.
        assert (ES : forall (f : nat -> K) l, fold_right (fun j acc => add (f j) acc) zero l = fold_right add zero (map f l)).
        { clear. intros f l. induction l as [|a l IH]; cbn [fold_right map]; [reflexivity|rewrite IH; reflexivity]. }
        rewrite ES. f_equal. destruct keep.
        * symmetry. apply (line_same F pre n post). fold rest. lia.
        * reflexivity.
      + rewrite B by lia. replace (nth_error _ (Z.to_nat i)) with (@None K); [apply HR; lia|]. symmetry. apply nth_error_None. rewrite map_length, seq_length. lia. }
  unfold reduceDimCuda. cbn [dshape dbuf]. rewrite Hd. cbv zeta.
  assert (E0 : reduceShape1 sh (length pre) false = pre ++ post) by apply shape1_mid.
  assert (E1 : reduceShape1 sh (length pre) keep = pre ++ (if keep then [1] else []) ++ post) by apply shape1_mid.
  assert (E2 : nth (length pre) sh 0 = n) by apply nth_mid. rewrite E0, E1, E2. fold rest.
  assert (ONE : forall l : launch K, always l m (fun m' =>
      (forall i, i < rest -> m' (out, Z.of_nat i) = Some (Some (fold_right add zero (line F false (length pre) n (offsetToIndices (pre ++ post) i))))) /\
      (forall a, (forall i, i < rest -> a <> (out, Z.of_nat i)) -> m' a = m a)) ->
     computes_all [l] m out [tmp; tr] (pre ++ (if keep then [1] else []) ++ post) (fun ridx => sum (fun j => F (with_coord keep (length pre) ridx j)) (seq 0 n))).
  { intros l H. cbn [always_all computes_all]. unfold computes_all. cbn [always_all]. eapply always_mono; [exact H|]. intros m' [A B]. split.
    - apply FIN; [exact A|]. intros i Hi. apply B. intros j Hj X. injection X as X. lia.
    - intros q Q1 Q2 i. apply B. intros j Hj X. injection X as X _. contradiction. }
  assert (BL : Z.of_nat blockSize = 512%Z) by reflexivity.
  destruct (Nat.eqb_spec (length pre) 0) as [L0|L0].
  - assert (pre = []) by (destruct pre; [reflexivity|discriminate]). subst pre. cbn [app length] in *. rewrite BL.
    destruct (Z.ltb_spec (Z.of_nat n) 512) as [S|S].
    + eexists. split; [reflexivity|]. apply ONE. apply (scan_end add zero Hc Ha [] n post F m out p HZ HF HR N1 true); [auto|discriminate].
    + cbn [sum_dim_ok orb] in HO. destruct (first_rows add zero Hc Ha He n post F m out p tmp tr) as (ls & E & A); try assumption; [unfold rest in HO; lia|].
      fold rest in E. rewrite E. eexists. split; [reflexivity|]. revert A. apply always_all_mono. intros m' [A B]. split.
      * apply FIN; [exact A|]. intros i Hi. apply B; [exact N4|exact N5|]. intros j Hj X. injection X as X. fold rest in Hj. lia.
      * intros q Q1 Q2 i. cbn [In] in Q2. apply B; cbn [fst]; [intros ->; tauto|intros ->; tauto|]. intros j Hj X. injection X as X _. contradiction.
  - destruct (Nat.eqb_spec (length pre) (length sh - 1)) as [L1|L1].
    + assert (post = []) by (unfold sh in L1; rewrite app_length in L1; cbn [length] in L1; destruct post; [reflexivity|cbn [length] in L1; lia]). subst post. rewrite BL.
      destruct (Z.ltb_spec (Z.of_nat n) 512) as [S|S].
      * eexists. split; [reflexivity|]. apply ONE. apply (scan_end add zero Hc Ha pre n [] F m out p HZ HF HR N1 false); [discriminate|auto].
      * assert (HO' : n <= 512 /\ (Z.of_nat rest * 512 < 2 ^ 32)%Z \/ rest = 1 /\ n <= 512 * 512).
        { unfold sum_dim_ok in HO. destruct pre; [destruct (L0 eq_refl)|]. cbn [orb] in HO. lia. }
        destruct (last_rows add zero Hc Ha He pre n [] F m out p HZ HF HR N1 tmp eq_refl HO' N2 N4 HT) as (ls & E & A).
        fold rest in E. rewrite E. eexists. split; [reflexivity|]. revert A. apply always_all_mono. intros m' [A B]. split.
        -- apply FIN; [exact A|]. intros i Hi. apply B; [exact N4|]. intros j Hj X. injection X as X. fold rest in Hj. lia.
        -- intros q Q1 Q2 i. cbn [In] in Q2. apply B; cbn [fst]; [intros ->; tauto|]. intros j Hj X. injection X as X _. contradiction.
    + eexists. split; [reflexivity|]. apply ONE. apply (scan_mid add zero Hc Ha pre n post F m out p HZ HF HR N1).
Qed.
