(* Layer norm and RMS norm on the GPU: the launch. *)
From Coq Require Import List Arith ZArith NArith Bool Lia Reals Lra Permutation.
From Verif Require Import ShapeModel ShapeSpec ShapeProofs TensorModel TensorSpec TensorLemmas BcastModel BufModel BufProofs CutSpec ReduceModel ReduceSpec LineModel LineProofs SoftmaxModel SoftmaxProofs NormModel NormSpec NormProofs
  GpuModel GpuSpec GpuProofs GpuLemmas CudaModel CudaSpec CudaProofs CudaFillProofs CudaReduceModel CudaReduceRaces CudaMeanProofs CudaExtremeModel CudaLineModel GpuWarp GpuBlock GpuLines CudaLineProofs CudaLineProofs2 GpuHalves GpuInsert CudaNormProofs.
Import ListNotations.
Local Open Scope nat_scope.

(* ---- barriers put into the programs ---- *)
Section More.
Context {V : Type}.
Lemma slower_each : forall A is body (acc : A) (k' k : A -> thr V) bs,
  (forall bs i acc (k' k : A -> thr V), (forall v, slower bs (k' v) (k v)) -> slower bs (body i acc k') (body i acc k)) ->
  (forall v, slower bs (k' v) (k v)) -> slower bs (each is body acc k') (each is body acc k).
Proof. intros A is body acc k' k bs HB HK. revert acc. induction is as [|i is IH]; intros acc; cbn [each]; auto. Qed.
Lemma slower_warp : forall (op : V -> V -> V) val k' k bs, (forall v, slower bs (k' v) (k v)) -> slower bs (warpReduce op val k') (warpReduce op val k).
Proof. intros op val k' k bs H. unfold warpReduce. generalize [16; 8; 4; 2; 1]. intros offs. revert val. induction offs as [|d r IH]; intros val; cbn [shuffles]; auto. constructor. intros v. apply IH. Qed.
Lemma careful_each : forall A is body (acc : A) (k' k : A -> thr V) bs,
  (forall bs i acc (k' k : A -> thr V), (forall v, careful bs (k' v) (k v)) -> careful bs (body i acc k') (body i acc k)) ->
  (forall v, careful bs (k' v) (k v)) -> careful bs (each is body acc k') (each is body acc k).
Proof. intros A is body acc k' k bs HB HK. revert acc. induction is as [|i is IH]; intros acc; cbn [each]; auto. Qed.
Lemma careful_shuffles : forall (op : V -> V -> V) offs val k' k bs, (forall v, careful bs (k' v) (k v)) -> careful (repeat Mshfl (length offs) ++ bs) (shuffles op offs val k') (shuffles op offs val k).
Proof. intros op offs val k' k bs H. revert val. induction offs as [|d r IH]; intros val; cbn [shuffles length repeat app]; auto. constructor. intros v. apply IH. Qed.
Lemma careful_warp : forall (op : V -> V -> V) val k' k bs, (forall v, careful bs (k' v) (k v)) -> careful (repeat Mshfl 5 ++ bs) (warpReduce op val k') (warpReduce op val k).
Proof. intros. apply (careful_shuffles op [16; 8; 4; 2; 1]). assumption. Qed.

Lemma careful_warp2 : forall (op : V -> V -> V) val k' k bs, (forall v, careful bs (k' v) (k v)) -> careful (Mboth :: repeat Mshfl 4 ++ bs) (Sync (warpReduce op val k')) (warpReduce op val k).
Proof. intros op val k' k bs H. unfold warpReduce. cbn [shuffles]. apply c_both. intros v. apply (careful_shuffles op [8; 4; 2; 1]). exact H. Qed.

(* one warp: the two stages of a block reduction *)
Definition stages : list mark := repeat Mshfl 5 ++ Msync :: repeat Mshfl 5 ++ [Msync].
Lemma careful_reduce_from : forall (op : V -> V -> V) sa t e k' k bs, t < 32 -> (forall v, careful bs (k' v) (k v)) ->
  let rest k val : thr V := (if (t mod 32 =? 0)%nat then SSt (sa, Z.of_nat (t / 32)) val (Sync (combine2 op e sa 1 t (SLd (sa, 0%Z) k))) else Sync (combine2 op e sa 1 t (SLd (sa, 0%Z) k))) in
  forall val, careful (Msync :: repeat Mshfl 5 ++ Msync :: bs) (rest k' val) (rest k val).
Proof.
  intros op sa t e k' k bs Ht H rest val. unfold rest.
  assert (X : careful (repeat Mshfl 5 ++ Msync :: bs) (combine2 op e sa 1 t (SLd (sa, 0%Z) k')) (combine2 op e sa 1 t (SLd (sa, 0%Z) k))).
  { unfold combine2. assert (E : t / 32 = 0) by (apply Nat.div_small; exact Ht). rewrite E. cbn [Nat.eqb].
    assert (Y : forall v, careful (repeat Mshfl 5 ++ Msync :: bs)
       (warpReduce op v (fun val => if (t =? 0)%nat then SSt (sa, 0%Z) val (Sync (SLd (sa, 0%Z) k')) else Sync (SLd (sa, 0%Z) k')))
       (warpReduce op v (fun val => if (t =? 0)%nat then SSt (sa, 0%Z) val (Sync (SLd (sa, 0%Z) k)) else Sync (SLd (sa, 0%Z) k)))).
    { intros v. apply careful_warp. intros v'. assert (Z : careful (Msync :: bs) (Sync (SLd (sa, 0%Z) k')) (Sync (SLd (sa, 0%Z) k))) by (constructor; constructor; exact H). destruct (t =? 0); [constructor|]; exact Z. }
    destruct (t <? 1); [constructor; exact Y|apply Y]. }
  destruct (t mod 32 =? 0); [constructor|]; constructor; exact X.
Qed.
Lemma careful_reduce : forall (op : V -> V -> V) sa t e val k' k bs, t < 32 -> (forall v, careful bs (k' v) (k v)) ->
  careful (stages ++ bs) (blockReduce sa op (32 * 1) t val e k') (blockReduce sa op (32 * 1) t val e k).
Proof.
  intros op sa t e val k' k bs Ht H. rewrite !blockReduce_halves by lia. unfold stages. rewrite <- app_assoc. cbn [app]. rewrite <- app_assoc. cbn [app].
  apply careful_warp. intros v. apply (careful_reduce_from op sa t e k' k bs Ht H v).
Qed.
Definition stages2 : list mark := Mboth :: repeat Mshfl 4 ++ Msync :: repeat Mshfl 5 ++ [Msync].
Lemma careful_reduce2 : forall (op : V -> V -> V) sa t e val k' k bs, t < 32 -> (forall v, careful bs (k' v) (k v)) ->
  careful (stages2 ++ bs) (Sync (blockReduce sa op (32 * 1) t val e k')) (blockReduce sa op (32 * 1) t val e k).
Proof.
  intros op sa t e val k' k bs Ht H. rewrite !blockReduce_halves by lia. unfold stages2. cbn [app]. rewrite <- app_assoc. cbn [app]. rewrite <- app_assoc. cbn [app].
  apply careful_warp2. intros v. apply (careful_reduce_from op sa t e k' k bs Ht H v).
Qed.
End More.

Lemma careful_localSum : forall b inp at_ is k' k bs, (forall v, careful bs (k' v) (k v)) -> careful bs (localSum b inp at_ is k') (localSum b inp at_ is k).
Proof. intros. apply careful_each; [|assumption]. intros. constructor. auto. Qed.
Lemma careful_localVar : forall inp at_ is mean k' k bs, (forall v, careful bs (k' v) (k v)) -> careful bs (localVar inp at_ is mean k') (localVar inp at_ is mean k).
Proof. intros. apply careful_each; [|assumption]. intros. constructor. cbv zeta. auto. Qed.
Lemma careful_normWrite : forall out inp w bs at_ is mean s, careful [] (normWrite out inp w bs at_ is mean s) (normWrite out inp w bs at_ is mean s).
Proof.
  intros. apply careful_each; [|intros; constructor]. intros bs0 i acc k' k H. constructor. intros v. unfold weightThen, biasThen. destruct w; [constructor; intros v1|]; (destruct bs; [constructor; intros v2|]); constructor; apply H.
Qed.
Lemma slower_localSum : forall b inp at_ is k' k bs, (forall v, slower bs (k' v) (k v)) -> slower bs (localSum b inp at_ is k') (localSum b inp at_ is k).
Proof. intros. apply slower_each; [|assumption]. intros. constructor. auto. Qed.
Lemma slower_localVar : forall inp at_ is mean k' k bs, (forall v, slower bs (k' v) (k v)) -> slower bs (localVar inp at_ is mean k') (localVar inp at_ is mean k).
Proof. intros. apply slower_each; [|assumption]. intros. constructor. cbv zeta. auto. Qed.
Lemma slower_normWrite : forall out inp w bs at_ is mean s, slower [] (normWrite out inp w bs at_ is mean s) (normWrite out inp w bs at_ is mean s).
Proof.
  intros. apply slower_each; [|intros; constructor]. intros bs0 i acc k' k H. constructor. intros v. unfold weightThen, biasThen. destruct w; [constructor; intros v1|]; (destruct bs; [constructor; intros v2|]); constructor; apply H.
Qed.
Lemma slower_combine2 : forall V (op : V -> V -> V) e sa W t rest' rest bs, slower bs rest' rest -> slower (true :: bs) (combine2 op e sa W t rest') (combine2 op e sa W t rest).
Proof.
  intros V op e sa W t rest' rest bs H. unfold combine2.
  assert (X : forall v, slower (true :: bs) (if t / 32 =? 0 then warpReduce op v (fun val => if t =? 0 then SSt (sa, 0%Z) val (Sync rest') else Sync rest') else Sync rest')
     (if t / 32 =? 0 then warpReduce op v (fun val => if t =? 0 then SSt (sa, 0%Z) val (Sync rest) else Sync rest) else Sync rest)).
  { intros v. destruct (t / 32 =? 0); [apply slower_warp; intros v'; destruct (t =? 0); [constructor|]; constructor; exact H|constructor; exact H]. }
  destruct (t <? W); [constructor; exact X|apply X].
Qed.
Lemma slower_store1 : forall t v k' k bs, slower bs k' k -> slower (true :: bs) (store1 t v k') (store1 t v k).
Proof. intros t v k' k bs H. unfold store1. destruct (t mod 32 =? 0); [constructor|]; constructor; exact H. Qed.

(* ---- blocks ---- *)
Lemma lineBlock_one : forall n, n <= 32 -> lineBlock n = 32.
Proof. intros n H. do 33 (destruct n as [|n]; [reflexivity|]). lia. Qed.
Lemma lineBlock_two : forall n, 32 < n <= 1024 -> exists W, 2 <= W <= 32 /\ lineBlock n = 32 * W.
Proof.
  intros n H. destruct (lineBlock_ok n) as (W & HW & E). exists W. split; [|exact E]. enough (32 < lineBlock n) by lia. unfold lineBlock.
  rewrite N.mod_small by lia. destruct (nextPow2_least (N.of_nat n)) as (k & -> & A & _); lia.
Qed.

(* the program with a barrier before the second reduction *)
Definition guarded (eps : R) (out input : nat) (w bs : option nat) (n b t : nat) : thr R :=
  let at_ := lineAt n 1 b 0 in
  localSum false input at_ (strided n t 32 n) (fun sum => blockReduce 1 Rplus 32 t sum 0%R (fun sum =>
    localVar input at_ (strided n t 32 n) (sum / INR n) (fun s2 => Sync (blockReduce 1 Rplus 32 t s2 0%R (fun s2 =>
    normWrite out input w bs at_ (strided n t 32 n) (sum / INR n) (1 / sqrt (s2 / INR n + eps))))))).

Lemma careful_guarded : forall eps out input w bs n b t, t < 32 ->
  careful (stages ++ stages2 ++ []) (guarded eps out input w bs n b t)
    (localSum false input (lineAt n 1 b 0) (strided n t 32 n) (fun sum => blockReduce 1 Rplus 32 t sum 0%R (fun sum =>
    localVar input (lineAt n 1 b 0) (strided n t 32 n) (sum / INR n) (fun s2 => blockReduce 1 Rplus 32 t s2 0%R (fun s2 =>
    normWrite out input w bs (lineAt n 1 b 0) (strided n t 32 n) (sum / INR n) (1 / sqrt (s2 / INR n + eps))))))).
Proof.
  intros eps out input w bs n b t Ht. unfold guarded. apply careful_localSum. intros s. apply (careful_reduce Rplus 1 t 0%R s); [exact Ht|]. intros s1. apply careful_localVar. intros v. apply (careful_reduce2 Rplus 1 t 0%R v); [exact Ht|]. intros v1. apply careful_normWrite.
Qed.

Lemma slower_raced : forall eps out input w bs n at_ W t, 0 < W ->
  slower [true; true; false; false; true; true]
    (raced out at_ n input w bs eps W t)
    (localSum false input at_ (strided n t (32 * W) n) (fun sum => blockReduce 1 Rplus (32 * W) t sum 0%R (fun sum =>
    localVar input at_ (strided n t (32 * W) n) (sum / INR n) (fun s2 => blockReduce 1 Rplus (32 * W) t s2 0%R (fun s2 =>
    normWrite out input w bs at_ (strided n t (32 * W) n) (sum / INR n) (1 / sqrt (s2 / INR n + eps))))))).
Proof.
  intros eps out input w bs n at_ W t HW. unfold raced. apply slower_localSum. intros s. rewrite blockReduce_halves by exact HW. apply slower_warp. intros s1. apply (slower_store1 t s1). apply slower_combine2.
  assert (TL : forall s, slower [true] (tail2 out at_ n input w bs eps W t s) (combine2 Rplus 0%R 1 W t (SLd (1, 0%Z) (fun v => normWrite out input w bs at_ (strided n t (32 * W) n) (s / INR n) (1 / sqrt (v / INR n + eps)))))).
  { intros s2. unfold tail2. apply slower_combine2. constructor. intros v. apply slower_normWrite. }
  destruct (t / 32 =? 0).
  - constructor. intros s2. apply s_more. apply slower_localVar. intros v. rewrite blockReduce_halves by exact HW. apply slower_warp. intros v1. unfold store1.
    destruct (t mod 32 =? 0); [constructor|]; apply s_more; constructor; apply TL.
  - apply s_more. apply s_more. constructor. intros s2. apply slower_localVar. intros v. rewrite blockReduce_halves by exact HW. apply slower_warp. intros v1. apply (slower_store1 t v1). apply TL.
Qed.

(* ---- launches ---- *)
Lemma len_pos : forall sh : list nat, sh <> [] -> 0 < length sh.
Proof. intros [|? ?] H; [contradiction|cbn [length]; lia]. Qed.
Lemma normCuda_ok : forall rms sh p w bs eps out, sh <> [] -> last sh 0 <> 0 -> normCuda rms (mkD p sh) [last sh 0] w bs eps out =
  Ok (sh, (if (last sh 0 <=? 1024)%nat then kNormSmall else kNormLarge) rms out p w bs (numel sh / last sh 0) (last sh 0) eps).
Proof. intros rms sh p w bs eps out HS HN. unfold normCuda. cbn [dshape dbuf]. destruct sh as [|s r]; [contradiction|]. cbv zeta. destruct (Nat.eqb_spec (last (s :: r) 0) 0); [contradiction|]. rewrite Nat.eqb_refl. reflexivity. Qed.

Section Rows.
Variables (sh : list nat) (F : list nat -> R) (m : addr -> cell R) (p out : nat) (w bs : option nat) (wf bf : option (list nat -> R)).
Let n := last sh 0.
Let k := length sh - 1.
Hypothesis HS : sh <> [].
Hypothesis HN : n <> 0.
Hypothesis HZ : (0 < Z.of_nat (numel sh / n) <= 2 ^ 31 - 1)%Z.
Hypothesis NE : p <> out.
Hypothesis HF : has m p sh F.
Hypothesis HR : room m out (numel sh).

(* an optional vector of n elements in its own storage *)
Definition holdsVec (q : option nat) (f : option (list nat -> R)) : Prop :=
  match q, f with None, None => True | Some q, Some f => q <> out /\ has m q [n] f | _, _ => False end.
Hypothesis HW : holdsVec w wf.
Hypothesis HB : holdsVec bs bf.
Definition flat1 : option (list nat -> R) -> option (nat -> R) := option_map (fun f j => f [j]).

Lemma param_of : forall q f, holdsVec q f -> param m out n q (flat1 f).
Proof.
  intros q f H. destruct q as [q|], f as [f|]; try contradiction; [|exact I]. destruct H as [N E]. split; [exact N|]. intros i Hi.
  assert (V : valid [n] [i]) by (constructor; [exact Hi|constructor]). pose proof (has_at R m q [n] f [i] E V) as X.
  replace (ravel [n] [i]) with i in X by (rewrite ravel_cons; change (numel []) with 1; change (ravel [] []) with 0; lia). exact X.
Qed.

Lemma Hk : k < length sh.
Proof. pose proof (len_pos sh HS). unfold k. lia. Qed.
Lemma En : nth k sh 0 = n.
Proof. symmetry. apply last_nth, HS. Qed.
Lemma Ei : innerSize sh k = 1.
Proof. unfold innerSize. rewrite skipn_all2 by (unfold k; lia). reflexivity. Qed.
Lemma Eo : numel sh / n = outerSize sh k.
Proof. rewrite (split_numel sh k Hk), En, Ei, Nat.mul_1_r. apply Nat.div_mul, HN. Qed.

Definition xr (b i : nat) : R := F (offsetToIndices sh (lineOffset n 1 b 0 i)).
Lemma Hx : forall b i, b < numel sh / n -> i < n -> m (p, lineAt n 1 b 0 i) = Some (Some (xr b i)).
Proof.
  intros b i Hb Hi. unfold lineAt. pose proof (split_numel sh k Hk) as EN. rewrite En, Ei, <- Eo in EN. rewrite (has_ix R m p sh F); [rewrite Nat2Z.id; reflexivity|exact HF|].
  pose proof (lineOffset_lt (numel sh / n) n 1 b 0 i Hb ltac:(lia) Hi). lia.
Qed.

Lemma rows_launch : forall (l : launch R) (y : nat -> nat -> R) (G : list nat -> R), grid l = numel sh / n -> 0 < bdim l <= 1024 ->
  (forall b, b < numel sh / n -> (forall d, d < n -> m (out, lineAt n 1 b 0 d) <> None) ->
     (forall d d', d < n -> d' < n -> lineAt n 1 b 0 d = lineAt n 1 b 0 d' -> d = d') ->
     gets m out (bdim l) (fun a => if shar l a then Some None else None) (code l b) (fun _ => [])
       (fun Lf => forall t, t < bdim l -> wrote out (lineAt n 1 b 0) (y b) (strided n t (bdim l) n) (Lf t))) ->
  (forall idx, valid sh idx -> (forall i, i < n -> xr (outOf sh k idx) i = F (removelast idx ++ [i])) -> last idx 0 < n -> xr (outOf sh k idx) (last idx 0) = F idx -> y (outOf sh k idx) (last idx 0) = G idx) ->
  computes l m out sh G.
Proof.
  intros l y G EG HBD HG HY. pose proof Hk as Hk. pose proof En as En. pose proof Ei as Ei. pose proof Eo as Eo.
  assert (C : computes l m out sh (fun idx => y (outOf sh k idx) (nth k idx 0))).
  { apply (grid_lines R l m out sh k (fun o i d => y o d)); auto.
    - unfold accepted. rewrite EG. lia.
    - rewrite EG, Eo, Ei. lia.
    - rewrite En, Ei. intros b Hb AV INJ. rewrite EG, Eo in Hb. rewrite Nat.mod_small, Nat.div_small in * by exact Hb. apply HG; [rewrite Eo; exact Hb|exact AV|exact INJ]. }
  eapply always_mono; [exact C|]. intros m' [A B]. split; [|exact B]. eapply has_eq; [exact A|]. intros idx V. cbv beta.
  assert (LI : idx <> []) by (eapply valid_nonnil; eauto). pose proof (valid_length _ _ V) as LL.
  assert (EL : nth k idx 0 = last idx 0) by (rewrite last_nth by exact LI; rewrite LL; reflexivity).
  assert (EI : inOf sh k idx = 0). { unfold inOf. rewrite !skipn_all2 by (unfold k; lia). reflexivity. }
  rewrite EL. destruct (split_valid sh k idx Hk V) as (_ & V2 & _). rewrite EL, En in V2. apply HY; [exact V| |exact V2|].
  - intros i Hi. unfold xr. pose proof (line_elem sh k F idx i Hk V) as X. rewrite En, Ei, EI in X. rewrite (X Hi). f_equal. unfold k. rewrite <- LL. apply coord_last, LI.
  - unfold xr. pose proof (line_elem_self sh k F idx Hk V) as X. rewrite En, Ei, EI, EL in X. exact X.
Qed.

Lemma RS_row : forall (f : R -> R) (x : nat -> R) idx, (forall i, i < n -> x i = F (removelast idx ++ [i])) -> RS (fun i => f (x i)) n = sum (K := Rring) (fun i => f (F i)) (row_of n idx).
Proof.
  intros f x idx H. rewrite Rsum_RS. unfold row_of. rewrite sum_map. apply Rsum_ext. intros i Hi. apply in_seq in Hi. rewrite H by lia. reflexivity.
Qed.

Lemma rms_value : forall eps idx (x : nat -> R), (forall i, i < n -> x i = F (removelast idx ++ [i])) -> x (last idx 0) = F idx ->
  normFlat x (flat1 wf) None 0 (rmsOf n x eps) (last idx 0) = scaled wf (last idx 0) (F idx / sqrt (row_mean_square F n idx + eps)).
Proof.
  intros eps idx x H E. unfold normFlat, plus', rmsOf, sq. rewrite (RS_row (fun v => v * v)%R x idx H). unfold row_mean_square, average. rewrite row_length, E.
  unfold times, scaled, flat1, option_map. destruct wf; unfold Rdiv; ring.
Qed.
Lemma ln_value : forall eps idx (x : nat -> R), (forall i, i < n -> x i = F (removelast idx ++ [i])) -> x (last idx 0) = F idx ->
  normFlat x (flat1 wf) (flat1 bf) (meanOf n x) (stdOf n x eps) (last idx 0) =
    shifted bf (last idx 0) (scaled wf (last idx 0) ((F idx - row_mean F n idx) / sqrt (row_var F n idx + eps))).
Proof.
  intros eps idx x H E. assert (M : meanOf n x = row_mean F n idx).
  { unfold meanOf, sq, row_mean, average. rewrite (RS_row (fun v => v) x idx H), row_length. reflexivity. }
  unfold normFlat, stdOf. rewrite M. rewrite (RS_row (fun v => (v - row_mean F n idx) * (v - row_mean F n idx))%R x idx H). unfold row_var, variance. rewrite row_length, E.
  fold (row_mean F n idx). change (average F (row_of n idx)) with (row_mean F n idx).
  unfold plus', times, scaled, shifted, flat1, option_map. destruct wf, bf; unfold Rdiv; ring.
Qed.

Theorem rms_launch : forall eps, exists l, normCuda true (mkD p sh) [n] w None eps out = Ok (sh, l) /\
  computes l m out sh (fun idx => scaled wf (last idx 0) (F idx / sqrt (row_mean_square F n idx + eps))).
Proof.
  intros eps. exists ((if (n <=? 1024)%nat then kNormSmall else kNormLarge) true out p w None (numel sh / n) n eps). split; [apply normCuda_ok; assumption|].
  destruct (lineBlock_ok n) as (W & HW' & EW).
  apply rows_launch with (y := fun b => normFlat (xr b) (flat1 wf) None 0 (rmsOf n (xr b) eps)).
  - destruct (n <=? 1024); reflexivity.
  - destruct (n <=? 1024); cbn [bdim kNormSmall kNormLarge]; rewrite EW; lia.
  - intros b Hb AV INJ. destruct (n <=? 1024); cbn [bdim shar code kNormSmall kNormLarge]; rewrite EW.
    + apply (rms_small m out (lineAt n 1 b 0) n INJ AV p (xr b) (fun i => Hx b i Hb) NE w (flat1 wf) (param_of w wf HW) eps W _ HW'). apply shared_alloc. exact shared32_in.
    + apply (rms_large m out (lineAt n 1 b 0) n INJ AV p (xr b) (fun i => Hx b i Hb) NE w (flat1 wf) (param_of w wf HW) eps W _ HW'); [|discriminate].
      apply shared_alloc. intros q z Hq Hz. unfold sharedLine. rewrite shared32_in by assumption. reflexivity.
  - intros idx V H1 H2 H3. apply rms_value; assumption.
Qed.

Definition normLaunch eps : launch R := (if (n <=? 1024)%nat then kNormSmall else kNormLarge) false out p w bs (numel sh / n) n eps.
Lemma normCuda_is : forall eps, normCuda false (mkD p sh) [n] w bs eps out = Ok (sh, normLaunch eps).
Proof. intros eps. apply normCuda_ok; assumption. Qed.

Theorem ln_launch : forall eps, n <= 32 \/ 1024 < n -> exists l, normCuda false (mkD p sh) [n] w bs eps out = Ok (sh, l) /\
  computes l m out sh (fun idx => shifted bf (last idx 0) (scaled wf (last idx 0) ((F idx - row_mean F n idx) / sqrt (row_var F n idx + eps)))).
Proof.
  intros eps HL. exists (normLaunch eps). split; [apply normCuda_is|]. unfold normLaunch.
  set (y := fun b => normFlat (xr b) (flat1 wf) (flat1 bf) (meanOf n (xr b)) (stdOf n (xr b) eps)).
  destruct HL as [HL|HL].
  - destruct (Nat.leb_spec n 1024); [|lia].
    apply (needless_barriers (mkLaunch (numel sh / n) 32 (shared32 2) (guarded eps out p w bs n)) (kNormSmall false out p w bs (numel sh / n) n eps)); try reflexivity.
    + apply lineBlock_one, HL.
    + cbn [grid code kNormSmall]. intros b Hb. exists (stages ++ stages2 ++ []). intros t Ht. rewrite (lineBlock_one n HL). apply careful_guarded, Ht.
    + apply (rows_launch (mkLaunch (numel sh / n) 32 (shared32 2) (guarded eps out p w bs n)) y); [reflexivity|cbn [bdim]; lia| |].
      * intros b Hb AV INJ. cbn [bdim shar code]. unfold guarded.
        apply (ln_one m out (lineAt n 1 b 0) n INJ AV p (xr b) (fun i => Hx b i Hb) NE w bs (flat1 wf) (flat1 bf) (param_of w wf HW) (param_of bs bf HB) eps). apply shared_alloc. exact shared32_in.
      * intros idx V H1 H2 H3. apply ln_value; assumption.
  - destruct (Nat.leb_spec n 1024); [lia|]. destruct (lineBlock_ok n) as (W & HW' & EW). apply rows_launch with (y := y).
    + reflexivity.
    + cbn [bdim kNormLarge]; rewrite EW; lia.
    + intros b Hb AV INJ. cbn [bdim shar code kNormLarge]; rewrite EW.
      apply (ln_large m out (lineAt n 1 b 0) n INJ AV p (xr b) (fun i => Hx b i Hb) NE w bs (flat1 wf) (flat1 bf) (param_of w wf HW) (param_of bs bf HB) eps W _ HW'); [|discriminate|discriminate].
      apply shared_alloc. intros q z Hq Hz. unfold sharedLine. rewrite shared32_in by assumption. reflexivity.
    + intros idx V H1 H2 H3. apply ln_value; assumption.
Qed.

End Rows.

(* rows of ones: the warps after the first may take the mean for 0 *)
Theorem ln_race : forall sh (F : list nat -> R) m p out eps, let n := last sh 0 in sh <> [] -> 32 < n <= 1024 -> (0 < Z.of_nat (numel sh / n) <= 2 ^ 31 - 1)%Z -> p <> out ->
  has m p sh F -> (forall idx, F idx = 1%R) -> room m out (numel sh) -> (0 < eps)%R ->
  exists l, normCuda false (mkD p sh) [n] None None eps out = Ok (sh, l) /\
  sometimes l m (fun m' => exists G, has m' out sh G /\ forall idx, valid sh idx -> 32 <= last idx 0 < 64 -> (G idx <> 0)%R).
Proof.
  intros sh F m p out eps n HS HL HZ NE HF ONE HR HE. assert (HN : n <> 0) by lia. eexists. split; [apply normCuda_ok; assumption|]. fold n. destruct (Nat.leb_spec n 1024); [|lia]. destruct (lineBlock_two n HL) as (W & HW & EW).
  set (l' := mkLaunch (numel sh / n) (32 * W) (shared32 2) (fun b t => raced out (lineAt n 1 b 0) n p None None eps W t)).
  apply (more_barriers l'); [reflexivity|symmetry; exact EW|reflexivity| |].
  - cbn [grid kNormSmall bdim code l']. intros b Hb. exists [true; true; false; false; true; true]. intros t Ht. rewrite EW. apply slower_raced. lia.
  - set (v := racedVar n (fun _ => 1%R) W).
    set (y := fun b i : nat => normFlat (fun _ => 1%R) None None (if (i mod (32 * W)) / 32 =? 0 then 1 else 0)%R (1 / sqrt (v / INR n + eps)) i).
    assert (C : computes l' m out sh (fun idx => y 0 (last idx 0))).
    { apply (rows_launch sh F m p out HS HN HZ NE HR l' y); [reflexivity|cbn [bdim l']; lia| |reflexivity].
      intros b Hb AV INJ. cbn [bdim shar code l'].
      apply (ln_raced m out (lineAt n 1 b 0) n INJ AV p (fun _ => 1%R)); auto; try exact I; try lia.
      - intros i Hi. assert (X : m (p, lineAt n 1 b 0 i) = Some (Some (xr sh F b i))) by (eapply Hx; eauto). rewrite X. unfold xr. rewrite ONE. reflexivity.
      - apply shared_alloc. exact shared32_in. }
    apply always_some in C. destruct C as (s & R & FI & A & _). exists s. split; [exact R|]. split; [exact FI|]. eexists. split; [exact A|]. intros idx V Hi. cbv beta. unfold y.
    rewrite Nat.mod_small by lia. replace (last idx 0 / 32 =? 0) with false.
    + unfold normFlat, plus', times. assert (0 <= v)%R by apply racedVar_nonneg. assert (0 < INR n)%R by (apply lt_0_INR; lia).
      assert (0 <= v / INR n)%R by (apply Rmult_le_pos; [assumption|left; apply Rinv_0_lt_compat; assumption]).
      assert (0 < 1 / sqrt (v / INR n + eps))%R; [|lra]. apply Rdiv_lt_0_compat; [lra|]. apply sqrt_lt_R0. lra.
    + symmetry. apply Nat.eqb_neq. assert (1 <= last idx 0 / 32) by (apply Nat.div_le_lower_bound; lia). lia.
Qed.
