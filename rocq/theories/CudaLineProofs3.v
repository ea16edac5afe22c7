(* Gradients of softmax on the GPU. *)
From Coq Require Import List Arith ZArith Bool Lia Reals Lra Permutation.
From Verif Require Import ShapeModel ShapeSpec ShapeProofs TensorModel TensorSpec TensorLemmas BcastModel BufModel BufProofs CutSpec ReduceModel ReduceSpec LineModel LineProofs SoftmaxModel SoftmaxSpec SoftmaxProofs
  GpuModel GpuSpec GpuProofs GpuLemmas CudaModel CudaSpec CudaProofs CudaFillProofs CudaReduceModel CudaReduceSpec CudaMeanProofs CudaExtremeModel CudaExtremeProofs5 CudaLineModel GpuWarp GpuBlock GpuLines CudaLineProofs CudaLineProofs2.
Import ListNotations.
Local Open Scope nat_scope.

Definition backP (isLog : bool) (y g : nat -> R) (d : nat) : R := if isLog then g d else (y d * g d)%R.
Definition backR (isLog : bool) (y g : nat -> R) (total : R) (d : nat) : R := if isLog then (g d - exp (y d) * total)%R else (y d * (g d - total))%R.

Section Block.
Variable m : addr -> cell R.
Variables out output grad : nat.
Variable at_ : nat -> Z.
Variable n : nat.
Variables y g : nat -> R.
Hypothesis HY : forall i, i < n -> m (output, at_ i) = Some (Some (y i)).
Hypothesis HG : forall i, i < n -> m (grad, at_ i) = Some (Some (g i)).
Hypothesis NY : output <> out.
Hypothesis NG : grad <> out.
Variable isLog : bool.

Lemma partial_quiet : forall i k, i < n -> quietly m out (backPartial isLog output grad (at_ i) k) (k (backP isLog y g i)).
Proof.
  intros i k Hi. unfold backPartial, backP. destruct isLog.
  - apply quietly_ld; [exact NG|apply HG, Hi].
  - eapply quietly_trans; [apply quietly_ld; [exact NY|apply HY, Hi]|]. apply (quietly_ld m out (grad, at_ i) (g i) (fun g => k (y i * g)%R)); [exact NG|apply HG, Hi].
Qed.

Lemma back_block : forall W S c (k : nat -> R -> thr R) f l Q, 0 < W <= 32 -> alloc S -> (forall t a, t < 32 * W -> In a (c t) -> fst a <> 1) ->
  Permutation (flat_map f (seq 0 (32 * W))) l -> (forall i, In i l -> i < n) ->
  (forall S', alloc S' -> gets m out (32 * W) S' (fun t => k t (fold_right Rplus 0%R (map (backP isLog y g) l))) (fun _ => [(1, 0%Z)]) Q) ->
  gets m out (32 * W) S (fun t => localBack isLog output grad at_ (f t) (fun s => blockReduce 1 Rplus (32 * W) t s 0%R (k t))) c Q.
Proof.
  intros W S c k f l Q HW HS HC HP HL H. unfold localBack.
  apply (share_reduce m out Rplus 0%R W S (fun t i sum k => backPartial isLog output grad (at_ i) (fun p => k (sum + p)%R)) k c 1 (backP isLog y g) f l); auto using plus_comm_R, plus_assoc_R, plus_zero_R.
  - intros t i acc k' Ht Hi. apply (partial_quiet i (fun p => k' (acc + p)%R)). apply HL, (Permutation_in i HP). apply in_flat_map. exists t. split; [apply in_seq; lia|exact Hi].
  - intros S' A B. apply H. apply (alloc_other S S' 1); assumption.
Qed.

Section Write.
Hypothesis INJ : forall i j, i < n -> j < n -> at_ i = at_ j -> i = j.
Hypothesis AV : forall i, i < n -> m (out, at_ i) <> None.
Variable M : R.
Hypothesis HM : isLog = true -> forall i, i < n -> (y i <= M)%R.

Lemma back_write : forall BD S f c total, 0 < BD -> (forall t, t < BD -> NoDup (f t)) -> (forall t i, t < BD -> In i (f t) -> i < n) ->
  gets m out BD S (fun t => backWrite M isLog out output grad at_ (f t) total) c (fun Lf => forall t, t < BD -> wrote out at_ (backR isLog y g total) (f t) (Lf t)).
Proof.
  intros BD S f c total HB ND HI. unfold backWrite. apply (share_write m out at_ n INJ AV); auto. intros t i u k Ht Hi. unfold backResult, backR.
  destruct isLog eqn:EL.
  - eapply quietly_trans; [apply quietly_ld; [exact NG|apply HG, Hi]|]. eapply quietly_trans; [apply quietly_ld; [exact NY|apply HY, Hi]|].
    rewrite expThen_quiet by (apply HM; auto). apply quietly_refl.
  - eapply quietly_trans; [apply quietly_ld; [exact NY|apply HY, Hi]|]. apply (quietly_ld m out (grad, at_ i) (g i) (fun g => St (out, at_ i) (y i * (g - total))%R (k tt))); [exact NG|apply HG, Hi].
Qed.

Lemma back_small : forall W S, 0 < W <= 32 -> alloc S ->
  gets m out (32 * W) S (fun t => let is := strided n t (32 * W) n in
    localBack isLog output grad at_ is (fun sum => blockReduce 1 Rplus (32 * W) t sum 0%R (fun sum => backWrite M isLog out output grad at_ is sum))) (fun _ => [])
  (fun Lf => forall t, t < 32 * W -> wrote out at_ (backR isLog y g (RS (backP isLog y g) n)) (strided n t (32 * W) n) (Lf t)).
Proof.
  intros W S HW HS. set (f := fun t => strided n t (32 * W) n). assert (HP := strided_shares n (32 * W) ltac:(lia)).
  apply (back_block W S (fun _ => []) (fun t sum => backWrite M isLog out output grad at_ (f t) sum) f (seq 0 n)); auto.
  { intros i Hi. apply in_seq in Hi. lia. }
  intros S' AS. apply back_write; [lia| |].
  - intros t Ht. apply strided_nodup. lia.
  - intros t i Ht Hi. apply strided_mod in Hi; [apply Hi|lia|exact Ht].
Qed.
End Write.
End Block.

(* ---- tiles ---- *)
Definition per (n nb : nat) : nat := (n + nb - 1) / nb.
Definition tile (n nb x : nat) : list nat := seq (x * per n nb) (Nat.min (x * per n nb + per n nb) n - x * per n nb).

Lemma per_ok : forall n nb, 0 < nb -> 0 < n -> 0 < per n nb /\ n <= nb * per n nb.
Proof.
  intros n nb HB Hn. unfold per. split.
  - apply Nat.div_str_pos. lia.
  - pose proof (Nat.div_mod (n + nb - 1) nb ltac:(lia)). pose proof (Nat.mod_upper_bound (n + nb - 1) nb ltac:(lia)). lia.
Qed.

Lemma tile_in : forall n nb x i, In i (tile n nb x) <-> x * per n nb <= i < x * per n nb + per n nb /\ i < n.
Proof. intros n nb x i. unfold tile. rewrite in_seq. lia. Qed.

Lemma tile_div : forall n nb x i, 0 < nb -> 0 < n -> (In i (tile n nb x) <-> i < n /\ i / per n nb = x).
Proof.
  intros n nb x i HB Hn. rewrite tile_in. destruct (per_ok n nb HB Hn) as [P _]. split.
  - intros [H Hi]. split; [exact Hi|]. symmetry. apply (Nat.div_unique i (per n nb) x (i - x * per n nb)); lia.
  - intros [Hi <-]. split; [|exact Hi]. pose proof (Nat.div_mod i (per n nb) ltac:(lia)). pose proof (Nat.mod_upper_bound i (per n nb) ltac:(lia)). lia.
Qed.

Lemma tiles_all : forall n nb, 0 < nb -> 0 < n -> Permutation (flat_map (tile n nb) (seq 0 nb)) (seq 0 n).
Proof.
  intros n nb HB Hn. apply shares.
  - intros t _. apply seq_NoDup.
  - intros t t' i _ _ H H'. apply tile_div in H as [_ H]; auto. apply tile_div in H' as [_ H']; auto. congruence.
  - intros i. split.
    + intros Hi. exists (i / per n nb). destruct (per_ok n nb HB Hn) as [P Q]. split; [apply Nat.div_lt_upper_bound; lia|]. apply tile_div; auto. split; [lia|reflexivity].
    + intros (t & Ht & Hi). apply tile_in in Hi. lia.
Qed.

Lemma tileOf_in : forall n nb bd x t i, 0 < bd -> t < bd -> (In i (tileOf n nb bd x t) <-> In i (tile n nb x) /\ (i - x * per n nb) mod bd = t).
Proof.
  intros n nb bd x t i HB Ht. unfold tileOf. fold (per n nb). rewrite strided_in by lia. rewrite tile_in. split.
  - intros [Hi [j ->]]. split; [lia|]. replace (x * per n nb + t + j * bd - x * per n nb) with (t + j * bd) by lia. apply mod_step, Ht.
  - intros [[H Hi] E]. split; [lia|]. exists ((i - x * per n nb) / bd). pose proof (Nat.div_mod (i - x * per n nb) bd ltac:(lia)). lia.
Qed.

Lemma tileOf_nodup : forall n nb bd x t, 0 < bd -> NoDup (tileOf n nb bd x t).
Proof. intros. apply strided_nodup. assumption. Qed.

Lemma tileOf_shares : forall n nb bd x, 0 < bd -> Permutation (flat_map (tileOf n nb bd x) (seq 0 bd)) (tile n nb x).
Proof.
  intros n nb bd x HB. unfold tile. apply shares.
  - intros t _. apply tileOf_nodup, HB.
  - intros t t' i Ht Ht' H H'. apply tileOf_in in H as [_ H]; auto. apply tileOf_in in H' as [_ H']; auto. congruence.
  - intros i. rewrite <- in_seq. fold (tile n nb x). split.
    + intros Hi. exists ((i - x * per n nb) mod bd). assert (X : (i - x * per n nb) mod bd < bd) by (apply Nat.mod_upper_bound; lia). split; [exact X|]. apply tileOf_in; auto.
    + intros (t & Ht & Hi). apply tileOf_in in Hi; auto. apply Hi.
Qed.

Lemma RS_tiles : forall (f : nat -> R) n nb, 0 < nb -> 0 < n ->
  RS (fun x => fold_right Rplus 0%R (map f (tile n nb x))) nb = RS f n.
Proof.
  intros f n nb HB Hn. unfold RS. rewrite <- (fold_perm Rplus 0%R plus_comm_R plus_assoc_R _ _ (Permutation_map f (tiles_all n nb HB Hn))).
  rewrite <- (fold_flat Rplus 0%R plus_comm_R plus_assoc_R plus_zero_R _ (fun x => map f (tile n nb x))). f_equal.
  induction (seq 0 nb) as [|x l IH]; [reflexivity|]. cbn [flat_map]. rewrite map_app, IH. reflexivity.
Qed.

(* ---- three-dimensional grids ---- *)
Lemma three_d : forall nb inner outer b, b < nb * inner * outer -> b mod nb < nb /\ b / nb mod inner < inner /\ b / nb / inner < outer.
Proof.
  intros nb inner outer b H. assert (nb <> 0) by (intros ->; cbn in H; lia). assert (inner <> 0) by (intros ->; rewrite Nat.mul_0_r in H; cbn in H; lia).
  repeat split; try (apply Nat.mod_upper_bound; assumption). apply Nat.div_lt_upper_bound; [assumption|]. apply Nat.div_lt_upper_bound; [assumption|]. lia.
Qed.
Lemma three_d_inj : forall nb inner b b', nb <> 0 -> inner <> 0 -> b mod nb = b' mod nb -> b / nb mod inner = b' / nb mod inner -> b / nb / inner = b' / nb / inner -> b = b'.
Proof. intros nb inner b b' H H' E1 E2 E3. apply (two_d_inj nb b b' H E1). apply (two_d_inj inner (b / nb) (b' / nb) H' E2 E3). Qed.
Lemma three_d_all : forall nb inner outer x i o, x < nb -> i < inner -> o < outer -> let b := (o * inner + i) * nb + x in
  b < nb * inner * outer /\ b mod nb = x /\ b / nb mod inner = i /\ b / nb / inner = o.
Proof.
  intros nb inner outer x i o Hx Hi Ho b. unfold b. destruct (div_prod (o * inner + i) x nb Hx) as [A B]. rewrite A, B. destruct (div_prod o i inner Hi) as [C D].
  repeat split; [|exact D|exact C]. pose proof (lt_prod o i x outer inner nb Ho Hi Hx). lia.
Qed.

Section Large.
Variable m0 : addr -> cell R.
Variables out output grad part : nat.
Variables outer n inner nb : nat.
Variables y g : nat -> nat -> nat -> R.
Hypothesis HY : forall o i d, o < outer -> i < inner -> d < n -> m0 (output, lineAt n inner o i d) = Some (Some (y o i d)).
Hypothesis HG : forall o i d, o < outer -> i < inner -> d < n -> m0 (grad, lineAt n inner o i d) = Some (Some (g o i d)).
Hypothesis NYP : output <> part.
Hypothesis NGP : grad <> part.
Hypothesis HN : 0 < n.
Hypothesis HNB : 0 < nb.
Hypothesis HGRID : grid3 nb inner outer = nb * inner * outer.
Hypothesis HZ : (0 < Z.of_nat (nb * inner * outer) <= 2 ^ 31 - 1)%Z.
Hypothesis HPART : room m0 part (outer * inner * nb).
Variable isLog : bool.

Definition tileSum (o i x : nat) : R := fold_right Rplus 0%R (map (backP isLog (y o i) (g o i)) (tile n nb x)).

Lemma phase1 : always (kSoftmaxBackwardPhase1 isLog output grad part outer n inner nb) m0 (fun m1 =>
  (forall o i x, o < outer -> i < inner -> x < nb -> m1 (part, Z.of_nat ((o * inner + i) * nb + x)) = Some (Some (tileSum o i x))) /\
  (forall a, fst a <> part -> m1 a = m0 a)).
Proof.
  set (l := kSoftmaxBackwardPhase1 isLog output grad part outer n inner nb).
  assert (EG : grid l = nb * inner * outer) by exact HGRID. assert (EB : bdim l = 32 * 16) by reflexivity.
  assert (ACC : accepted l). { unfold accepted. rewrite EG, EB. lia. }
  assert (NZ : nb <> 0 /\ inner <> 0). { split; intros ->; lia. }
  set (pos := fun b (_ : nat) => Z.of_nat ((b / nb / inner * inner + b / nb mod inner) * nb + b mod nb)).
  assert (EP : forall b d, pos b d = Z.of_nat b).
  { intros b d. unfold pos. f_equal. pose proof (Nat.div_mod b nb (proj1 NZ)). pose proof (Nat.div_mod (b / nb) inner (proj2 NZ)). rewrite (Nat.mul_comm (b / nb / inner)), <- H0. lia. }
  eapply always_mono; [apply (lines_run m0 part l pos (fun b _ => tileSum (b / nb / inner) (b / nb mod inner) (b mod nb)) (fun _ t => if t =? 0 then [0] else []) ACC)|].
  - intros b Hb. rewrite EG in Hb. destruct (three_d nb inner outer b Hb) as (Hx & Hi & Ho). rewrite EB.
    assert (AV : m0 (part, pos b 0) <> None). { apply (room_at R m0 part (outer * inner * nb)); [exact HPART|]. rewrite EP. replace (outer * inner * nb) with (nb * inner * outer) by ring. lia. }
    unfold l, kSoftmaxBackwardPhase1. cbn [code shar]. change blockSize with (32 * 16).
    set (o := b / nb / inner) in *. set (i := b / nb mod inner) in *. set (x := b mod nb) in *.
    eapply (back_block m0 part output grad (lineAt n inner o i) n (y o i) (g o i) (fun d Hd => HY o i d Ho Hi Hd) (fun d Hd => HG o i d Ho Hi Hd) NYP NGP isLog 16 _ (fun _ => [])
      (fun t sum => if t =? 0 then St (part, Z.of_nat ((o * inner + i) * nb + x)) sum Done else Done) (tileOf n nb (32 * 16) x) (tile n nb x)); auto.
    + lia.
    + apply shared_alloc. exact shared32_in.
    + apply tileOf_shares. lia.
    + intros d Hd. apply tile_in in Hd. lia.
    + intros S' _. fold (tileSum o i x).
      apply gets_quietly with (P' := fun t => each (if t =? 0 then [0] else []) (fun d (_ : unit) k => St (part, pos b d) (tileSum o i x) (k tt)) tt (fun _ => Done)).
      { intros t _. destruct (t =? 0); apply quietly_refl. }
      apply gets_write.
      * intros t d u k _ _. apply quietly_refl.
      * intros t _. destruct (t =? 0); repeat constructor. intros [].
      * intros t d d' _. destruct (t =? 0); [intros [<-|[]] [<-|[]] _; reflexivity|intros []].
      * intros t d _. destruct (t =? 0); [intros [<-|[]]; exact AV|intros []].
  - intros b t d b' t' d' Hb Ht Hd Hb' Ht' Hd' E. rewrite !EP in E. apply Nat2Z.inj in E. subst b'. split; [reflexivity|].
    destruct (Nat.eqb_spec t 0); [|destruct Hd]. destruct (Nat.eqb_spec t' 0); [|destruct Hd']. destruct Hd as [<-|[]]. destruct Hd' as [<-|[]]. split; congruence.
  - intros m1 [A B]. split.
    + intros o i x Ho Hi Hx. destruct (three_d_all nb inner outer x i o Hx Hi Ho) as (Hb & E1 & E2 & E3).
      assert (Hb' : (o * inner + i) * nb + x < grid l) by (rewrite EG; exact Hb). specialize (A _ 0 0 Hb' ltac:(rewrite EB; lia) (or_introl eq_refl)). rewrite EP, E1, E2, E3 in A. exact A.
    + intros a N. apply B. intros b t d _ _ _ ->. apply N. reflexivity.
Qed.

(* phase 2, from the memory phase 1 leaves *)
Variable m : addr -> cell R.
Hypothesis SAME : forall a, fst a <> part -> m a = m0 a.
Hypothesis PART : forall o i x, o < outer -> i < inner -> x < nb -> m (part, Z.of_nat ((o * inner + i) * nb + x)) = Some (Some (tileSum o i x)).
Hypothesis NY : output <> out.
Hypothesis NG : grad <> out.
Hypothesis NP : part <> out.
Variable M : R.
Hypothesis HM : isLog = true -> forall o i d, o < outer -> i < inner -> d < n -> (y o i d <= M)%R.

Lemma phase2_block : forall b, b < nb * inner * outer -> let x := b mod nb in let i := b / nb mod inner in let o := b / nb / inner in
  (forall d, d < n -> m (out, lineAt n inner o i d) <> None) -> (forall d d', d < n -> d' < n -> lineAt n inner o i d = lineAt n inner o i d' -> d = d') ->
  let l := kSoftmaxBackwardPhase2 M isLog out output grad part outer n inner nb in
  gets m out (bdim l) (fun a => if shar l a then Some None else None) (code l b) (fun _ => [])
    (fun Lf => forall t, t < bdim l -> wrote out (lineAt n inner o i) (backR isLog (y o i) (g o i) (RS (backP isLog (y o i) (g o i)) n)) (tileOf n nb 512 x t) (Lf t)).
Proof.
  intros b Hb x i o AV INJ l. destruct (three_d nb inner outer b Hb) as (Hx & Hi & Ho). fold x i o in Hx, Hi, Ho.
  unfold l, kSoftmaxBackwardPhase2. cbn [bdim code shar]. fold x i o. change blockSize with (32 * 16). change 512 with (32 * 16).
  rewrite <- (RS_tiles (backP isLog (y o i) (g o i)) n nb HNB HN).
  apply (share_reduce m out Rplus 0%R 16 _ (fun t j total k => Ld (part, Z.of_nat ((o * inner + i) * nb + j)) (fun x => k (total + x)%R))
    (fun t sum => backWrite M isLog out output grad (lineAt n inner o i) (tileOf n nb (32 * 16) x t) sum) (fun _ => []) 1 (tileSum o i) (fun t => strided nb t (32 * 16) nb) (seq 0 nb)); auto using plus_comm_R, plus_assoc_R, plus_zero_R.
  - lia.
  - intros z Hz. cbv beta. rewrite shared32_in by lia. discriminate.
  - intros t j acc k Ht Hj. apply strided_mod in Hj; [|lia|exact Ht]. apply (quietly_ld m out (part, Z.of_nat ((o * inner + i) * nb + j)) (tileSum o i j) (fun x => k (acc + x)%R)); [exact NP|]. apply PART; [exact Ho|exact Hi|apply Hj].
  - apply strided_shares. lia.
  - intros S' A B. eapply (back_write m out output grad (lineAt n inner o i) n (y o i) (g o i)).
    + intros d Hd. rewrite SAME by exact NYP. apply HY; assumption.
    + intros d Hd. rewrite SAME by exact NGP. apply HG; assumption.
    + exact NY.
    + exact NG.
    + exact INJ.
    + exact AV.
    + intros EL d Hd. apply HM; assumption.
    + lia.
    + intros t Ht. apply tileOf_nodup. lia.
    + intros t d Ht Hd. apply tileOf_in in Hd; [|lia|exact Ht]. destruct Hd as [Hd _]. apply tile_in in Hd. lia.
Qed.
End Large.

Definition fitsBack (sh : list nat) (k : nat) : Prop :=
  let n := nth k sh 0 in let outer := outerSize sh k in let inner := innerSize sh k in
  let nb := if n <=? 1024 then 1 else Nat.min 16 ((n + 1023) / 1024) in
  (Z.of_nat inner <= 65535)%Z /\ (1024 < n -> (Z.of_nat outer <= 65535)%Z) /\ (0 < Z.of_nat (nb * inner * outer) <= 2 ^ 31 - 1)%Z.

Theorem softmax_back_launch : forall M isLog sh (Y G : list nat -> R) dim k m py pg out part,
  dim_is (length sh) dim k -> fitsBack sh k -> has m py sh Y -> has m pg sh G -> room m out (numel sh) ->
  (1024 < nth k sh 0 -> room m part (outerSize sh k * innerSize sh k * Nat.min 16 ((nth k sh 0 + 1023) / 1024))) ->
  py <> out -> pg <> out -> py <> part -> pg <> part -> part <> out ->
  (isLog = true -> forall idx, valid sh idx -> (Y idx <= M)%R) ->
  exists ls, softmaxBackwardCuda M isLog (mkD pg sh) (mkD py sh) dim out part = Ok (sh, ls) /\
    computes_all ls m out [part] sh (fun idx => if isLog then (G idx - exp (Y idx) * line_sum G k (nth k sh 0%nat) idx)%R else (Y idx * (G idx - line_sum (fun i => Y i * G i) k (nth k sh 0%nat) idx))%R).
Proof.
  intros M isLog sh Y G dim k m py pg out part HD (HI & HO & HZ) HY HG HR HPR N1 N2 N3 N4 N5 HM. unfold softmaxBackwardCuda. cbn [dshape dbuf].
  destruct (list_eq_dec Nat.eq_dec sh sh) as [_|X]; [|contradiction]. rewrite (proj2 (axis_some _ _ _) HD). eexists. split; [reflexivity|].
  pose proof (proj1 HD) as Hk. set (n := nth k sh 0) in *. set (outer := outerSize sh k) in *. set (inner := innerSize sh k) in *.
  pose proof (split_numel sh k Hk) as EN. fold n outer inner in EN.
  set (y := fun o i d => Y (offsetToIndices sh (lineOffset n inner o i d))). set (g := fun o i d => G (offsetToIndices sh (lineOffset n inner o i d))).
  assert (HX : forall p F, has m p sh F -> forall o i d, o < outer -> i < inner -> d < n -> m (p, lineAt n inner o i d) = Some (Some (F (offsetToIndices sh (lineOffset n inner o i d))))).
  { intros p F HF o i d Ho Hi Hd. unfold lineAt. rewrite (has_ix R m p sh F) by (exact HF || (pose proof (lineOffset_lt outer n inner o i d Ho Hi Hd); lia)). rewrite Nat2Z.id. reflexivity. }
  assert (HM' : isLog = true -> forall o i d, o < outer -> i < inner -> d < n -> (y o i d <= M)%R).
  { intros EL o i d Ho Hi Hd. apply (HM EL). apply o2i_valid. rewrite EN. apply lineOffset_lt; assumption. }
  set (res := fun idx : list nat => if isLog then (G idx - exp (Y idx) * line_sum G k n idx)%R else (Y idx * (G idx - line_sum (fun i => Y i * G i) k n idx))%R).
  assert (RES : forall idx, valid sh idx -> backR isLog (y (outOf sh k idx) (inOf sh k idx)) (g (outOf sh k idx) (inOf sh k idx)) (RS (backP isLog (y (outOf sh k idx) (inOf sh k idx)) (g (outOf sh k idx) (inOf sh k idx))) n) (nth k idx 0) = res idx).
  { intros idx V. set (o := outOf sh k idx). set (i := inOf sh k idx).
    assert (EY : y o i (nth k idx 0) = Y idx) by (apply line_elem_self; assumption). assert (EGG : g o i (nth k idx 0) = G idx) by (apply line_elem_self; assumption).
    assert (ES : RS (backP isLog (y o i) (g o i)) n = line_sum (if isLog then G else (fun i => Y i * G i)%R) k n idx).
    { rewrite Rsum_RS. unfold line_sum. apply Rsum_ext. intros j Hj. apply in_seq in Hj. unfold backP.
      replace (y o i j) with (Y (with_coord true k idx j)) by (symmetry; apply (line_elem sh k Y idx j); [exact Hk|exact V|fold n; lia]).
      replace (g o i j) with (G (with_coord true k idx j)) by (symmetry; apply (line_elem sh k G idx j); [exact Hk|exact V|fold n; lia]).
      destruct isLog; reflexivity. }
    rewrite ES. unfold backR, res. rewrite EY, EGG. destruct isLog; reflexivity. }
  assert (FIN : forall (l : launch R) m1, computes l m1 out sh (fun idx => backR isLog (y (outOf sh k idx) (inOf sh k idx)) (g (outOf sh k idx) (inOf sh k idx)) (RS (backP isLog (y (outOf sh k idx) (inOf sh k idx)) (g (outOf sh k idx) (inOf sh k idx))) n) (nth k idx 0)) ->
    (forall a, fst a <> part -> m1 a = m a) -> computes_all [l] m1 out [part] sh res /\ always_all [l] m1 (fun m' => has m' out sh res /\ forall p, p <> out -> ~ In p [part] -> forall i, m' (p, i) = m (p, i))).
  { intros l m1 C SM. assert (C' : always l m1 (fun m' => has m' out sh res /\ same_but out m1 m')).
    { eapply always_mono; [exact C|]. intros m' [A B]. split; [eapply has_eq; [exact A|exact RES]|exact B]. }
    split; (eapply always_mono; [exact C'|]); intros m' [A B]; (split; [exact A|]); intros p Hp Hin i; rewrite B by exact Hp; [reflexivity|]. apply SM. cbn [fst]. intros ->. apply Hin. left. reflexivity. }
  destruct (Nat.leb_spec n 1024) as [Hn|Hn].
  - apply FIN; [|intros a _; reflexivity]. destruct (lineBlock_ok n) as (W & HW & EW).
    assert (EG : grid3 outer inner 1 = outer * inner). { unfold grid3. destruct (Z.leb_spec (Z.of_nat inner) 65535); [|lia]. cbn [andb Z.of_nat Z.leb Z.compare]. apply Nat.mul_1_r. }
    apply (grid_lines R (kSoftmaxBackward M isLog out py pg outer n inner) m out sh k (fun o i => backR isLog (y o i) (g o i) (RS (backP isLog (y o i) (g o i)) n))); auto.
    + unfold accepted, kSoftmaxBackward. cbn [grid bdim]. rewrite EG, EW. replace (1 * inner * outer) with (outer * inner) in HZ by ring. lia.
    + unfold kSoftmaxBackward. cbn [grid bdim code shar]. rewrite EG. fold n outer inner. intros b Hb AV INJ. destruct (two_d outer inner b Hb) as [Ho Hi]. rewrite EW.
      apply (back_small m out py pg (lineAt n inner (b mod outer) (b / outer)) n (y (b mod outer) (b / outer)) (g (b mod outer) (b / outer)) (fun d Hd => HX py Y HY _ _ d Ho Hi Hd) (fun d Hd => HX pg G HG _ _ d Ho Hi Hd) N1 N2 isLog INJ AV M (fun EL d Hd => HM' EL _ _ d Ho Hi Hd) W); [exact HW|].
      apply shared_alloc. exact shared32_in.
  - specialize (HO Hn). set (nb := Nat.min 16 ((n + 1023) / 1024)) in *.
    assert (HNB : 0 < nb). { unfold nb. apply Nat.min_glb_lt; [lia|]. apply Nat.div_str_pos. lia. }
    assert (EG : grid3 nb inner outer = nb * inner * outer). { unfold grid3. destruct (Z.leb_spec (Z.of_nat inner) 65535); [|lia]. destruct (Z.leb_spec (Z.of_nat outer) 65535); [|lia]. reflexivity. }
    assert (NZ : nb <> 0 /\ inner <> 0). { split; intros E; rewrite E in HZ; lia. }
    assert (HN : 0 < n) by lia.
    assert (P1 := phase1 m py pg part outer n inner nb y g (HX py Y HY) (HX pg G HG) N3 N4 HN HNB EG HZ (HPR Hn) isLog).
    unfold computes_all. cbn [always_all]. eapply always_mono; [exact P1|]. intros m1 [A B]. cbv beta.
    assert (HR1 : room m1 out (numel sh)). { intros z. rewrite B by (cbn [fst]; congruence). apply HR. }
    apply (FIN (kSoftmaxBackwardPhase2 M isLog out py pg part outer n inner nb) m1); [|exact B].
    set (l := kSoftmaxBackwardPhase2 M isLog out py pg part outer n inner nb). assert (GL : grid l = nb * inner * outer) by exact EG. assert (BL : bdim l = 512) by reflexivity.
    apply (line_launch R l m1 out sh k (fun b => b / nb / inner) (fun b => b / nb mod inner) (fun b t => tileOf n nb 512 (b mod nb) t) (fun o i => backR isLog (y o i) (g o i) (RS (backP isLog (y o i) (g o i)) n))); auto.
    + unfold accepted. rewrite GL, BL. lia.
    + intros b Hb. rewrite GL in Hb. destruct (three_d nb inner outer b Hb) as (_ & X & X'). auto.
    + intros b t d Hb Ht Hd. rewrite BL in Ht. apply tileOf_in in Hd; [|lia|exact Ht]. destruct Hd as [Hd _]. apply tile_in in Hd. fold n. lia.
    + intros b t d b' t' Hb Ht Hd Hb' Ht' Hd' E E'. rewrite BL in Ht, Ht'. apply tileOf_in in Hd; [|lia|exact Ht]. apply tileOf_in in Hd'; [|lia|exact Ht']. destruct Hd as [Hd Et], Hd' as [Hd' Et'].
      apply tile_div in Hd as [_ Hd]; [|exact HNB|lia]. apply tile_div in Hd' as [_ Hd']; [|exact HNB|lia].
      assert (EX : b mod nb = b' mod nb) by congruence. split; [apply (three_d_inj nb inner); tauto|]. rewrite EX in Et. congruence.
    + intros o i d Ho Hi Hd. fold n in Hd. fold outer in Ho. fold inner in Hi. destruct (per_ok n nb HNB ltac:(lia)) as [P Q].
      assert (Hx : d / per n nb < nb) by (apply Nat.div_lt_upper_bound; lia).
      destruct (three_d_all nb inner outer (d / per n nb) i o Hx Hi Ho) as (Hb & E1 & E2 & E3).
      exists ((o * inner + i) * nb + d / per n nb), ((d - d / per n nb * per n nb) mod 512). rewrite GL, BL. rewrite E1, E2, E3. assert (Ht : (d - d / per n nb * per n nb) mod 512 < 512) by (apply Nat.mod_upper_bound; lia).
      repeat split; auto. apply tileOf_in; [lia|exact Ht|]. split; [|reflexivity]. apply tile_div; [exact HNB|lia|]. auto.
    + intros b Hb AV INJ. rewrite GL in Hb.
      apply (phase2_block m out py pg part outer n inner nb y g (HX py Y HY) (HX pg G HG) N3 N4 HN HNB EG HZ isLog m1 B A N1 N2 N5 M HM' b Hb AV INJ).
Qed.
