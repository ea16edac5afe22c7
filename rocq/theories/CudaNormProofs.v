(* Layer norm and RMS norm on the GPU: one block. *)
From Coq Require Import List Arith ZArith Bool Lia Reals Lra Permutation.
From Verif Require Import GpuModel GpuSpec GpuProofs GpuLemmas CudaModel CudaSpec CudaReduceModel CudaReduceProofs CudaExtremeModel CudaLineModel GpuWarp GpuBlock GpuLines GpuHalves CudaLineProofs.
Import ListNotations.
Local Open Scope nat_scope.

Section Norm.
Variable m : addr -> cell R.
Variable out : nat.
Variable at_ : nat -> Z.
Variable n : nat.
Hypothesis INJ : forall i j, i < n -> j < n -> at_ i = at_ j -> i = j.
Hypothesis AV : forall i, i < n -> m (out, at_ i) <> None.
Variable input : nat.
Variable x : nat -> R.
Hypothesis HX : forall i, i < n -> m (input, at_ i) = Some (Some (x i)).
Hypothesis NE : input <> out.
Variables (w bs : option nat) (wf bf : option (nat -> R)).

Definition param (p : option nat) (f : option (nat -> R)) : Prop :=
  match p, f with
  | None, None => True
  | Some p, Some f => p <> out /\ forall i, i < n -> m (p, Z.of_nat i) = Some (Some (f i))
  | _, _ => False
  end.
Definition times (f : option (nat -> R)) (i : nat) (v : R) : R := match f with None => v | Some f => (v * f i)%R end.
Definition plus' (f : option (nat -> R)) (i : nat) (v : R) : R := match f with None => v | Some f => (v + f i)%R end.

Hypothesis HW : param w wf.
Hypothesis HBS : param bs bf.

Lemma nload : forall i k, i < n -> quietly m out (Ld (input, at_ i) k) (k (x i)).
Proof. intros i k Hi. apply quietly_ld; [exact NE|apply HX, Hi]. Qed.

Lemma weight_quiet : forall p f i v k, param p f -> i < n -> quietly m out (weightThen p i v k) (k (times f i v)).
Proof.
  intros p f i v k H Hi. destruct p as [p|], f as [f|]; try contradiction; unfold weightThen, times; [|apply quietly_refl]. destruct H as [N E].
  apply (quietly_ld m out (p, Z.of_nat i) (f i) (fun c => k (v * c)%R)); [exact N|apply E, Hi].
Qed.
Lemma bias_quiet : forall p f i v k, param p f -> i < n -> quietly m out (biasThen p i v k) (k (plus' f i v)).
Proof.
  intros p f i v k H Hi. destruct p as [p|], f as [f|]; try contradiction; unfold biasThen, plus'; [|apply quietly_refl]. destruct H as [N E].
  apply (quietly_ld m out (p, Z.of_nat i) (f i) (fun c => k (v + c)%R)); [exact N|apply E, Hi].
Qed.

Definition normFlat (f g : option (nat -> R)) (mean invStd : R) (i : nat) : R := plus' g i (times f i ((x i - mean) * invStd)%R).

Lemma norm_write : forall BD S p q f g mean invStd is c, param p f -> param q g ->
  0 < BD -> (forall t, t < BD -> NoDup (is t)) -> (forall t i, t < BD -> In i (is t) -> i < n) ->
  gets m out BD S (fun t => normWrite out input p q at_ (is t) mean invStd) c (fun Lf => forall t, t < BD -> wrote out at_ (normFlat f g mean invStd) (is t) (Lf t)).
Proof.
  intros BD S p q f g mean invStd is c Hp Hq HB ND HI. unfold normWrite. apply (share_write m out at_ n INJ AV); auto. intros t i u k Ht Hi.
  eapply quietly_trans; [apply nload, Hi|]. cbv beta. eapply quietly_trans; [apply (weight_quiet p f); assumption|]. cbv beta. apply (bias_quiet q g); assumption.
Qed.

(* a mean that depends on the thread *)
Lemma norm_write_by : forall BD S p q f g (mean : nat -> R) invStd is c, param p f -> param q g ->
  0 < BD -> (forall t, t < BD -> NoDup (is t)) -> (forall t i, t < BD -> In i (is t) -> i < n /\ i mod BD = t) ->
  gets m out BD S (fun t => normWrite out input p q at_ (is t) (mean t) invStd) c (fun Lf => forall t, t < BD -> wrote out at_ (fun i => normFlat f g (mean (i mod BD)) invStd i) (is t) (Lf t)).
Proof.
  intros BD S p q f g mean invStd is c Hp Hq HB ND HI. unfold normWrite. apply gets_write; auto.
  - intros t i u k Ht Hin. destruct (HI t i Ht Hin) as [Hi Em]. rewrite Em. eapply quietly_trans; [apply nload, Hi|]. cbv beta. eapply quietly_trans; [apply (weight_quiet p f); assumption|]. cbv beta. apply (bias_quiet q g); assumption.
  - intros t i j Ht Hi Hj. apply INJ; [apply (HI t i Ht Hi)|apply (HI t j Ht Hj)].
  - intros t i Ht Hi. apply AV. apply (HI t i Ht Hi).
Qed.

Definition sq (b : bool) (i : nat) : R := (if b then x i * x i else x i)%R.

Lemma perm_lt : forall (f : nat -> list nat) BD t i, Permutation (flat_map f (seq 0 BD)) (seq 0 n) -> t < BD -> In i (f t) -> i < n.
Proof.
  intros f BD t i HP Ht Hi. assert (X : In i (seq 0 n)); [|apply in_seq in X; lia]. apply (Permutation_in i HP). apply in_flat_map. exists t. split; [apply in_seq; lia|exact Hi].
Qed.

Lemma sum_quiet : forall (b : bool) i acc (k : R -> thr R), i < n -> quietly m out (Ld (input, at_ i) (fun x => k (acc + (if b then x * x else x))%R)) (k (acc + sq b i)%R).
Proof. intros b i acc k Hi. exact (nload i (fun x => k (acc + (if b then x * x else x))%R) Hi). Qed.
Lemma var_quiet : forall mean i acc (k : R -> thr R), i < n -> quietly m out (Ld (input, at_ i) (fun x => let diff := (x - mean)%R in k (acc + diff * diff)%R)) (k (acc + (x i - mean) * (x i - mean))%R).
Proof. intros mean i acc k Hi. apply (nload i (fun x => let diff := (x - mean)%R in k (acc + diff * diff)%R) Hi). Qed.

Lemma sum_block : forall b W S c (k : nat -> R -> thr R) f Q, 0 < W <= 32 -> alloc S -> (forall t a, t < 32 * W -> In a (c t) -> fst a <> 1) ->
  Permutation (flat_map f (seq 0 (32 * W))) (seq 0 n) ->
  (forall S', (forall a, fst a <> 1 -> S' a = S a) -> alloc S' -> gets m out (32 * W) S' (fun t => k t (RS (sq b) n)) (fun _ => [(1, 0%Z)]) Q) ->
  gets m out (32 * W) S (fun t => localSum b input at_ (f t) (fun s => blockReduce 1 Rplus (32 * W) t s 0%R (k t))) c Q.
Proof.
  intros b W S c k f Q HW' HS HC HP H. unfold localSum.
  apply (share_reduce m out Rplus 0%R W S (fun t i sum k => Ld (input, at_ i) (fun x => k (sum + (if b then x * x else x))%R)) k c 1 (sq b) f (seq 0 n)); auto using plus_comm_R, plus_assoc_R, plus_zero_R.
  - intros t i acc k' Ht Hi. apply sum_quiet. apply (perm_lt f (32 * W) t i HP Ht Hi).
  - intros S' A B. apply H; [exact A|]. apply (alloc_other S S' 1); assumption.
Qed.
Lemma var_block : forall mean W S c (k : nat -> R -> thr R) f Q, 0 < W <= 32 -> alloc S -> (forall t a, t < 32 * W -> In a (c t) -> fst a <> 1) ->
  Permutation (flat_map f (seq 0 (32 * W))) (seq 0 n) ->
  (forall S', (forall a, fst a <> 1 -> S' a = S a) -> alloc S' -> gets m out (32 * W) S' (fun t => k t (RS (fun i => (x i - mean) * (x i - mean))%R n)) (fun _ => [(1, 0%Z)]) Q) ->
  gets m out (32 * W) S (fun t => localVar input at_ (f t) mean (fun s => blockReduce 1 Rplus (32 * W) t s 0%R (k t))) c Q.
Proof.
  intros mean W S c k f Q HW' HS HC HP H. unfold localVar.
  apply (share_reduce m out Rplus 0%R W S (fun t i sum k => Ld (input, at_ i) (fun x => let diff := (x - mean)%R in k (sum + diff * diff)%R)) k c 1 (fun i => (x i - mean) * (x i - mean))%R f (seq 0 n)); auto using plus_comm_R, plus_assoc_R, plus_zero_R.
  - intros t i acc k' Ht Hi. apply var_quiet. apply (perm_lt f (32 * W) t i HP Ht Hi).
  - intros S' A B. apply H; [exact A|]. apply (alloc_other S S' 1); assumption.
Qed.

Lemma is_ok : forall BD, 0 < BD -> (forall t, t < BD -> NoDup (strided n t BD n)) /\ (forall t i, t < BD -> In i (strided n t BD n) -> i < n /\ i mod BD = t).
Proof. intros BD HB. split; intros t; [intros _; apply strided_nodup, HB|]. intros i Ht Hi. apply strided_mod in Hi; auto. Qed.

Definition rmsOf (eps : R) : R := (1 / sqrt (RS (sq true) n / INR n + eps))%R.
Definition meanOf : R := (RS (sq false) n / INR n)%R.
Definition stdOf (eps : R) : R := (1 / sqrt (RS (fun i => (x i - meanOf) * (x i - meanOf))%R n / INR n + eps))%R.

Lemma rms_small : forall eps W S, 0 < W <= 32 -> alloc S ->
  gets m out (32 * W) S (fun t => localSum true input at_ (strided n t (32 * W) n) (fun sum => blockReduce 1 Rplus (32 * W) t sum 0%R (fun sum =>
    normWrite out input w None at_ (strided n t (32 * W) n) 0 (1 / sqrt (sum / INR n + eps))))) (fun _ => [])
  (fun Lf => forall t, t < 32 * W -> wrote out at_ (normFlat wf None 0 (rmsOf eps)) (strided n t (32 * W) n) (Lf t)).
Proof.
  intros eps W S HW' HS. destruct (is_ok (32 * W) ltac:(lia)) as [I1 I2].
  apply (sum_block true W S (fun _ => []) (fun t sum => normWrite out input w None at_ (strided n t (32 * W) n) 0 (1 / sqrt (sum / INR n + eps))) (fun t => strided n t (32 * W) n)); auto using strided_shares.
  { apply strided_shares. lia. }
  intros S' A B. apply norm_write; auto; [exact I|lia|]. intros t i Ht Hi. apply (I2 t i Ht Hi).
Qed.

Lemma rms_large : forall eps W S, 0 < W <= 32 -> alloc S -> S (2, 0%Z) <> None ->
  gets m out (32 * W) S (fun t => localSum true input at_ (strided n t (32 * W) n) (fun sum => blockReduce 1 Rplus (32 * W) t sum 0%R (fun stat =>
    publish t (2, 0%Z) (stat / INR n)%R (SLd (2, 0%Z) (fun stat =>
    normWrite out input w None at_ (strided n t (32 * W) n) 0 (1 / sqrt (stat + eps))))))) (fun _ => [])
  (fun Lf => forall t, t < 32 * W -> wrote out at_ (normFlat wf None 0 (rmsOf eps)) (strided n t (32 * W) n) (Lf t)).
Proof.
  intros eps W S HW' HS S0. destruct (is_ok (32 * W) ltac:(lia)) as [I1 I2].
  set (k2 := fun t stat => normWrite out input w None at_ (strided n t (32 * W) n) 0 (1 / sqrt (stat + eps))).
  apply (sum_block true W S (fun _ => []) (fun t stat => publish t (2, 0%Z) (stat / INR n)%R (SLd (2, 0%Z) (k2 t))) (fun t => strided n t (32 * W) n)); auto.
  { apply strided_shares. lia. }
  intros S' A B. apply (publish_block m out at_ n INJ AV input x HX NE (32 * W) S' (fun t => SLd (2, 0%Z) (k2 t)) 0%Z (RS (sq true) n / INR n)%R (fun _ => [(1, 0%Z)])); [lia|exact B|rewrite A by discriminate; exact S0|intros t a _ [<-|[]]; discriminate|]. intros B2.
  apply gets_sld with (v := (RS (sq true) n / INR n)%R); [apply upd_same|]. apply norm_write; auto; [exact I|lia|]. intros t i Ht Hi. apply (I2 t i Ht Hi).
Qed.

Lemma ln_large : forall eps W S, 0 < W <= 32 -> alloc S -> S (2, 0%Z) <> None -> S (2, 1%Z) <> None ->
  gets m out (32 * W) S (fun t => localSum false input at_ (strided n t (32 * W) n) (fun sum => blockReduce 1 Rplus (32 * W) t sum 0%R (fun stat =>
    publish t (2, 0%Z) (stat / INR n)%R (SLd (2, 0%Z) (fun stat =>
    localVar input at_ (strided n t (32 * W) n) stat (fun sum => blockReduce 1 Rplus (32 * W) t sum 0%R (fun var =>
    publish t (2, 1%Z) (var / INR n)%R (SLd (2, 1%Z) (fun var =>
    normWrite out input w bs at_ (strided n t (32 * W) n) stat (1 / sqrt (var + eps))))))))))) (fun _ => [])
  (fun Lf => forall t, t < 32 * W -> wrote out at_ (normFlat wf bf meanOf (stdOf eps)) (strided n t (32 * W) n) (Lf t)).
Proof.
  intros eps W S HW' HS S0 S1. destruct (is_ok (32 * W) ltac:(lia)) as [I1 I2]. assert (HP := strided_shares n (32 * W) ltac:(lia)).
  set (k4 := fun t mean var => normWrite out input w bs at_ (strided n t (32 * W) n) mean (1 / sqrt (var + eps))).
  set (k3 := fun t mean var => publish t (2, 1%Z) (var / INR n)%R (SLd (2, 1%Z) (k4 t mean))).
  set (k2 := fun t mean => localVar input at_ (strided n t (32 * W) n) mean (fun sum => blockReduce 1 Rplus (32 * W) t sum 0%R (k3 t mean))).
  apply (sum_block false W S (fun _ => []) (fun t stat => publish t (2, 0%Z) (stat / INR n)%R (SLd (2, 0%Z) (k2 t))) (fun t => strided n t (32 * W) n)); auto.
  intros S' A B. apply (publish_block m out at_ n INJ AV input x HX NE (32 * W) S' (fun t => SLd (2, 0%Z) (k2 t)) 0%Z meanOf (fun _ => [(1, 0%Z)])); [lia|exact B|rewrite A by discriminate; exact S0|intros t a _ [<-|[]]; discriminate|]. intros B2.
  apply gets_sld with (v := meanOf); [apply upd_same|].
  apply (var_block meanOf W _ (fun _ => [(2, 0%Z)]) (fun t => k3 t meanOf) (fun t => strided n t (32 * W) n)); auto.
  { intros t a _ [<-|[]]. discriminate. }
  intros S3 A3 B3. set (vr := RS (fun i => (x i - meanOf) * (x i - meanOf))%R n).
  apply (publish_block m out at_ n INJ AV input x HX NE (32 * W) S3 (fun t => SLd (2, 1%Z) (k4 t meanOf)) 1%Z (vr / INR n)%R (fun _ => [(1, 0%Z)])); [lia|exact B3| |intros t a _ [<-|[]]; discriminate|].
  { rewrite A3 by discriminate. rewrite upd_other by discriminate. rewrite A by discriminate. exact S1. }
  intros B4. apply gets_sld with (v := (vr / INR n)%R); [apply upd_same|]. apply norm_write; auto; [lia|]. intros t i Ht Hi. apply (I2 t i Ht Hi).
Qed.

(* one warp, with a barrier before the second reduction *)
Lemma ln_one : forall eps S, alloc S ->
  gets m out 32 S (fun t => localSum false input at_ (strided n t 32 n) (fun sum => blockReduce 1 Rplus 32 t sum 0%R (fun sum =>
    localVar input at_ (strided n t 32 n) (sum / INR n) (fun s2 => Sync (blockReduce 1 Rplus 32 t s2 0%R (fun s2 =>
    normWrite out input w bs at_ (strided n t 32 n) (sum / INR n) (1 / sqrt (s2 / INR n + eps)))))))) (fun _ => [])
  (fun Lf => forall t, t < 32 -> wrote out at_ (normFlat wf bf meanOf (stdOf eps)) (strided n t 32 n) (Lf t)).
Proof.
  intros eps S HS. destruct (is_ok 32 ltac:(lia)) as [I1 I2]. assert (HP := strided_shares n 32 ltac:(lia)).
  set (k3 := fun t sum s2 => normWrite out input w bs at_ (strided n t 32 n) (sum / INR n) (1 / sqrt (s2 / INR n + eps))).
  set (k2 := fun t sum => localVar input at_ (strided n t 32 n) (sum / INR n) (fun s2 => Sync (blockReduce 1 Rplus 32 t s2 0%R (k3 t sum)))).
  apply (sum_block false 1 S (fun _ => []) k2 (fun t => strided n t 32 n)); auto; [lia|].
  intros S' A B. change (32 * 1) with 32.
  apply gets_quietly with (P' := fun t => Sync (blockReduce 1 Rplus 32 t (fold_left (fun acc i => (acc + (x i - meanOf) * (x i - meanOf))%R) (strided n t 32 n) 0%R) 0%R (k3 t (RS (sq false) n)))).
  { intros t Ht. unfold k2, localVar. fold meanOf.
    apply (quietly_each m out R (fun i sum k => Ld (input, at_ i) (fun x => let diff := (x - meanOf)%R in k (sum + diff * diff)%R)) (fun acc i => (acc + (x i - meanOf) * (x i - meanOf))%R) (fun s2 => Sync (blockReduce 1 Rplus 32 t s2 0%R (k3 t (RS (sq false) n))))).
    intros i acc k' Hi. apply var_quiet. apply (I2 t i Ht Hi). }
  apply gets_sync; [lia|].
  apply (gets_reduce m out Rplus 0%R 1 S' (fun t => k3 t (RS (sq false) n)) (fun _ => []) 1 (fun t => fold_left (fun acc i => (acc + (x i - meanOf) * (x i - meanOf))%R) (strided n t 32 n) 0%R)); auto using plus_comm_R, plus_assoc_R, plus_zero_R; [lia|intros t; ring|].
  intros S2 A2 B2. rewrite (total_shares Rplus 0%R plus_comm_R plus_assoc_R plus_zero_R (fun i => (x i - meanOf) * (x i - meanOf))%R (fun t => strided n t 32 n) (32 * 1) (seq 0 n)) by exact HP.
  apply norm_write; auto; [lia|]. intros t i Ht Hi. apply (I2 t i Ht Hi).
Qed.

(* ---- several warps, the first of which is ahead ---- *)
Definition tail2 (eps : R) (W t : nat) (s : R) : thr R :=
  combine2 Rplus 0%R 1 W t (SLd (1, 0%Z) (fun v => normWrite out input w bs at_ (strided n t (32 * W) n) (s / INR n) (1 / sqrt (v / INR n + eps)))).
Definition store1 (t : nat) (v : R) (k : thr R) : thr R := if t mod 32 =? 0 then SSt (1, Z.of_nat (t / 32)) v (Sync k) else Sync k.
Definition raced (eps : R) (W t : nat) : thr R :=
  localSum false input at_ (strided n t (32 * W) n) (fun s => warpReduce Rplus s (fun s => store1 t s (combine2 Rplus 0%R 1 W t (
    if t / 32 =? 0
    then SLd (1, 0%Z) (fun s => Sync (localVar input at_ (strided n t (32 * W) n) (s / INR n) (fun v => warpReduce Rplus v (fun v => store1 t v (Sync (tail2 eps W t s))))))
    else Sync (Sync (SLd (1, 0%Z) (fun s => localVar input at_ (strided n t (32 * W) n) (s / INR n) (fun v => warpReduce Rplus v (fun v => store1 t v (tail2 eps W t s)))))))))).

Lemma gets_eq : forall BD S (P P' : nat -> thr R) c Q, (forall t, t < BD -> P t = P' t) -> gets m out BD S P' c Q -> gets m out BD S P c Q.
Proof. intros BD S P P' c Q E. apply gets_quietly. intros t Ht. rewrite (E t Ht). apply quietly_refl. Qed.

Lemma fold_sum_nonneg : forall l, Forall (fun r => (0 <= r)%R) l -> (0 <= fold_right Rplus 0 l)%R.
Proof. induction 1 as [|r l Hr _ IH]; cbn [fold_right]; lra. Qed.

Hypothesis ONE : forall i, i < n -> x i = 1%R.
Hypothesis NZ : 0 < n.

Lemma RS_one : RS (sq false) n = INR n.
Proof.
  unfold RS. rewrite (map_ext_in _ (fun _ => 1%R)) by (intros i Hi; apply in_seq in Hi; apply ONE; lia). rewrite <- (seq_length n 0) at 2. generalize (seq 0 n). induction l as [|i l IH]; [reflexivity|]. cbn [map fold_right length]. rewrite IH, S_INR. ring.
Qed.

Definition shareVar (W : nat) (mean : R) (t : nat) : R := fold_left (fun acc i => (acc + (x i - mean) * (x i - mean))%R) (strided n t (32 * W) n) 0%R.

Lemma shareVar_nonneg : forall W mean t, (0 <= shareVar W mean t)%R.
Proof.
  intros W mean t. unfold shareVar. rewrite (left_fold Rplus 0%R plus_comm_R plus_assoc_R (fun i => (x i - mean) * (x i - mean))%R). apply fold_sum_nonneg. apply Forall_forall. intros r Hr. apply in_map_iff in Hr as (i & <- & _).
  apply Rle_0_sqr.
Qed.

Lemma shareVar_one : forall W t, 0 < W -> t < 32 * W -> shareVar W 1%R t = 0%R.
Proof.
  intros W t HW' Ht. unfold shareVar. rewrite (left_fold Rplus 0%R plus_comm_R plus_assoc_R (fun i => (x i - 1) * (x i - 1))%R). rewrite (map_ext_in _ (fun _ => 0%R)).
  - apply (fold_pads Rplus 0%R plus_zero_R).
  - intros i Hi. apply strided_mod in Hi as [Hi _]; [|lia|exact Ht]. rewrite ONE by exact Hi. ring.
Qed.

Lemma shuf_nonneg : forall f u, (forall t, (0 <= f t)%R) -> (0 <= shuf Rplus offs32 f (32 * u))%R.
Proof.
  intros f u H. rewrite (warp_whole Rplus 0%R plus_comm_R plus_assoc_R plus_zero_R) by ring. apply fold_sum_nonneg. apply Forall_forall. intros r Hr. apply in_map_iff in Hr as (t & <- & _). apply H.
Qed.

(* the sum of squares that comes out *)
Definition racedVar (W : nat) : R := shuf Rplus offs32 (fun t => if t <? W then (if t =? 0 then 0%R else shuf Rplus offs32 (shareVar W 0) (32 * t)) else 0%R) 0.
Lemma racedVar_nonneg : forall W, (0 <= racedVar W)%R.
Proof.
  intros W. unfold racedVar. apply (shuf_nonneg (fun t => if t <? W then (if t =? 0 then 0%R else shuf Rplus offs32 (shareVar W 0) (32 * t)) else 0%R) 0). intros t. destruct (t <? W); [|lra]. destruct (t =? 0); [lra|]. apply shuf_nonneg. intros t'. apply shareVar_nonneg.
Qed.

Lemma ln_raced : forall eps W S, 0 < W <= 32 -> alloc S ->
  gets m out (32 * W) S (raced eps W) (fun _ => [])
  (fun Lf => forall t, t < 32 * W -> wrote out at_ (fun i => normFlat wf bf (if (i mod (32 * W)) / 32 =? 0 then 1 else 0)%R (1 / sqrt (racedVar W / INR n + eps)) i) (strided n t (32 * W) n) (Lf t)).
Proof.
  intros eps W S HW' HS. destruct (is_ok (32 * W) ltac:(lia)) as [I1 I2]. assert (HP := strided_shares n (32 * W) ltac:(lia)).
  assert (NN : INR n <> 0%R) by (apply not_0_INR; lia).
  set (f1 := fun t => fold_left (fun acc i => (acc + sq false i)%R) (strided n t (32 * W) n) 0%R).
  set (X7 := fun u => if u =? 0 then 0%R else shuf Rplus offs32 (shareVar W 0) (32 * u)).
  set (vv := racedVar W).
  (* the sums *)
  set (rest := fun t : nat => if t / 32 =? 0
    then SLd (1, 0%Z) (fun s => Sync (localVar input at_ (strided n t (32 * W) n) (s / INR n) (fun v => warpReduce Rplus v (fun v => store1 t v (Sync (tail2 eps W t s))))))
    else Sync (Sync (SLd (1, 0%Z) (fun s => localVar input at_ (strided n t (32 * W) n) (s / INR n) (fun v => warpReduce Rplus v (fun v => store1 t v (tail2 eps W t s))))))).
  apply gets_quietly with (P' := fun t => if (fun _ => true) (t / 32) then warpReduce Rplus (f1 t) (fun val => if t mod 32 =? 0 then SSt (1, Z.of_nat (t / 32)) val (Sync (combine2 Rplus 0%R 1 W t (rest t))) else Sync (combine2 Rplus 0%R 1 W t (rest t))) else Sync (combine2 Rplus 0%R 1 W t (rest t))).
  { intros t Ht. unfold raced, localSum.
    apply (quietly_each m out R (fun i sum k => Ld (input, at_ i) (fun x => k (sum + (if false then x * x else x))%R)) (fun acc i => (acc + sq false i)%R)). intros i acc k' Hi. apply (sum_quiet false). apply (I2 t i Ht Hi). }
  apply (gets_half1 m out Rplus W S (fun _ => true) (fun t => combine2 Rplus 0%R 1 W t (rest t)) (fun _ => []) 1 f1); auto.
  { intros u Hu _. apply HS; lia. }
  set (S1 := stored S 1 W (fun _ => true) (fun u => shuf Rplus offs32 f1 (32 * u))).
  apply (gets_half2 m out Rplus 0%R W S1 (fun u => shuf Rplus offs32 f1 (32 * u)) rest 1); auto.
  { intros u Hu. unfold S1. rewrite stored_at by auto. reflexivity. }
  rewrite (two_full Rplus 0%R plus_comm_R plus_assoc_R plus_zero_R f1 W HW') by (intros t; ring).
  assert (EF : fold_right Rplus 0%R (map f1 (seq 0 (32 * W))) = INR n).
  { unfold f1. rewrite (total_shares Rplus 0%R plus_comm_R plus_assoc_R plus_zero_R (sq false) (fun t => strided n t (32 * W) n) (32 * W) (seq 0 n) HP). apply RS_one. }
  rewrite EF.
  set (S2 := upd S1 (1, 0%Z) (Some (Some (INR n)))).
  assert (A2 : forall u, u < W -> S2 (1, Z.of_nat u) <> None).
  { intros u Hu. unfold S2, upd. destruct (addr_eqb _ _); [discriminate|]. apply stored_some. apply HS; lia. }
  (* the first warp reads the sum *)
  unfold rest. apply (gets_sld_if m out (32 * W) S2 (fun t => t / 32 =? 0) (fun t s => Sync (localVar input at_ (strided n t (32 * W) n) (s / INR n) (fun v => warpReduce Rplus v (fun v => store1 t v (Sync (tail2 eps W t s))))))
    (fun t => Sync (Sync (SLd (1, 0%Z) (fun s => localVar input at_ (strided n t (32 * W) n) (s / INR n) (fun v => warpReduce Rplus v (fun v => store1 t v (tail2 eps W t s))))))) (1, 0%Z) (INR n)); [apply upd_same|].
  apply gets_eq with (P' := fun t => Sync (if t / 32 =? 0 then localVar input at_ (strided n t (32 * W) n) (INR n / INR n) (fun v => warpReduce Rplus v (fun v => store1 t v (Sync (tail2 eps W t (INR n)))))
    else Sync (SLd (1, 0%Z) (fun s => localVar input at_ (strided n t (32 * W) n) (s / INR n) (fun v => warpReduce Rplus v (fun v => store1 t v (tail2 eps W t s))))))).
  { intros t Ht. destruct (t / 32 =? 0); reflexivity. }
  apply gets_sync; [lia|].
  (* it goes on to the second reduction *)
  set (k5 := fun t => if t / 32 =? 0 then Sync (tail2 eps W t (INR n)) else SLd (1, 0%Z) (fun s => localVar input at_ (strided n t (32 * W) n) (s / INR n) (fun v => warpReduce Rplus v (fun v => store1 t v (tail2 eps W t s))))).
  apply gets_quietly with (P' := fun t => if (fun u => u =? 0) (t / 32) then warpReduce Rplus (shareVar W 1 t) (fun val => if t mod 32 =? 0 then SSt (1, Z.of_nat (t / 32)) val (Sync (k5 t)) else Sync (k5 t)) else Sync (k5 t)).
  { intros t Ht. cbv beta. unfold k5. destruct (t / 32 =? 0) eqn:E0; [|apply quietly_refl]. unfold localVar, shareVar. replace (INR n / INR n)%R with 1%R by (field; exact NN).
    apply (quietly_each m out R (fun i sum k => Ld (input, at_ i) (fun x => let diff := (x - 1)%R in k (sum + diff * diff)%R)) (fun acc i => (acc + (x i - 1) * (x i - 1))%R)). intros i acc k' Hi. apply var_quiet. apply (I2 t i Ht Hi). }
  apply (gets_half1 m out Rplus W S2 (fun u => u =? 0) k5 (fun _ => []) 1 (shareVar W 1)); auto.
  set (S3 := stored S2 1 W (fun u => u =? 0) (fun u => shuf Rplus offs32 (shareVar W 1) (32 * u))).
  assert (E3 : S3 (1, 0%Z) = Some (Some 0%R)).
  { unfold S3. change 0%Z with (Z.of_nat 0). rewrite stored_at by (lia || reflexivity). do 2 f_equal. rewrite (warp_whole Rplus 0%R plus_comm_R plus_assoc_R plus_zero_R) by ring.
    rewrite (map_ext_in _ (fun _ => 0%R)); [apply (fold_pads Rplus 0%R plus_zero_R)|]. intros t Ht. apply in_seq in Ht. apply shareVar_one; lia. }
  (* the others read what it has stored *)
  apply gets_eq with (P' := fun t => if negb (t / 32 =? 0) then SLd (1, 0%Z) (fun s => localVar input at_ (strided n t (32 * W) n) (s / INR n) (fun v => warpReduce Rplus v (fun v => store1 t v (tail2 eps W t s)))) else Sync (tail2 eps W t (INR n))).
  { intros t Ht. unfold k5. destruct (t / 32 =? 0); reflexivity. }
  apply (gets_sld_if m out (32 * W) S3 (fun t => negb (t / 32 =? 0)) (fun t s => localVar input at_ (strided n t (32 * W) n) (s / INR n) (fun v => warpReduce Rplus v (fun v => store1 t v (tail2 eps W t s)))) (fun t => Sync (tail2 eps W t (INR n))) (1, 0%Z) 0%R); [exact E3|].
  set (sum := fun t => if t / 32 =? 0 then INR n else 0%R).
  apply gets_quietly with (P' := fun t => if (fun u => negb (u =? 0)) (t / 32) then warpReduce Rplus (shareVar W 0 t) (fun val => if t mod 32 =? 0 then SSt (1, Z.of_nat (t / 32)) val (Sync (tail2 eps W t (sum t))) else Sync (tail2 eps W t (sum t))) else Sync (tail2 eps W t (sum t))).
  { intros t Ht. cbv beta. unfold sum. destruct (t / 32 =? 0) eqn:E0; [apply quietly_refl|]. cbn [negb]. unfold localVar, shareVar. replace (0 / INR n)%R with 0%R by (unfold Rdiv; ring).
    apply (quietly_each m out R (fun i sum k => Ld (input, at_ i) (fun x => let diff := (x - 0)%R in k (sum + diff * diff)%R)) (fun acc i => (acc + (x i - 0) * (x i - 0))%R)). intros i acc k' Hi. apply var_quiet. apply (I2 t i Ht Hi). }
  apply (gets_half1 m out Rplus W S3 (fun u => negb (u =? 0)) (fun t => tail2 eps W t (sum t)) (fun t => if negb (t / 32 =? 0) then [(1, 0%Z)] else []) 1 (shareVar W 0)); auto.
  { intros u Hu _. apply stored_some. apply A2, Hu. }
  { intros t u Ht Hu Hn. destruct (negb (t / 32 =? 0)); [|intros []]. intros [X|[]]. apply (f_equal snd) in X. cbn [snd] in X. destruct u; [discriminate|lia]. }
  set (S4 := stored S3 1 W (fun u => negb (u =? 0)) (fun u => shuf Rplus offs32 (shareVar W 0) (32 * u))).
  unfold tail2. apply (gets_half2 m out Rplus 0%R W S4 X7 (fun t => SLd (1, 0%Z) (fun v => normWrite out input w bs at_ (strided n t (32 * W) n) (sum t / INR n) (1 / sqrt (v / INR n + eps)))) 1); auto.
  { intros u Hu. unfold S4, X7. destruct (Nat.eqb_spec u 0) as [->|N].
    - rewrite stored_not by reflexivity. exact E3.
    - rewrite stored_at; auto. destruct (Nat.eqb_spec u 0); [contradiction|reflexivity]. }
  change (shuf Rplus offs32 (fun t => if t <? W then X7 t else 0%R) 0) with vv. apply gets_sld with (v := vv); [apply upd_same|].
  eapply gets_eq with (P' := fun t => normWrite out input w bs at_ (strided n t (32 * W) n) (if t / 32 =? 0 then 1 else 0)%R (1 / sqrt (vv / INR n + eps))).
  { intros t Ht. f_equal. unfold sum. destruct (t / 32 =? 0); [field; exact NN|unfold Rdiv; ring]. }
  apply (norm_write_by (32 * W) _ w bs wf bf (fun t => if t / 32 =? 0 then 1 else 0)%R); auto. lia.
Qed.
End Norm.
