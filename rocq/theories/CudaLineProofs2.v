(* Softmax on the GPU: the launch. *)
From Coq Require Import List Arith ZArith Bool Lia Reals Lra Permutation.
From Verif Require Import ShapeModel ShapeSpec ShapeProofs TensorModel TensorSpec TensorLemmas BcastModel BufModel BufProofs CutSpec ReduceModel ReduceSpec LineModel LineProofs SoftmaxModel SoftmaxSpec SoftmaxProofs
  GpuModel GpuSpec GpuProofs GpuLemmas CudaModel CudaSpec CudaProofs CudaFillProofs CudaReduceModel CudaMeanProofs CudaExtremeModel CudaExtremeProofs5 CudaLineModel GpuWarp GpuBlock GpuLines CudaLineProofs.
Import ListNotations.
Local Open Scope nat_scope.

(* ---- lines ---- *)
Lemma lineOffset_alt : forall n inner o i d, lineOffset n inner o i d = (o * n + d) * inner + i.
Proof. intros. unfold lineOffset. ring. Qed.

Lemma lineOffset_inj : forall n inner o i d o' i' d', i < inner -> i' < inner -> d < n -> d' < n ->
  lineOffset n inner o i d = lineOffset n inner o' i' d' -> o = o' /\ i = i' /\ d = d'.
Proof.
  intros n inner o i d o' i' d' Hi Hi' Hd Hd' E. rewrite !lineOffset_alt in E.
  destruct (div_prod (o * n + d) i inner Hi) as [A B]. destruct (div_prod (o' * n + d') i' inner Hi') as [A' B']. rewrite E in A, B.
  assert (E1 : i = i') by congruence. assert (E2 : o * n + d = o' * n + d') by congruence.
  destruct (div_prod o d n Hd) as [C D]. destruct (div_prod o' d' n Hd') as [C' D']. rewrite E2 in C, D. repeat split; congruence.
Qed.

Lemma lineOffset_lt : forall outer n inner o i d, o < outer -> i < inner -> d < n -> lineOffset n inner o i d < outer * n * inner.
Proof. intros. rewrite lineOffset_alt. apply lt_prod; assumption. Qed.

(* every element is on one line *)
Lemma lineOffset_all : forall outer n inner p, p < outer * n * inner ->
  p = lineOffset n inner (p / inner / n) (p mod inner) (p / inner mod n) /\ p / inner / n < outer /\ p mod inner < inner /\ p / inner mod n < n.
Proof.
  intros outer n inner p Hp. assert (HI : inner <> 0) by (intros ->; rewrite Nat.mul_0_r in Hp; lia). assert (HN : n <> 0) by (intros ->; rewrite Nat.mul_0_r in Hp; cbn in Hp; lia).
  rewrite lineOffset_alt. repeat split.
  - pose proof (Nat.div_mod p inner HI) as E1. pose proof (Nat.div_mod (p / inner) n HN) as E2. rewrite (Nat.mul_comm _ n), <- E2. lia.
  - apply Nat.div_lt_upper_bound; [exact HN|]. apply Nat.div_lt_upper_bound; [exact HI|]. lia.
  - apply Nat.mod_upper_bound, HI.
  - apply Nat.mod_upper_bound, HN.
Qed.

Definition outOf (sh : list nat) (k : nat) (idx : list nat) : nat := ravel (firstn k sh) (firstn k idx).
Definition inOf (sh : list nat) (k : nat) (idx : list nat) : nat := ravel (skipn (S k) sh) (skipn (S k) idx).

Lemma split_numel : forall sh k, k < length sh -> numel sh = outerSize sh k * nth k sh 0 * innerSize sh k.
Proof. intros sh k Hk. rewrite (split_at sh k Hk) at 1. rewrite numel_app, numel_cons. unfold outerSize, innerSize. ring. Qed.

Lemma split_valid : forall sh k idx, k < length sh -> valid sh idx ->
  valid (firstn k sh) (firstn k idx) /\ nth k idx 0 < nth k sh 0 /\ valid (skipn (S k) sh) (skipn (S k) idx).
Proof.
  intros sh k idx Hk V. pose proof (valid_length _ _ V) as L. split; [|split].
  - rewrite (split_at sh k Hk) in V. rewrite (split_at idx k) in V by lia. apply valid_app in V; [|rewrite !firstn_length; lia]. apply V.
  - apply coord_lt; assumption.
  - rewrite (split_at sh k Hk) in V. rewrite (split_at idx k) in V by lia. apply valid_app in V; [|rewrite !firstn_length; lia]. destruct V as [_ V]. inversion V. assumption.
Qed.

Lemma line_ravel : forall sh k idx j, k < length sh -> length idx = length sh ->
  ravel sh (with_coord true k idx j) = lineOffset (nth k sh 0) (innerSize sh k) (outOf sh k idx) (inOf sh k idx) j.
Proof.
  intros sh k idx j Hk L. rewrite with_coord_split by lia. rewrite (split_at sh k Hk) at 1. rewrite ravel_app by (rewrite !firstn_length; lia). rewrite ravel_cons, numel_cons.
  rewrite lineOffset_alt. unfold outOf, inOf, innerSize. ring.
Qed.

Lemma line_self : forall sh k idx, k < length sh -> valid sh idx ->
  ravel sh idx = lineOffset (nth k sh 0) (innerSize sh k) (outOf sh k idx) (inOf sh k idx) (nth k idx 0).
Proof.
  intros sh k idx Hk V. rewrite <- line_ravel; [|exact Hk|apply (valid_length _ _ V)]. rewrite with_coord_self. reflexivity.
Qed.

(* the elements of the line of idx, from the flat data *)
Lemma line_elem : forall {A} sh k (F : list nat -> A) idx j, k < length sh -> valid sh idx -> j < nth k sh 0 ->
  F (offsetToIndices sh (lineOffset (nth k sh 0) (innerSize sh k) (outOf sh k idx) (inOf sh k idx) j)) = F (with_coord true k idx j).
Proof.
  intros A sh k F idx j Hk V Hj. rewrite <- line_ravel; [|exact Hk|apply (valid_length _ _ V)]. rewrite o2i_ravel; [reflexivity|]. apply valid_coord; assumption.
Qed.

Lemma line_elem_self : forall {A} sh k (F : list nat -> A) idx, k < length sh -> valid sh idx ->
  F (offsetToIndices sh (lineOffset (nth k sh 0) (innerSize sh k) (outOf sh k idx) (inOf sh k idx) (nth k idx 0))) = F idx.
Proof. intros A sh k F idx Hk V. rewrite <- (line_self sh k idx Hk V), o2i_ravel by exact V. reflexivity. Qed.

(* a launch whose blocks write along lines *)
Lemma line_launch : forall V (l : launch V) m out sh k (ob ib : nat -> nat) (is : nat -> nat -> list nat) (y : nat -> nat -> nat -> V),
  let n := nth k sh 0 in let outer := outerSize sh k in let inner := innerSize sh k in
  k < length sh -> accepted l -> room m out (numel sh) ->
  (forall b, b < grid l -> ob b < outer /\ ib b < inner) ->
  (forall b t d, b < grid l -> t < bdim l -> In d (is b t) -> d < n) ->
  (forall b t d b' t', b < grid l -> t < bdim l -> In d (is b t) -> b' < grid l -> t' < bdim l -> In d (is b' t') -> ob b = ob b' -> ib b = ib b' -> b = b' /\ t = t') ->
  (forall o i d, o < outer -> i < inner -> d < n -> exists b t, b < grid l /\ t < bdim l /\ ob b = o /\ ib b = i /\ In d (is b t)) ->
  (forall b, b < grid l -> (forall d, d < n -> m (out, lineAt n inner (ob b) (ib b) d) <> None) ->
     (forall d d', d < n -> d' < n -> lineAt n inner (ob b) (ib b) d = lineAt n inner (ob b) (ib b) d' -> d = d') ->
     gets m out (bdim l) (fun a => if shar l a then Some None else None) (code l b) (fun _ => [])
       (fun Lf => forall t, t < bdim l -> wrote out (lineAt n inner (ob b) (ib b)) (y (ob b) (ib b)) (is b t) (Lf t))) ->
  computes l m out sh (fun idx => y (outOf sh k idx) (inOf sh k idx) (nth k idx 0)).
Proof.
  intros V l m out sh k ob ib is y n outer inner Hk ACC HR HB HI HU HC HG.
  pose proof (split_numel sh k Hk) as EN. fold n outer inner in EN.
  assert (AV : forall o i d, o < outer -> i < inner -> d < n -> m (out, lineAt n inner o i d) <> None).
  { intros o i d Ho Hi Hd. apply (room_at V m out (numel sh)); [exact HR|]. unfold lineAt. pose proof (lineOffset_lt outer n inner o i d Ho Hi Hd). lia. }
  assert (RUN := lines_run m out l (fun b => lineAt n inner (ob b) (ib b)) (fun b => y (ob b) (ib b)) is ACC).
  eapply always_mono; [apply RUN|].
  - intros b Hb. destruct (HB b Hb) as [Ho Hi]. apply HG; [exact Hb| |].
    + intros d Hd. apply AV; assumption.
    + intros d d' Hd Hd' E. apply Nat2Z.inj in E. apply lineOffset_inj in E; try assumption. apply E.
  - intros b t d b' t' d' Hb Ht Hd Hb' Ht' Hd' E. apply Nat2Z.inj in E. destruct (HB b Hb) as [Ho Hi]. destruct (HB b' Hb') as [Ho' Hi'].
    apply lineOffset_inj in E; [|exact Hi|exact Hi'|exact (HI b t d Hb Ht Hd)|exact (HI b' t' d' Hb' Ht' Hd')]. destruct E as (E1 & E2 & E3). subst d'.
    destruct (HU b t d b' t' Hb Ht Hd Hb' Ht' Hd' E1 E2) as [E4 E5]. auto.
  - intros m' [W N].
    assert (W' : forall o i d, o < outer -> i < inner -> d < n -> m' (out, lineAt n inner o i d) = Some (Some (y o i d))).
    { intros o i d Ho Hi Hd. destruct (HC o i d Ho Hi Hd) as (b & t & Hb & Ht & <- & <- & Hin). apply (W b t d Hb Ht Hin). }
    split.
    + apply has_eq with (F := fun idx => (fun p => y (p / inner / n) (p mod inner) (p / inner mod n)) (ravel sh idx)).
      * apply (has_cells m m' out sh (fun p => y (p / inner / n) (p mod inner) (p / inner mod n)) HR).
        -- intros p Hp. rewrite EN in Hp. destruct (lineOffset_all outer n inner p Hp) as (E & A & B & C). rewrite E at 1. apply W'; assumption.
        -- intros z Hz. apply N. intros b t d Hb Ht Hd X. apply (f_equal snd) in X. cbn [snd] in X. destruct (HB b Hb) as [Ho Hi]. apply Hz. rewrite X. unfold lineAt.
           pose proof (lineOffset_lt outer n inner (ob b) (ib b) d Ho Hi (HI b t d Hb Ht Hd)). lia.
      * intros idx Vi. cbv beta. pose proof (ravel_lt sh idx Vi) as HL. rewrite EN in HL. destruct (lineOffset_all outer n inner _ HL) as (E & A & B & C). 
        rewrite (line_self sh k idx Hk Vi) in E at 1. fold n inner in E. destruct (split_valid sh k idx Hk Vi) as (V1 & V2 & V3).
        apply lineOffset_inj in E; [|apply ravel_lt, V3|exact B|exact V2|exact C]. destruct E as (-> & -> & ->). reflexivity.
    + intros q i Hq. apply N. intros b t d _ _ _ X. apply Hq. apply (f_equal fst) in X. exact X.
Qed.

(* ---- softmax ---- *)
Lemma Rsum_RS : forall f n, RS f n = sum (K := Rring) f (seq 0 n).
Proof. intros f n. unfold RS, sum. induction (seq 0 n) as [|i l IH]; [reflexivity|]. cbn [map fold_right]. rewrite IH. reflexivity. Qed.

Lemma softmax_flat : forall (x : nat -> R) lo n isLog d, d < n ->
  softmaxFlat n x lo isLog d = (let s := exp (x d) / RS (fun i => exp (x i)) n in if isLog then ln s else s)%R.
Proof.
  intros x lo n isLog d Hd. unfold softmaxFlat. set (mx := RM lo x n). cbv zeta. rewrite !Rsum_RS.
  rewrite (Rsum_ext (fun i => exp (x i - mx)) (fun i => exp (- mx) * exp (x i))%R) by (intros i _; unfold Rminus; rewrite exp_plus; ring). rewrite Rsum_scal.
  set (s := sum (K := Rring) (fun i => exp (x i)) (seq 0 n)).
  assert (HS : (0 < s)%R). { apply Rsum_pos; [destruct n; [lia|discriminate]|intros; apply exp_pos]. }
  pose proof (exp_pos (- mx)) as HE. pose proof (exp_pos (x d)) as HX. destruct isLog.
  - unfold Rdiv. rewrite !ln_mult; auto using Rinv_0_lt_compat. rewrite !ln_exp, ln_Rinv by exact HS. lra.
  - unfold Rminus. rewrite exp_plus. field. split; apply Rgt_not_eq; assumption.
Qed.

Lemma strided_all : forall n bd d, 0 < bd -> d < n -> d mod bd < bd /\ In d (strided n (d mod bd) bd n).
Proof. intros n bd d HB Hd. assert (d mod bd < bd) by (apply Nat.mod_upper_bound; lia). split; [assumption|]. apply strided_mod; auto. Qed.

Lemma shared_alloc : forall s : addr -> bool, (forall q z, q < 2 -> (0 <= z < 32)%Z -> s (q, z) = true) -> alloc (fun a => if s a then Some None else None).
Proof. intros s H q z Hq Hz. rewrite (H q z Hq Hz). discriminate. Qed.
Lemma shared32_in : forall q z, q < 2 -> (0 <= z < 32)%Z -> shared32 2 (q, z) = true.
Proof. intros q z Hq Hz. unfold shared32. cbn [fst snd]. destruct (Nat.ltb_spec q 2); [|lia]. destruct (Z.leb_spec 0 z); [|lia]. destruct (Z.ltb_spec z 32); [reflexivity|lia]. Qed.

Lemma two_d : forall outer inner b, b < outer * inner -> b mod outer < outer /\ b / outer < inner.
Proof. intros outer inner b H. assert (outer <> 0) by (intros ->; cbn in H; lia). split; [apply Nat.mod_upper_bound; assumption|apply Nat.div_lt_upper_bound; assumption]. Qed.
Lemma two_d_inj : forall outer b b', outer <> 0 -> b mod outer = b' mod outer -> b / outer = b' / outer -> b = b'.
Proof. intros outer b b' H E E'. rewrite (Nat.div_mod b outer H), (Nat.div_mod b' outer H). congruence. Qed.
Lemma two_d_all : forall outer inner o i, o < outer -> i < inner -> let b := i * outer + o in b < outer * inner /\ b mod outer = o /\ b / outer = i.
Proof.
  intros outer inner o i Ho Hi b. destruct (div_prod i o outer Ho) as [A B]. repeat split; [|exact B|exact A].
  assert (S i * outer <= inner * outer) by (apply Nat.mul_le_mono_r; lia). unfold b. cbn [Nat.mul] in *. lia.
Qed.

(* launches of one block per line, one share per thread *)
Lemma grid_lines : forall V (l : launch V) m out sh k (y : nat -> nat -> nat -> V),
  let n := nth k sh 0 in let outer := outerSize sh k in let inner := innerSize sh k in
  k < length sh -> accepted l -> room m out (numel sh) -> grid l = outer * inner -> 
  (forall b, b < grid l -> (forall d, d < n -> m (out, lineAt n inner (b mod outer) (b / outer) d) <> None) ->
     (forall d d', d < n -> d' < n -> lineAt n inner (b mod outer) (b / outer) d = lineAt n inner (b mod outer) (b / outer) d' -> d = d') ->
     gets m out (bdim l) (fun a => if shar l a then Some None else None) (code l b) (fun _ => [])
       (fun Lf => forall t, t < bdim l -> wrote out (lineAt n inner (b mod outer) (b / outer)) (y (b mod outer) (b / outer)) (strided n t (bdim l) n) (Lf t))) ->
  computes l m out sh (fun idx => y (outOf sh k idx) (inOf sh k idx) (nth k idx 0)).
Proof.
  intros V l m out sh k y n outer inner Hk ACC HR EG HG.
  assert (HBD : 0 < bdim l) by (unfold accepted in ACC; lia). assert (HO : outer <> 0). { intros E. destruct ACC as [A _]. rewrite EG, E in A. cbn in A. lia. }
  apply (line_launch V l m out sh k (fun b => b mod outer) (fun b => b / outer) (fun _ t => strided n t (bdim l) n)); auto.
  - intros b Hb. rewrite EG in Hb. apply two_d, Hb.
  - intros b t d _ Ht Hd. apply strided_mod in Hd; [apply Hd|exact HBD|exact Ht].
  - intros b t d b' t' Hb Ht Hd Hb' Ht' Hd' E E'. split; [apply (two_d_inj outer); assumption|]. apply strided_mod in Hd as [_ Hd]; auto. apply strided_mod in Hd' as [_ Hd']; auto. congruence.
  - intros o i d Ho Hi Hd. destruct (two_d_all outer inner o i Ho Hi) as (A & B & C). destruct (strided_all n (bdim l) d HBD Hd) as [D E].
    exists (i * outer + o), (d mod bdim l). rewrite EG. auto.
Qed.

Definition fits (sh : list nat) (k : nat) : Prop :=
  (Z.of_nat (innerSize sh k) <= 65535)%Z /\ ((1024 < nth k sh 0)%nat -> (Z.of_nat (outerSize sh k) <= 65535)%Z) /\ (0 < Z.of_nat (outerSize sh k * innerSize sh k) <= 2 ^ 31 - 1)%Z.

Theorem softmax_launch : forall lo M isLog sh (F : list nat -> R) dim k m p out,
  dim_is (length sh) dim k -> (0 <= M)%R -> fits sh k -> p <> out -> has m p sh F -> room m out (numel sh) ->
  exists l, softmaxCuda lo M isLog (mkD p sh) dim out = Ok (sh, l) /\
    computes l m out sh (fun idx => let s := softmax_at F k (nth k sh 0) idx in if isLog then ln s else s).
Proof.
  intros lo M isLog sh F dim k m p out HD HM (HI & HO & HZ) NE HF HR. unfold softmaxCuda. cbn [dshape dbuf]. rewrite (proj2 (axis_some _ _ _) HD). eexists. split; [reflexivity|].
  pose proof (proj1 HD) as Hk. set (n := nth k sh 0) in *. set (outer := outerSize sh k) in *. set (inner := innerSize sh k) in *.
  pose proof (split_numel sh k Hk) as EN. fold n outer inner in EN.
  set (x := fun o i d => F (offsetToIndices sh (lineOffset n inner o i d))).
  assert (HX : forall o i d, o < outer -> i < inner -> d < n -> m (p, lineAt n inner o i d) = Some (Some (x o i d))).
  { intros o i d Ho Hi Hd. unfold lineAt. rewrite (has_ix R m p sh F) by (exact HF || (pose proof (lineOffset_lt outer n inner o i d Ho Hi Hd); lia)). rewrite Nat2Z.id. reflexivity. }
  assert (G : forall l : launch R, computes l m out sh (fun idx => softmaxFlat n (x (outOf sh k idx) (inOf sh k idx)) lo isLog (nth k idx 0)) ->
    computes l m out sh (fun idx => let s := softmax_at F k n idx in if isLog then ln s else s)).
  { intros l C. eapply always_mono; [exact C|]. intros m' [A B]. split; [|exact B]. eapply has_eq; [exact A|]. intros idx V. cbv beta.
    destruct (split_valid sh k idx Hk V) as (_ & V2 & _). fold n in V2. rewrite softmax_flat by exact V2. cbv zeta.
    replace (x (outOf sh k idx) (inOf sh k idx) (nth k idx 0)) with (F idx) by (symmetry; apply line_elem_self; assumption).
    rewrite Rsum_RS. unfold softmax_at, line_sum. rewrite (Rsum_ext _ (fun j => exp (F (with_coord true k idx j)))); [reflexivity|].
    intros j Hj. apply in_seq in Hj. f_equal. apply line_elem; [exact Hk|exact V|fold n; lia]. }
  apply G. clear G. destruct (Nat.leb_spec n 1024) as [Hn|Hn].
  - destruct (lineBlock_ok n) as (W & HW & EW).
    assert (EG : grid3 outer inner 1 = outer * inner). { unfold grid3. destruct (Z.leb_spec (Z.of_nat inner) 65535); [|lia]. cbn [andb Z.of_nat Z.leb Z.compare]. apply Nat.mul_1_r. }
    apply (grid_lines R (kSoftmaxForward lo M isLog out p outer n inner) m out sh k (fun o i d => softmaxFlat n (x o i) lo isLog d)); auto.
    + unfold accepted, kSoftmaxForward. cbn [grid bdim]. rewrite EG, EW. lia.
    + unfold kSoftmaxForward. cbn [grid bdim code shar]. rewrite EG. fold n outer inner. intros b Hb AV INJ. destruct (two_d outer inner b Hb) as [Ho Hi]. rewrite EW.
      apply small_block; auto. apply shared_alloc. exact shared32_in.
  - specialize (HO Hn).
    assert (EG : grid3 1 outer inner = outer * inner). { unfold grid3. destruct (Z.leb_spec (Z.of_nat outer) 65535); [|lia]. destruct (Z.leb_spec (Z.of_nat inner) 65535); [|lia]. cbn [andb]. rewrite Nat.mul_1_l. reflexivity. }
    apply (grid_lines R (kSoftmaxForwardLargeDim lo M isLog out p outer n inner) m out sh k (fun o i d => softmaxFlat n (x o i) lo isLog d)); auto.
    + unfold accepted, kSoftmaxForwardLargeDim. cbn [grid bdim]. rewrite EG. change blockSize with (32 * 16). lia.
    + unfold kSoftmaxForwardLargeDim. cbn [grid bdim code shar]. rewrite EG. fold n outer inner. intros b Hb AV INJ. destruct (two_d outer inner b Hb) as [Ho Hi]. change blockSize with (32 * 16).
      apply (large_block m out (lineAt n inner (b mod outer) (b / outer)) n INJ AV p (x (b mod outer) (b / outer)) (fun i Hin => HX _ _ i Ho Hi Hin) NE lo M HM isLog 16); [lia| |discriminate|discriminate].
      apply shared_alloc. intros q z Hq Hz. unfold sharedLine. rewrite shared32_in by assumption. reflexivity.
Qed.
