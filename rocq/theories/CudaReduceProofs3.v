(* reduceMerge as a whole, and the reduction of all elements. *)
From Coq Require Import List Arith ZArith Bool Lia Permutation.
From Verif Require Import ShapeModel ShapeSpec ShapeProofs TensorModel TensorSpec TensorLemmas BcastModel GpuModel GpuSpec GpuProofs GpuLemmas GpuWarp GpuOrder
  CudaModel CudaSpec CudaProofs CudaItems CudaFillProofs CudaMoveModel CudaReduceModel CudaReduceSpec CudaReduceProofs CudaReduceProofs2.
Import ListNotations.
Local Open Scope Z_scope.

Lemma grid_le : forall n, (0 < n)%nat -> Z.of_nat n <= 2 ^ 32 ->
  gridSize (Z.of_nat blockSize) (Z.of_nat n) 1 = Z.of_nat ((n + 511) / 512) /\ (0 < (n + 511) / 512)%nat /\
  ((n + 511) / 512 * 512 >= n)%nat /\ ((n + 511) / 512 * 512 < n + 512)%nat.
Proof.
  intros n H0 H1. destruct (grid_ok (Z.of_nat n) ltac:(lia)) as [E B].
  pose proof (Nat.div_mod (n + 511) 512 ltac:(lia)). pose proof (Nat.mod_upper_bound (n + 511) 512 ltac:(lia)).
  assert (EZ : (Z.of_nat n + 511) / 512 = Z.of_nat ((n + 511) / 512)) by (rewrite Nat2Z.inj_div; f_equal; lia).
  rewrite E, EZ. split; [reflexivity|]. rewrite EZ in B. lia.
Qed.

Lemma always_all_mono : forall {V} (ls : list (launch V)) m (Q Q' : (addr -> cell V) -> Prop),
  (forall m', Q m' -> Q' m') -> always_all ls m Q -> always_all ls m Q'.
Proof.
  intros V. induction ls as [|l ls IH]; intros m Q Q' H HQ; cbn [always_all] in *; [apply H, HQ|].
  eapply always_mono; [exact HQ|]. intros m' H'. apply (IH m' Q Q' H H').
Qed.

Section Merge.
Context {V : Type} (op : V -> V -> V) (e : V).
Hypothesis Hc : forall a b, op a b = op b a.
Hypothesis Ha : forall a b c, op a (op b c) = op (op a b) c.
Hypothesis He : op e e = e.

(* what a merge leaves: the results in out, scratch in tmp *)
Definition merged_to (m : addr -> cell V) (out tmp k : nat) (f : nat -> V) (m' : addr -> cell V) : Prop :=
  (forall r, (r < k)%nat -> m' (out, Z.of_nat r) = Some (Some (f r))) /\
  (forall a, fst a <> tmp -> (forall r, (r < k)%nat -> a <> (out, Z.of_nat r)) -> m' a = m a).

Lemma merge_rows : forall m out inp tmp n k (x : nat -> V),
  (0 < n <= 512)%nat -> (0 < k)%nat -> Z.of_nat k * 512 < 2 ^ 32 -> tmp <> inp -> out <> tmp ->
  (forall i, (i < k * n)%nat -> m (inp, Z.of_nat i) = Some (Some (x i))) ->
  (forall i, (i < k)%nat -> m (tmp, Z.of_nat i) <> None) ->
  (forall i, (i < k)%nat -> m (out, Z.of_nat i) <> None) ->
  exists ls, reduceMerge op e indexLastDim out inp tmp (Z.of_nat n) (Z.of_nat k) = Some ls /\
    always_all ls m (merged_to m out tmp k (fun r => fold_right op e (map (fun j => x (r * n + j)%nat) (seq 0 n)))).
Proof.
  intros m out inp tmp n k x Hn Hk HK N1 N2 HI HT HO.
  destruct (grid_le n ltac:(lia)) as (E & E0 & E1 & E2); [lia|].
  assert (EB : ((n + 511) / 512 = 1)%nat) by lia. rewrite EB in E. change (Z.of_nat 1) with 1 in E.
  unfold reduceMerge. rewrite E. cbn [mergeRounds Z.ltb Z.compare Pos.compare Pos.compare_cont app]. eexists. split; [reflexivity|].
  rewrite Z.mul_1_r, Z.mod_small, !Nat2Z.id by lia.
  eapply always_all_cons; [apply (round_rows op e Hc Ha He m tmp inp n k x); assumption|].
  intros m1 [A B]. cbn [always_all]. eapply always_mono.
  - apply (copy_device op e Hc Ha m1 out tmp k (fun r => fold_right op e (map (fun j => x (r * n + j)%nat) (seq 0 n))) N2 A).
    intros i Hi. rewrite B by exact N2. apply HO, Hi.
  - intros m2 [A' B']. split; [exact A'|]. intros a Hna Hr. rewrite B' by exact Hr. apply B, Hna.
Qed.

Lemma merge_list : forall indexer m out inp tmp n (x : nat -> V),
  (0 < n <= 512 * 512)%nat -> tmp <> inp -> out <> tmp ->
  (forall n g index, Z.of_nat g * 512 < 2 ^ 32 -> 0 <= index < Z.of_nat g * 512 -> indexer n 1 g index = Some (if index <? n then index else -1)) ->
  (forall i, (i < n)%nat -> m (inp, Z.of_nat i) = Some (Some (x i))) ->
  (forall i, (i < (n + 511) / 512)%nat -> m (tmp, Z.of_nat i) <> None) ->
  (m (out, 0) <> None) ->
  exists ls, reduceMerge op e indexer out inp tmp (Z.of_nat n) 1 = Some ls /\
    always_all ls m (merged_to m out tmp 1 (fun _ => fold_right op e (map x (seq 0 n)))).
Proof.
  intros indexer m out inp tmp n x Hn N1 N2 HX HI HT HO.
  assert (H2 : Z.of_nat n <= 262144) by lia.
  destruct (grid_le n ltac:(lia)) as (E & E0 & E1 & E2); [lia|].
  set (B := ((n + 511) / 512)%nat) in *. assert (HB : (0 < B <= 512)%nat) by lia.
  unfold reduceMerge. rewrite E. rewrite Z.mul_1_l, (Z.mod_small (Z.of_nat B)), Nat2Z.id by lia. change (Z.to_nat 1) with 1%nat.
  pose proof (round_chunks op e Hc Ha He indexer m tmp inp n 1 B x ltac:(lia) ltac:(lia) (or_introl N1) (fun index Hi => HX (Z.of_nat n) B index ltac:(lia) Hi) HI HT) as R1.
  assert (LAST : forall m1 m0 v, m1 (tmp, 0) = Some (Some v) -> m1 (out, 0) <> None -> (forall a, fst a <> tmp -> m1 a = m0 a) ->
    always_all [copyDevice out tmp 1] m1 (merged_to m0 out tmp 1 (fun _ => v))).
  { intros m1 m0 v Ev Eo Eq. cbn [always_all]. eapply always_mono.
    - apply (copy_device op e Hc Ha m1 out tmp 1 (fun _ => v) N2).
      + intros i Hi. assert (i = 0%nat) as -> by lia. exact Ev.
      + intros i Hi. assert (i = 0%nat) as -> by lia. exact Eo.
    - intros m2 [A' B']. split; [exact A'|]. intros a Hna Hr. rewrite B' by exact Hr. apply Eq, Hna. }
  destruct (Nat.eq_dec B 1) as [EB|NB].
  - rewrite EB in *. change (Z.of_nat 1) with 1 in *. cbn [mergeRounds Z.ltb Z.compare Pos.compare Pos.compare_cont app]. eexists. split; [reflexivity|].
    eapply always_all_cons; [exact R1|]. intros m1 [A U]. apply LAST.
    + specialize (A 0%nat ltac:(lia)). rewrite <- (chunk_fold op e Hc Ha He x n 1) by lia.
      change (seq 0 1) with [0%nat]. cbn [map]. cbn [fold_right]. rewrite (fold_e op e Ha He). exact A.
    + rewrite U by (left; exact N2). exact HO.
    + intros a Hna. apply U. left. exact Hna.
  - assert (EM : forall round, mergeRounds (V := V) 8 round (Z.of_nat B) = Some [round (Z.of_nat B) 1]).
    { intros round. cbn [mergeRounds]. destruct (Z.ltb_spec 1 (Z.of_nat B)); [|lia].
      destruct (grid_le B ltac:(lia)) as (EG & G0 & G1 & G2); [lia|]. rewrite EG. assert (((B + 511) / 512 = 1)%nat) as -> by lia. reflexivity. }
    rewrite EM. cbn [app]. eexists. split; [reflexivity|].
    eapply always_all_cons; [exact R1|]. intros m1 [A U]. change (1 mod 2 ^ 32) with 1. change (Z.to_nat 1) with 1%nat.
    set (y := fun b => fold_right op e (map (fun t => if (b * 512 + t <? n)%nat then x (b * 512 + t)%nat else e) (seq 0 512))) in *.
    eapply always_all_cons.
    { apply (round_chunks op e Hc Ha He indexer m1 tmp tmp B 1 1 y); [lia|lia|right; reflexivity| |exact A|].
      - intros index Hi. apply HX; [lia|exact Hi].
      - intros i Hi. rewrite (A i) by lia. discriminate. }
    intros m2 [A2 U2]. apply LAST.
    + specialize (A2 0%nat ltac:(lia)). rewrite <- (chunk_fold op e Hc Ha He x n B) by lia. fold y.
      rewrite <- (chunk_fold op e Hc Ha He y B 1) by lia.
      change (seq 0 1) with [0%nat]. cbn [map]. cbn [fold_right]. rewrite (fold_e op e Ha He). exact A2.
    + rewrite U2 by (left; exact N2). rewrite U by (left; exact N2). exact HO.
    + intros a Hna. rewrite U2 by (left; exact Hna). apply U. left. exact Hna.
Qed.

(* ---- all elements ---- *)

Theorem reduce_all : forall m p sh (F : list nat -> V) out tmp, sh <> [] ->
  (0 < numel sh <= 512 * 512)%nat -> tmp <> p -> out <> tmp ->
  has m p sh F -> room m tmp ((numel sh + 511) / 512) -> room m out 1 ->
  exists ls, reduceAllCuda op e (mkD p sh) out tmp = Ok ([], Some ls) /\
    computes_all ls m out [tmp] [] (fun _ => fold_right op e (map F (indices sh))).
Proof.
  intros m p sh F out tmp Hsh Hn N1 N2 HF HT HO.
  destruct (merge_list indexAll m out p tmp (numel sh) (fun i => F (offsetToIndices sh i)) Hn N1 N2) as (ls & E & A).
  - reflexivity.
  - intros i Hi. rewrite (has_ix V m p sh F) by (auto; lia). rewrite Nat2Z.id. reflexivity.
  - intros i Hi. apply (room_at V m tmp _ _ HT). lia.
  - apply (room_at V m out _ _ HO). lia.
  - exists ls. unfold reduceAllCuda. cbn [dshape dbuf]. destruct sh as [|d sh]; [congruence|]. cbn [numel] in E. rewrite E. split; [reflexivity|].
    revert A. apply always_all_mono. intros m' [A1 A2]. rewrite <- map_seq_indices. split.
    + intros i. destruct (Z.ltb_spec i 0) as [L|L].
      * rewrite A2; [|exact N2|intros r Hr X; injection X as X; lia]. apply (HO i). lia.
      * destruct (Z.eq_dec i 0) as [->|N0].
        -- apply (A1 0%nat). lia.
        -- rewrite A2; [|exact N2|intros r Hr X; injection X as X; lia].
           replace (nth_error (map (fun _ => _) (indices [])) (Z.to_nat i)) with (@None V).
           ++ apply (HO i). lia.
           ++ symmetry. apply nth_error_None. rewrite map_length, indices_length, numel_nil. lia.
    + intros q Q1 Q2 i. apply A2; [cbn; intros ->; apply Q2; left; reflexivity|]. intros r Hr X. injection X as X _. contradiction.
Qed.
End Merge.
