(* Variances of CUDA tensors. *)
From Coq Require Import List Arith ZArith Bool Lia Permutation Reals Lra.
From Verif Require Import ShapeModel ShapeSpec ShapeProofs TensorModel TensorSpec TensorLemmas BcastModel BcastSpec BcastProofs BcastProofs2 BufModel BufProofs CutSpec
  ReduceModel ReduceSpec ReduceProofs ReduceProofs2 AttnProofs2
  GpuModel GpuSpec GpuProofs GpuLemmas GpuOrder
  CudaModel CudaSpec CudaProofs CudaProps CudaFillModel CudaItems CudaFillProofs CudaFillProps CudaMoveModel CudaReduceModel CudaReduceSpec CudaReduceProofs3 CudaReduceProps CudaMeanModel CudaMeanProofs.
Import ListNotations.
Local Open Scope nat_scope.

(* a memory with given buffers *)
Definition cells (bufs : list (nat * list R)) : addr -> cell R := fun a =>
  match find (fun b => fst b =? fst a) bufs with
  | Some b => if (snd a <? 0)%Z then None else match nth_error (snd b) (Z.to_nat (snd a)) with Some x => Some (Some x) | None => None end
  | None => None
  end.
Lemma cells_has : forall bufs xs p, find (fun b => fst b =? p) bufs = Some (p, xs) -> holds (cells bufs) p xs.
Proof. intros bufs xs p E i. unfold cells. cbn [fst snd]. rewrite E. reflexivity. Qed.
Lemma cells_room : forall bufs xs p, find (fun b => fst b =? p) bufs = Some (p, xs) -> room (cells bufs) p (length xs).
Proof.
  intros bufs xs p E i. rewrite (cells_has _ _ _ E i). destruct (Z.ltb_spec i 0); [split; [lia|reflexivity]|].
  destruct (nth_error xs (Z.to_nat i)) eqn:En; split; intros H1; try discriminate; try reflexivity.
  - exfalso. apply H1. assert (Z.to_nat i < length xs) by (apply nth_error_Some; congruence). lia.
  - apply nth_error_None in En. lia.
Qed.

Lemma squares_ok : forall m sq p mean sh (F : list nat -> R) mu, (0 < Z.of_nat (numel sh) <= 2 ^ 32)%Z -> sq <> p -> sq <> mean ->
  has m p sh F -> has m mean [] (fun _ => mu) -> room m sq (numel sh) ->
  computes (kSquaredDiff sq p mean (Z.of_nat (numel sh))) m sq sh (fun idx => (F idx - mu) * (F idx - mu))%R.
Proof.
  intros m sq p mean sh F mu HZ N1 N2 HF HM HR.
  apply (gathers_at _ m sq sh _ (fun index => Ld (p, index) (fun x => Ld (mean, 0%Z) (fun mu => let diff := (x - mu)%R in St (sq, index) (diff * diff)%R Done)))); auto.
  - apply kernel1d_is.
  - intros idx Hv. eexists. split.
    + eapply plan_ld; [apply (has_at R m p sh F idx HF Hv)|]. eapply plan_ld; [exact (HM 0%Z)|]. apply plan_st; [|reflexivity].
      apply (room_at R m sq _ _ HR). pose proof (ravel_lt _ _ Hv). lia.
    + intros a [<-|[<-|[]]]; cbn [fst]; congruence.
Qed.

Lemma var_factor : forall x n unbiased, (0 < n)%nat -> (x * varFactor (INR n) unbiased = x / (if unbiased then INR n - 1 else INR n))%R.
Proof.
  intros x n u H. apply lt_INR in H. cbn [INR] in H. unfold varFactor. destruct u; unfold Rdiv; [|lra].
  rewrite <- (Rmult_assoc (1 * / INR n)). replace (1 * / INR n * INR n)%R with 1%R by (field; lra). lra.
Qed.

Theorem var_all : forall sh unbiased (F : list nat -> R) m p mo mt ms sq vo vt vs,
  sh <> [] -> 0 < size sh <= 512 * 512 -> NoDup [p; mo; mt; ms; sq; vo; vt; vs] ->
  has m p sh F -> room m mo 1 -> room m mt ((size sh + 511) / 512) -> room m ms 1 -> room m sq (size sh) -> room m vo 1 -> room m vt ((size sh + 511) / 512) -> room m vs 1 ->
  exists ls, varMeanCuda (mkD p sh) unbiased mo mt ms sq vo vt vs = Ok (mkD vo [], mkD mo [], ls) /\
    always_all ls m (fun m' => has m' vo [] (fun _ => variance unbiased F (indices sh)) /\ has m' mo [] (fun _ => average F (indices sh)) /\
      forall q, ~ In q [mo; mt; ms; sq; vo; vt; vs] -> forall i, m' (q, i) = m (q, i)).
Proof.
  intros sh u F m p mo mt ms sq vo vt vs HS HZ ND HF R1 R2 R3 R4 R5 R6 R7. set (mu := average F (indices sh)) in *.
  assert (HZ2 : (0 < Z.of_nat (numel sh) <= 2 ^ 32)%Z) by (rewrite size_numel in HZ; change (2 ^ 32)%Z with (512 * 512 * 16384)%Z; lia).
  assert (ND' : forall i j, i < 8 -> j < 8 -> i <> j -> nth i [p; mo; mt; ms; sq; vo; vt; vs] 0 <> nth j [p; mo; mt; ms; sq; vo; vt; vs] 0).
  { intros i j Hi Hj Nij E. apply Nij. apply (proj1 (NoDup_nth _ 0) ND); auto. }
  destruct (mean_all sh F m p mo mt ms) as (l1 & E1 & C1); auto; try (apply (ND' 2 0); lia); try (apply (ND' 1 2); lia); try (apply (ND' 3 1); lia); try (apply (ND' 3 2); lia).
  set (G := fun idx => ((F idx - mu) * (F idx - mu))%R).
  assert (MG : forall m2, has m2 sq sh G -> room m2 vt ((size sh + 511) / 512) -> room m2 vo 1 ->
     exists ls, reduceMerge Rplus 0%R indexAll vo sq vt (Z.of_nat (numel sh)) 1 = Some ls /\ computes_all ls m2 vo [vt] [] (fun _ => sum (K := Rring) G (indices sh))).
  { intros m2 H1 H2 H3. destruct (cuda_sum_all_partial Rring sh G m2 sq vo vt HS HZ) as (ls & E & C); auto; try (apply (ND' 6 4); lia); try (apply (ND' 5 6); lia).
    exists ls. split; [|exact C]. unfold sumAllCuda, reduceAllCuda in E. cbn [dshape dbuf] in E. destruct sh as [|d sh']; [contradiction|].
    assert (E' : match @reduceMerge R Rplus 0%R indexAll vo sq vt (Z.of_nat (numel (d :: sh'))) 1 with None => UB | Some ls => Ok (@nil nat, Some ls) end = Ok ([], Some ls)) by exact E.
    destruct (reduceMerge Rplus 0%R indexAll vo sq vt (Z.of_nat (numel (d :: sh'))) 1); [congruence|discriminate]. }
  assert (XM : exists l2, reduceMerge Rplus 0%R indexAll vo sq vt (Z.of_nat (numel sh)) 1 = Some l2).
  { destruct (MG (cells [(sq, map G (indices sh)); (vt, repeat 0%R ((size sh + 511) / 512)); (vo, [0%R])])) as (l2 & E2 & _); [| | |exists l2; exact E2].
    - apply (cells_has _ (map G (indices sh)) sq). cbn [find fst]. rewrite Nat.eqb_refl. reflexivity.
    - rewrite <- (repeat_length 0%R ((size sh + 511) / 512)) at 2. apply (cells_room _ (repeat 0%R ((size sh + 511) / 512)) vt). cbn [find fst].
      destruct (Nat.eqb_spec sq vt) as [X|_]; [exfalso; apply (ND' 4 6); [lia|lia|lia|exact X]|]. rewrite Nat.eqb_refl. reflexivity.
    - apply (cells_room _ [0%R] vo). cbn [find fst].
      destruct (Nat.eqb_spec sq vo) as [X|_]; [exfalso; apply (ND' 4 5); [lia|lia|lia|exact X]|].
      destruct (Nat.eqb_spec vt vo) as [X|_]; [exfalso; apply (ND' 6 5); [lia|lia|lia|exact X]|]. rewrite Nat.eqb_refl. reflexivity. }
  destruct XM as (l2 & E2).
  assert (XS : exists l3, scaleCuda (mkD vo []) (varFactor (INR (numel sh)) u) vs = Ok l3).
  { destruct (scale_ok (cells [(vo, [0%R]); (vs, [0%R])]) vo [] (fun _ => 0%R) (varFactor (INR (numel sh)) u) vs) as (l3 & E3 & _); [cbn; lia|apply (ND' 7 5); lia| | |exists l3; exact E3].
    - apply (cells_has _ [0%R] vo). cbn [find fst]. rewrite Nat.eqb_refl. reflexivity.
    - apply (cells_room _ [0%R] vs). cbn [find fst].
      destruct (Nat.eqb_spec vo vs) as [X|_]; [exfalso; apply (ND' 5 7); [lia|lia|lia|exact X]|]. rewrite Nat.eqb_refl. reflexivity. }
  destruct XS as (l3 & E3).
  eexists. split.
  - unfold varMeanCuda. cbn [dshape dbuf]. destruct sh as [|d sh']; [contradiction|]. rewrite E1, E2, E3. reflexivity.
  - apply always_all_app. eapply always_all_mono; [|exact C1]. intros m1 [A1 S1]. cbn [always_all dbuf].
    assert (U1 : forall i, i < 8 -> i <> 1 -> i <> 2 -> i <> 3 -> forall j, m1 (nth i [p; mo; mt; ms; sq; vo; vt; vs] 0, j) = m (nth i [p; mo; mt; ms; sq; vo; vt; vs] 0, j)).
    { intros i Hi Ni1 Ni2 Ni3 j. apply S1; [apply (ND' i 1); lia|]. intros [X|[X|[]]]; [apply (ND' 3 i); [lia|lia|lia|exact X]|apply (ND' 2 i); [lia|lia|lia|exact X]]. }
    eapply always_mono.
    { apply (squares_ok m1 sq p mo sh F mu HZ2).
      - apply (ND' 4 0); lia.
      - apply (ND' 4 1); lia.
      - apply (has_same m); [exact HF|]. apply (U1 0); lia.
      - exact A1.
      - rewrite <- size_numel. apply (room_same m); [exact R4|]. apply (U1 4); lia. }
    intros m2 [A2 S2]. apply always_all_app.
    destruct (MG m2 A2) as (l2' & E2' & C2).
    { apply (room_same m); [exact R6|]. intros j. rewrite S2 by (apply (ND' 6 4); lia). apply (U1 6); lia. }
    { apply (room_same m); [exact R5|]. intros j. rewrite S2 by (apply (ND' 5 4); lia). apply (U1 5); lia. }
    rewrite E2 in E2'. injection E2' as <-. eapply always_all_mono; [|exact C2]. intros m3 [A3 S3].
    destruct (scale_ok m3 vo [] _ (varFactor (INR (numel sh)) u) vs ltac:(cbn; lia) ltac:(apply (ND' 7 5); lia) A3) as (l3' & E3' & C3).
    { apply (room_same m); [exact R7|]. intros j. rewrite S3; [|apply (ND' 7 5); lia|intros [X|[]]; apply (ND' 6 7); [lia|lia|lia|exact X]].
      rewrite S2 by (apply (ND' 7 4); lia). apply (U1 7); lia. }
    rewrite E3 in E3'. injection E3' as <-. eapply always_all_mono; [|exact C3]. intros m4 [A4 S4]. split; [|split].
    + apply (has_eq _ _ _ _ _ A4). intros idx _. rewrite var_factor by lia. unfold variance. fold mu. fold (size sh). rewrite size_numel. reflexivity.
    + apply (has_same m1); [exact A1|]. intros j. rewrite S4; [|apply (ND' 1 5); lia|intros [X|[]]; apply (ND' 7 1); [lia|lia|lia|exact X]].
      rewrite S3; [|apply (ND' 1 5); lia|intros [X|[]]; apply (ND' 6 1); [lia|lia|lia|exact X]]. apply S2. apply (ND' 1 4); lia.
    + intros q Hq j. cbn [In] in Hq. rewrite S4 by (cbn [In]; intuition congruence). rewrite S3 by (cbn [In]; intuition congruence). rewrite S2 by intuition congruence. apply S1; cbn [In]; intuition congruence.
Qed.
