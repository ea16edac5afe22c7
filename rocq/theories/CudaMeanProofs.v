(* Means and variances of CUDA tensors. *)
From Coq Require Import List Arith ZArith Bool Lia Permutation Reals Lra.
From Verif Require Import ShapeModel ShapeSpec ShapeProofs TensorModel TensorSpec TensorLemmas BcastModel BcastSpec BcastProofs BcastProofs2 BufModel BufProofs CutSpec
  ReduceModel ReduceSpec ReduceProofs ReduceProofs2 AttnProofs2
  GpuModel GpuSpec GpuProofs GpuLemmas GpuOrder
  CudaModel CudaSpec CudaProofs CudaProps CudaFillModel CudaItems CudaFillProofs CudaFillProps CudaMoveModel CudaReduceModel CudaReduceSpec CudaReduceProofs3 CudaReduceProps CudaMeanModel.
Import ListNotations.
Local Open Scope nat_scope.

Lemma always_all_app : forall {V} (l1 l2 : list (launch V)) m Q, always_all l1 m (fun m' => always_all l2 m' Q) -> always_all (l1 ++ l2) m Q.
Proof.
  intros V. induction l1 as [|l l1 IH]; intros l2 m Q H; [exact H|]. cbn [app always_all] in *. eapply always_mono; [exact H|]. intros m' H'. apply IH, H'.
Qed.

Lemma positive_of : forall sh, 0 < numel sh -> positive sh.
Proof. induction sh as [|d sh IH]; intros H; [constructor|]. rewrite numel_cons in H. constructor; [nia|]. apply IH. nia. Qed.

Lemma has_same : forall {V} (m m' : addr -> cell V) p sh F, has m p sh F -> (forall i, m' (p, i) = m (p, i)) -> has m' p sh F.
Proof. intros V m m' p sh F H E i. rewrite E. apply H. Qed.
Lemma room_same : forall {V} (m m' : addr -> cell V) p n, room m p n -> (forall i, m' (p, i) = m (p, i)) -> room m' p n.
Proof. intros V m m' p n H E i. rewrite E. apply H. Qed.
Lemma has_eq : forall {V} (m : addr -> cell V) p sh F G, has m p sh F -> (forall idx, valid sh idx -> F idx = G idx) -> has m p sh G.
Proof. intros V m p sh F G H E. unfold has in *. rewrite <- (map_ext_in F G); [exact H|]. intros idx Hin. apply E, indices_in, Hin. Qed.

Theorem scale_ok : forall m b sh (F : list nat -> R) r s, (0 < Z.of_nat (numel sh) <= 2 ^ 32)%Z -> s <> b -> has m b sh F -> room m s 1 ->
  exists ls, scaleCuda (mkD b sh) r s = Ok ls /\ computes_all ls m b [s] sh (fun idx => F idx * r)%R.
Proof.
  intros m b sh F r s HZ N HF HS.
  assert (P : positive sh) by (apply positive_of; lia).
  assert (EX : forall m1, has m1 b sh F -> has m1 s [] (fun _ => r) -> exists l, elementwiseOutCuda (fun vs => (nth 0 vs 0 * nth 1 vs 0)%R) [mkD b sh; mkD s []] (mkD b sh) = Ok l /\ computes l m1 b sh (fun idx => F idx * r)%R).
  { intros m1 H1 H2. destruct (cuda_elementwise_partial R (fun vs => (nth 0 vs 0 * nth 1 vs 0)%R) [(mkD b sh, F); (mkD s [], fun _ => r)] sh b m1) as (l & _ & E & C).
    - cbn [map fst dshape]. repeat constructor. exact P.
    - cbn [map fst dshape]. apply scalar_fits, P.
    - rewrite size_numel. lia.
    - intros o [<-|[<-|[]]]; assumption.
    - rewrite size_numel. apply (has_room R m1 b sh F H1).
    - intros o [<-|[<-|[]]]; cbn [fst dbuf dshape]; [reflexivity|congruence].
    - exists l. split; [exact E|]. unfold computes in *. eapply always_mono; [exact C|]. intros m' [A B]. split; [|exact B]. apply (has_eq _ _ _ _ _ A).
      intros idx Hv. cbn [map fst snd dshape nth]. rewrite bidx_same by exact Hv. reflexivity. }
  destruct (EX (fun a => if fst a =? b then m a else if (snd a =? 0)%Z then Some (Some r) else None)) as (l & E & _).
  { apply (has_same m); [exact HF|]. intros i. cbn [fst]. rewrite Nat.eqb_refl. reflexivity. }
  { intros i. cbn [fst snd]. destruct (Nat.eqb_spec s b); [contradiction|]. change (map (fun _ : list nat => r) (indices [])) with [r].
    destruct (Z.ltb_spec i 0), (Z.eqb_spec i 0); try lia; try reflexivity; [subst; reflexivity|]. destruct (Z.to_nat i) as [|n1] eqn:Ei; [lia|]. cbn. destruct n1; reflexivity. }
  exists [fillCuda s r 1; l]. split; [unfold scaleCuda; rewrite E; reflexivity|].
  unfold computes_all. cbn [always_all]. eapply always_mono; [apply (cuda_fill_partial R r [] s m); [cbn; lia|exact HS]|].
  intros m1 [H1 S1]. destruct (EX m1) as (l' & E' & C).
  { apply (has_same m); [exact HF|]. intros i. apply S1. congruence. }
  { exact H1. }
  rewrite E in E'. injection E' as <-. eapply always_mono; [exact C|]. intros m2 [H2 S2]. split; [exact H2|].
  intros p Np Hp i. rewrite S2 by exact Np. apply S1. intros ->. apply Hp. left. reflexivity.
Qed.

Lemma after_sum : forall rsh (S : list nat) (F : list nat -> R) m out s r ls t G, (0 < Z.of_nat (numel rsh) <= 2 ^ 32)%Z -> s <> out -> ~ In s S -> room m s 1 ->
  computes_all ls m out S rsh F -> (forall idx, valid rsh idx -> (F idx * r (numel rsh))%R = G idx) ->
  exists l, afterSum (Ok (rsh, Some ls)) t out s r = Ok (mkD out rsh, l) /\ computes_all l m out (s :: S) rsh G.
Proof.
  intros rsh S F m out s r ls t G HZ N NS HR C HG. unfold afterSum.
  assert (E : exists l, scaleCuda (mkD out rsh) (r (numel rsh)) s = Ok l).
  { destruct (scale_ok (fun a => if fst a =? out then (if (snd a <? 0)%Z then None else match nth_error (map F (indices rsh)) (Z.to_nat (snd a)) with Some x => Some (Some x) | None => None end) else m a) out rsh F (r (numel rsh)) s HZ N) as (l & E & _).
    - intros i. cbn [fst snd]. rewrite Nat.eqb_refl. reflexivity.
    - intros i. cbn [fst snd]. destruct (Nat.eqb_spec s out); [contradiction|]. apply HR.
    - exists l. exact E. }
  destruct E as (l & E). rewrite E. exists (ls ++ l). split; [reflexivity|]. unfold computes_all. apply always_all_app.
  eapply always_all_mono; [|exact C]. intros m1 [H1 S1].
  destruct (scale_ok m1 out rsh F (r (numel rsh)) s HZ N H1) as (l' & E' & C').
  { apply (room_same m); [exact HR|]. intros i. apply S1; auto. }
  rewrite E in E'. injection E' as <-. eapply always_all_mono; [|exact C']. intros m2 [H2 S2]. split.
  - apply (has_eq _ _ _ _ _ H2 HG).
  - intros p Np Hp i. rewrite S2 by (auto; intros [->|[]]; apply Hp; left; reflexivity). apply S1; [exact Np|]. intros X. apply Hp. right. exact X.
Qed.

Theorem mean_all : forall sh (F : list nat -> R) m p out tmp s,
  sh <> [] -> 0 < size sh <= 512 * 512 -> tmp <> p -> out <> tmp -> s <> out -> s <> tmp ->
  has m p sh F -> room m tmp ((size sh + 511) / 512) -> room m out (size []) -> room m s 1 ->
  exists ls, meanCuda (mkD p sh) out tmp s = Ok (mkD out [], ls) /\
    computes_all ls m out [s; tmp] [] (fun _ => average F (indices sh)).
Proof.
  intros sh F m p out tmp s HS HZ N1 N2 N3 N4 HF HT HO HR.
  destruct (cuda_sum_all_partial Rring sh F m p out tmp HS HZ N1 N2 HF HT HO) as (ls & E & C).
  unfold meanCuda. cbn [dshape]. rewrite E.
  destruct (after_sum [] [tmp] (fun _ => sum (K := Rring) F (indices sh)) m out s (fun _ => 1 / INR (numel sh))%R ls (mkD p sh) (fun _ => average F (indices sh))) as (l & E2 & C2); auto.
  - cbn. lia.
  - intros [X|[]]. congruence.
  - intros idx _. unfold average. fold (size sh). rewrite size_numel. unfold Rdiv. rewrite Rmult_1_l. reflexivity.
  - exists l. split; [|exact C2]. destruct sh; [contradiction|exact E2].
Qed.

Lemma size_without : forall k sh keep, k < length sh -> size (without_dim keep k sh) = size (without_dim false k sh).
Proof.
  intros k sh keep Hk. destruct keep; [|reflexivity]. rewrite !size_numel. unfold without_dim. revert k Hk. induction sh as [|d sh IH]; intros k Hk; [cbn in Hk; lia|].
  destruct k as [|k]; [cbn [set_nth firstn skipn app]; rewrite numel_cons; lia|]. cbn [set_nth firstn]. change (skipn (S (S k)) (d :: sh)) with (skipn (S k) sh). cbn [app]. rewrite !numel_cons, IH by (cbn in Hk; lia). reflexivity.
Qed.
Lemma size_mid : forall k sh, k < length sh -> size sh = nth k sh 0 * size (without_dim false k sh).
Proof.
  intros k sh Hk. rewrite !size_numel. unfold without_dim. revert k Hk. induction sh as [|d sh IH]; intros k Hk; [cbn in Hk; lia|].
  destruct k as [|k]; [cbn [firstn skipn app nth]; rewrite numel_cons; reflexivity|]. cbn [firstn nth]. change (skipn (S (S k)) (d :: sh)) with (skipn (S k) sh). cbn [app]. rewrite !numel_cons, (IH k) by (cbn in Hk; lia). lia.
Qed.

Theorem mean_dim : forall sh (F : list nat -> R) dim k keep m p out tmp tr s,
  let n := nth k sh 0 in
  let rest := size (without_dim false k sh) in
  dim_is (length sh) dim k -> (0 < Z.of_nat (size sh) <= 2 ^ 32)%Z ->
  (k = 0 \/ k = length sh - 1 -> n < 512 \/ (n = 512 /\ (Z.of_nat rest * 512 < 2 ^ 32)%Z) \/ (rest = 1 /\ n <= 512 * 512)) ->
  has m p sh F -> room m out rest -> room m tmp (rest * ((n + 511) / 512)) -> room m tr (size sh) -> room m s 1 ->
  NoDup [p; out; tmp; tr; s] ->
  exists ls, meanDimsCuda (mkD p sh) [dim] keep out tmp tr s = Ok (mkD out (without_dim keep k sh), ls) /\
    computes_all ls m out [s; tmp; tr] (without_dim keep k sh) (fun ridx => average (fun j => F (with_coord keep k ridx j)) (seq 0 n)).
Proof.
  intros sh F dim k keep m p out tmp tr s n rest HD HZ HN HF HO HT HR HS ND.
  assert (ND' : NoDup [p; out; tmp; tr] /\ s <> out /\ ~ In s [tmp; tr]).
  { inversion_clear ND as [|? ? A ND1]. inversion_clear ND1 as [|? ? B ND2]. inversion_clear ND2 as [|? ? C ND3]. inversion_clear ND3 as [|? ? D ND4]. cbn [In] in *.
    split; [repeat constructor; cbn [In]; tauto|]. split; [tauto|]. intros [X|[X|[]]]; symmetry in X; tauto. }
  destruct ND' as (ND' & N1 & N2).
  destruct (cuda_sum_dim_partial Rring sh F dim k keep m p out tmp tr HD HZ HN HF HO HT HR ND') as (ls & E & C).
  pose proof HD as [Hk _]. pose proof (size_mid k sh Hk) as ES. fold n rest in ES.
  unfold meanDimsCuda. cbn [dshape]. rewrite E.
  destruct (after_sum (without_dim keep k sh) [tmp; tr] (fun ridx => sum (K := Rring) (fun j => F (with_coord keep k ridx j)) (seq 0 n)) m out s (fun c => INR c / INR (numel sh))%R ls (mkD p sh)
     (fun ridx => average (fun j => F (with_coord keep k ridx j)) (seq 0 n))) as (l & E2 & C2); auto.
  - rewrite <- size_numel, size_without by exact Hk. fold rest. assert (0 < n) by nia. nia.
  - intros idx _. unfold average. rewrite seq_length. rewrite <- !size_numel, size_without by exact Hk. fold rest. rewrite ES, mult_INR.
    assert (0 < n /\ 0 < rest) as [H1 H2] by nia. apply lt_INR in H1. apply lt_INR in H2. cbn [INR] in *. unfold Rdiv. field. lra.
  - exists l. split; [|exact C2]. destruct sh; [cbn in Hk; lia|exact E2].
Qed.
