(* Negative log likelihood of CUDA tensors. *)
From Coq Require Import List Arith ZArith Bool Lia Reals Lra.
From Verif Require Import ShapeModel ShapeSpec ShapeProofs TensorModel TensorSpec TensorLemmas BcastModel BcastSpec BcastProofs BcastProofs2 BufModel BufProofs CutModel CutSpec IndexModel IndexSpec IndexProofs
  ReduceModel ReduceSpec ReduceProofs ReduceProofs2 GradModel GradSpec GradProofs AttnProofs2 AdvModel AdvSpec LossModel LossSpec LossProofs LossProps
  GpuModel GpuSpec GpuProofs GpuLemmas GpuOrder CudaModel CudaSpec CudaProofs CudaProps CudaFillModel CudaItems CudaFillProofs CudaFillProps
  CudaMoveModel CudaMoveProps CudaReduceModel CudaReduceSpec CudaReduceProofs3 CudaReduceProps CudaMeanModel CudaMeanProofs CudaLossModel CudaLossSpec CudaLossProofs CudaLossProofs2.
Import ListNotations.
Local Open Scope nat_scope.

Lemma els_has {A} (m : addr -> cell (word A)) p sh (F : list nat -> A) : has m p sh (fun o => El (F o)) <-> has (els m) p sh F.
Proof. unfold has. rewrite <- (map_map F El). apply els_holds. Qed.
Lemma els_same {A} S (m m' : addr -> cell (word A)) : kept m m' -> same_out S (els m) (els m') -> same_out S m m'.
Proof. intros K H x Hx i. apply (kept_same m m' (x, i) K). apply H. auto. Qed.
Lemma same_out_trans {V} S1 S2 (m1 m2 m3 : addr -> cell V) : same_out S1 m1 m2 -> same_out S2 m2 m3 -> same_out (S1 ++ S2) m1 m3.
Proof. intros H1 H2 x Hx i. rewrite in_app_iff in Hx. rewrite H2 by tauto. apply H1. tauto. Qed.
Lemma same_out_incl {V} S1 S2 (m1 m2 : addr -> cell V) : incl S1 S2 -> same_out S1 m1 m2 -> same_out S2 m1 m2.
Proof. intros HI H x Hx i. apply H. intros X. apply Hx, HI, X. Qed.
Lemma but_out {V} p (m m' : addr -> cell V) : same_but p m m' -> same_out [p] m m'.
Proof. intros H x Hx i. apply H. intros ->. apply Hx. cbn. auto. Qed.
Lemma has_out {V} S (m m' : addr -> cell V) p sh F : same_out S m m' -> ~ In p S -> has m p sh F -> has m' p sh F.
Proof. intros H Hp HF. apply (has_same m); auto. Qed.
Lemma room_out {V} S (m m' : addr -> cell V) p n : same_out S m m' -> ~ In p S -> room m p n -> room m' p n.
Proof. intros H Hp HF. apply (room_same m); auto. Qed.

Lemma arange_ok idx n (m : addr -> cell (word R)) : (0 < Z.of_nat n <= 2 ^ 32)%Z -> room m idx n ->
  exists l, arangeCuda idx n = Ok l /\ always l m (fun m' => has m' idx [n] (fun j => Ix (Z.of_nat (nth 0 j 0))) /\ same_but idx m m').
Proof.
  intros HZ HR. destruct (cuda_linspace_partial (word R) (ixOp Z.add) (ixOp Z.mul) (@Ix R) (Ix 0%Z) (Ix 1%Z) n idx m HZ HR) as (l & E & C).
  exists l. split; [exact E|]. eapply always_mono; [exact C|]. intros m' [A B]. split; auto. apply (has_eq _ _ _ _ _ A). intros o _. cbn. f_equal. lia.
Qed.
(* A memory, to see which launches a host function makes. *)
Definition blank {V} (ps : list (nat * list (option V))) : addr -> cell V :=
  fun a => if (snd a <? 0)%Z then None else match find (fun p => fst p =? fst a) ps with Some p => nth_error (snd p) (Z.to_nat (snd a)) | None => None end.
Lemma blank_holds {V} (ps : list (nat * list (option V))) p xs : find (fun q => fst q =? p) ps = Some (p, map Some xs) -> holds (blank ps) p xs.
Proof.
  intros E i. unfold blank. cbn [fst snd]. rewrite E. cbn [snd]. destruct (Z.ltb_spec i 0); auto. rewrite nth_error_map. destruct (nth_error xs (Z.to_nat i)); auto.
Qed.

Ltac ni := cbn [In]; repeat match goal with H : ?P |- _ => lazymatch P with context [@eq nat] => fail | nat => fail | _ => clear H end end; intuition.
Definition small red n := red <> NONE -> n <= 512 * 512.
Definition pk (T : nat -> nat) (F : list nat -> R) (o : list nat) : R := F (nth 0 o 0 :: T (nth 0 o 0) :: skipn 1 o).

Lemma le_factor a b z : (0 < Z.of_nat (a * b) <= z)%Z -> (0 < Z.of_nat a <= z)%Z.
Proof. intros H. destruct a as [|a]; [cbn in H; lia|]. destruct b as [|b]; [rewrite Nat.mul_0_r in H; cbn in H; lia|]. nia. Qed.

Section Nll.
  Context (B C : nat) (rest : list nat) (t : list nat -> Z) (T : nat -> nat) (HT : forall b, b < B -> dim_is C (t [b]) (T b)).
  Let term (F : list nat -> R) (o : list nat) : R := (- pk T F o)%R.
  Lemma nll_cuda (F : list nat -> R) red (m : addr -> cell (word R)) p q idx out s mo mt ms :
    (0 < Z.of_nat (size (B :: rest)) <= 2 ^ 32)%Z -> (red <> NONE -> size (B :: rest) <= 512 * 512) ->
    has m p (B :: C :: rest) (fun o => El (F o)) -> has m q [B] (fun o => Ix (t o)) ->
    room m idx B -> room m out (size (B :: rest)) -> room m s 1 -> room m mo 1 -> room m mt ((size (B :: rest) + 511) / 512) -> room m ms 1 ->
    NoDup [idx; out; s; mo; mt; ms] -> ~ In p [idx; out] -> ~ In q [idx; out] ->
    let L := reduced_loss red (B :: rest) (term F) in
    exists b ls, nllLossCuda (mkD p (B :: C :: rest)) (mkD q [B]) red idx out s mo mt ms = Ok (mkD b (tshape L), ls) /\ In b [out; mo] /\
      always_all ls m (fun m' => holds m' b (map El (tdata L)) /\ same_out [idx; out; s; mo; mt; ms] m m').
  Proof.
    intros HZ HL. change (small red (size (B :: rest))) in HL. remember ((size (B :: rest) + 511) / 512) as N eqn:EN. intros HF HG RI RO RS RMO RMT RMS ND NP NQ L.
    assert (HB : (0 < Z.of_nat B <= 2 ^ 32)%Z).
    { apply (le_factor B (numel rest)). rewrite size_numel, numel_cons in HZ. exact HZ. }
    assert (D1 : ~ In idx [out; s; mo; mt; ms] /\ ~ In out [s; mo; mt; ms] /\ ~ In s [mo; mt; ms] /\ NoDup [out; mo; mt; ms]).
    { inversion_clear ND as [|? ? A1 ND1]. inversion_clear ND1 as [|? ? A2 ND2]. inversion_clear ND2 as [|? ? A3 ND3]. split; [|split; [|split]]; auto. constructor; auto. cbn [In] in *. tauto. }
    destruct D1 as (DI & DO & DS & ND4). cbn [In] in *.
    destruct (arange_ok idx B m HB RI) as (l1 & E1 & C1). unfold nllLossCuda. cbn [dshape length Nat.eqb negb]. rewrite E1. cbn [rbind].
    assert (KA : forall m1, has m1 idx [B] (fun j => Ix (Z.of_nat (nth 0 j 0))) -> same_but idx m m1 ->
       exists l, indexAdvanceCuda (mkD p (B :: C :: rest)) [mkD idx [B]; mkD q [B]] out = Ok (B :: rest, l) /\
         always l m1 (fun m2 => has m2 out (B :: rest) (fun o => El (pk T F o)) /\ same_but out m1 m2)).
    { intros m1 H1 S1. destruct (cuda_index_tensors_read_partial R (B :: C :: rest) [B] [fun j => Z.of_nat (nth 0 j 0); t] (fun j => [nth 0 j 0; T (nth 0 j 0)]) [idx; q] F p out m1) as (l & E & K).
      - apply nll_positions. exact HT.
      - repeat constructor; auto. apply (has_out [idx] m); [apply but_out; auto|ni|auto].
      - rewrite size_numel, numel_cons, numel_nil. lia.
      - apply (has_out [idx] m); [apply but_out; auto|ni|auto].
      - cbn [length skipn app]. apply (room_out [idx] m); [apply but_out; auto|ni|auto].
      - ni.
      - ni.
      - exists l. split; [exact E|]. eapply always_mono; [exact K|]. intros m2 [A1 A2]. split; auto. apply (has_eq _ _ _ _ _ A1). intros o V. inversion V as [|b d j' sh' Hb V']; subst. reflexivity. }
    assert (EA : exists l, indexAdvanceCuda (A := R) (mkD p (B :: C :: rest)) [mkD idx [B]; mkD q [B]] out = Ok (B :: rest, l)).
    { destruct (KA (fun a => if fst a =? idx then (if (snd a <? 0)%Z then None else match nth_error (map (fun j => Ix (Z.of_nat (nth 0 j 0))) (indices [B])) (Z.to_nat (snd a)) with Some x => Some (Some x) | None => None end) else m a)) as (l & E & _); eauto.
      - intros i. cbn [fst snd]. rewrite Nat.eqb_refl. reflexivity.
      - intros x i Hx. cbn [fst snd]. destruct (Nat.eqb_spec x idx); [contradiction|reflexivity]. }
    destruct EA as (l2 & E2). rewrite E2. cbn [rbind]. rewrite size_numel in HZ.
    assert (P : positive (B :: rest)) by (apply positive_of; lia).
    rewrite (by_scalar_is Rmult out (B :: rest) (-1) s P). cbn [rbind]. set (ls3 := [fillCuda s (-1)%R 1; _]).
    assert (KL : exists b ls, reduceLossCuda red (mkD out (B :: rest)) mo mt ms = Ok (mkD b (tshape (reduced_loss red (B :: rest) (fun _ => 0%R))), ls)) by (apply reduce_launches; auto; rewrite size_numel; lia).
    destruct KL as (b & ls4 & E4). rewrite E4. cbn [rbind]. exists b. eexists.
    assert (ET : tshape (reduced_loss red (B :: rest) (fun _ => 0%R)) = tshape L) by (destruct red; reflexivity). rewrite ET. split; [reflexivity|].
    assert (K3 : forall m2, has m2 out (B :: rest) (fun o => El (pk T F o)) -> same_out [idx; out] m m2 ->
      (b = out \/ b = mo) /\ always_all (map typed (ls3 ++ ls4)) m2 (fun m' => holds m' b (map El (tdata L)) /\ same_out [out; s; mo; mt; ms] m2 m')).
    { intros m2 H2 S2. apply els_has in H2.
      destruct (by_scalar_ok Rmult (els m2) out (B :: rest) _ (-1)%R s HZ ltac:(ni) H2) as (ls & E & K).
      { apply els_room. apply (room_out [idx; out] m); auto. ni. }
      rewrite by_scalar_is in E by auto. injection E as <-. fold ls3 in K.
      assert (K5 : forall m3, has m3 out (B :: rest) (fun o => pk T F o * -1)%R -> same_out [out; s] (els m2) m3 ->
        (b = out \/ b = mo) /\ always_all ls4 m3 (fun m4 => holds m4 b (tdata L) /\ same_out [mo; mt; ms] m3 m4)).
      { intros m3 H3 S3. assert (H3' : has m3 out (B :: rest) (term F)) by (apply (has_eq _ _ _ _ _ H3); intros o _; unfold term; ring).
        assert (SM : forall x, ~ In x [idx; out; s] -> forall n, room m x n -> room m3 x n).
        { intros x Hx n Hr. apply (room_out [out; s] (els m2)); auto; [cbn [In] in *; tauto|]. apply els_room. apply (room_out [idx; out] m); auto. cbn [In] in *. tauto. }
        assert (R1 : room m3 mo 1) by (apply SM; [clear - DI DO DS; ni|exact RMO]).
        assert (R2 : room m3 mt N) by (apply SM; [clear - DI DO DS; ni|exact RMT]).
        assert (R3 : room m3 ms 1) by (apply SM; [clear - DI DO DS; ni|exact RMS]).
        assert (P1 : 0 < size (B :: rest)) by (rewrite size_numel; clear - HZ; lia).
        rewrite EN in R2.
        destruct (reduce_ok red (B :: rest) (term F) m3 out mo mt ms P1 HL H3' R1 R2 R3 ND4) as (b' & ls' & E' & Hb & C').
        rewrite E' in E4. injection E4 as E4a _ E4b. rewrite <- E4a, <- E4b. split; [exact Hb|exact C']. }
      split.
      - apply (K5 (fun a => if fst a =? out then (if (snd a <? 0)%Z then None else match nth_error (map (fun o => pk T F o * -1)%R (indices (B :: rest))) (Z.to_nat (snd a)) with Some x => Some (Some x) | None => None end) else els m2 a)).
        + intros i. cbn [fst snd]. rewrite Nat.eqb_refl. reflexivity.
        + intros x Hx i. cbn [fst snd]. destruct (Nat.eqb_spec x out); [exfalso; apply Hx; cbn [In]; auto|reflexivity].
      - eapply always_all_mono; [|apply (typed_all (ls3 ++ ls4) m2 (fun m4 => holds m4 b (tdata L) /\ same_out [out; s; mo; mt; ms] (els m2) m4))].
        + intros m' ((A1 & A2) & A3). split; [apply els_holds; auto|]. apply els_same; auto.
        + apply always_all_app. eapply always_all_mono; [|exact K]. intros m3 (A1 & A2). destruct (K5 m3 A1 A2) as (_ & K6). eapply always_all_mono; [|exact K6]. intros m4 (A3 & A4). split; auto.
          apply (same_out_trans [out; s] [mo; mt; ms] _ _ _ A2 A4). }
    assert (KB : b = out \/ b = mo).
    { apply (K3 (fun a => if fst a =? out then (if (snd a <? 0)%Z then None else match nth_error (map (fun o => El (pk T F o)) (indices (B :: rest))) (Z.to_nat (snd a)) with Some x => Some (Some x) | None => None end) else m a)).
      - intros i. cbn [fst snd]. rewrite Nat.eqb_refl. reflexivity.
      - intros x Hx i. cbn [fst snd]. destruct (Nat.eqb_spec x out); [exfalso; apply Hx; cbn [In]; auto|reflexivity]. }
    split; [ni|]. cbn [always_all]. eapply always_mono; [exact C1|]. intros m1 (A1 & A2). destruct (KA m1 A1 A2) as (l & E & K). rewrite E2 in E. injection E as <-.
    eapply always_mono; [exact K|]. intros m2 (A3 & A4).
    assert (S2 : same_out [idx; out] m m2) by (apply (same_out_trans [idx] [out] m m1); apply but_out; auto).
    destruct (K3 m2 A3 S2) as (_ & K4). eapply always_all_mono; [|exact K4]. intros m3 (A5 & A6). split; auto.
    eapply same_out_incl; [|apply (same_out_trans _ _ _ _ _ S2 A6)]. intros x Hx. cbn [app In] in *. tauto.
  Qed.
End Nll.

Lemma nll_backward_cuda B C t T red (m : addr -> cell (word R)) g p q idx out v s : (forall b, b < B -> dim_is C (t [b]) (T b)) ->
  (0 < Z.of_nat (size [B; C]) <= 2 ^ 32)%Z -> has m q [B] (fun o => Ix (t o)) ->
  room m idx B -> room m out (size [B; C]) -> room m v 1 -> room m s 1 -> NoDup [idx; out; v; s] -> ~ In q [idx; out; v] ->
  exists ls, nllBackwardCuda g (mkD p [B; C]) (mkD q [B]) red idx out v s = Ok (mkD out [B; C], ls) /\
    always_all ls m (fun m' => has m' out [B; C] (fun o => El (if T (nth 0 o 0) =? nth 1 o 0 then match red with MEAN => - (1) / INR B | _ => - (1) end%R else 0%R)) /\ same_out [idx; out; v; s] m m').
Proof.
  intros HT HZ HG RI RO RV RS ND NQ. 
  assert (HN : numel [B; C] = B * C) by (rewrite !numel_cons, numel_nil; lia).
  assert (HB : (0 < Z.of_nat B <= 2 ^ 32)%Z).
  { apply (le_factor B C). rewrite size_numel, HN in HZ. exact HZ. }
  assert (D1 : ~ In idx [out; v; s] /\ ~ In out [v; s] /\ ~ In v [s]).
  { inversion_clear ND as [|? ? A1 ND1]. inversion_clear ND1 as [|? ? A2 ND2]. inversion_clear ND2 as [|? ? A3 ND3]. auto. }
  destruct D1 as (DI & DO & DS). cbn [In] in *.
  destruct (arange_ok idx B m HB RI) as (l1 & E1 & C1). unfold nllBackwardCuda. cbn [dshape length Nat.eqb negb]. rewrite E1. cbn [rbind]. rewrite <- size_numel.
  set (l2 := fillCuda out _ _). set (l3 := fillCuda v _ _).
  set (V0 := fun o : list nat => if T (nth 0 o 0) =? nth 1 o 0 then (- (1))%R else 0%R).
  assert (KP : forall m3, has m3 idx [B] (fun j => Ix (Z.of_nat (nth 0 j 0))) -> has m3 out [B; C] (fun _ => El 0%R) -> has m3 v [] (fun _ => El (-1)%R) -> has m3 q [B] (fun o => Ix (t o)) ->
    exists l, indexPutAdvanceCuda (mkD out [B; C]) [mkD idx [B]; mkD q [B]] (mkD v []) = Ok l /\
      always l m3 (fun m4 => has m4 out [B; C] (fun o => El (V0 o)) /\ same_but out m3 m4)).
  { intros m3 H1 H2 H3 H4.
    destruct (cuda_index_tensors_put_partial R [B; C] [B] [fun j => Z.of_nat (nth 0 j 0); t] (fun j => [nth 0 j 0; T (nth 0 j 0)]) [idx; q] (fun _ => 0%R) (fun _ => (-1)%R) out v [] m3) as (l & E & _ & K).
    - apply (nll_positions B C [] t T HT).
    - repeat constructor; auto.
    - rewrite size_numel, numel_cons, numel_nil. lia.
    - exact H2.
    - left. split; auto. intros e _. pose proof (H3 0%Z) as Q. exact Q.
    - ni.
    - ni.
    - exists l. split; [exact E|]. specialize (K ltac:(auto)). eapply always_mono; [exact K|]. intros m4 [A1 A2]. split; auto. apply (has_eq _ _ _ _ _ A1). intros o V. f_equal.
      inversion V as [|b ? r ? Hb V1]; subst. inversion V1 as [|c ? r' ? Hc V2]; subst. inversion V2; subst. unfold V0. cbn [nth].
      unfold after_writes. cbn [length skipn app].
      destruct (find _ _) as [e|] eqn:Ef.
      + apply find_some in Ef. destruct Ef as [F1 F2]. apply in_rev, indices_in in F1. apply same_idx_true in F2. inversion F1 as [|b' ? ? ? Hb' V3]; subst. inversion V3; subst.
        cbn in F2. injection F2 as <- <-. rewrite Nat.eqb_refl. auto.
      + destruct (Nat.eqb_spec (T b) c) as [Ec|]; auto. exfalso. subst c.
        assert (Q : In [b] (rev (indices [B]))) by (apply in_rev; rewrite rev_involutive; apply indices_in; repeat constructor; auto).
        apply (find_none _ _ Ef) in Q. cbv beta in Q. rewrite (proj2 (same_idx_true _ _)) in Q; [discriminate Q|]. reflexivity. }
  assert (KM : forall m1, has m1 idx [B] (fun j => Ix (Z.of_nat (nth 0 j 0))) -> same_but idx m m1 -> always_all [l2; l3] m1 (fun m3 =>
     has m3 idx [B] (fun j => Ix (Z.of_nat (nth 0 j 0))) /\ has m3 out [B; C] (fun _ => El 0%R) /\ has m3 v [] (fun _ => El (-1)%R) /\ has m3 q [B] (fun o => Ix (t o)) /\ same_out [out; v] m1 m3)).
  { intros m1 H1 S1. cbn [always_all]. eapply always_mono; [apply (cuda_fill_partial (word R) (El 0%R) [B; C] out m1); auto|].
    - apply (room_out [idx] m); [apply but_out; auto|ni|auto].
    - intros m2 [A1 A2]. eapply always_mono; [apply (cuda_fill_partial (word R) (El (-1)%R) [] v m2)|].
      + cbn. lia.
      + apply (room_out [out] m1); [apply but_out; auto|ni|]. apply (room_out [idx] m); [apply but_out; auto|ni|auto].
      + intros m3 [A3 A4]. assert (S3 : same_out [out; v] m1 m3) by (apply (same_out_trans [out] [v] m1 m2); apply but_out; auto). split; [|split; [|split; [|split]]]; auto.
        * apply (has_out _ m1 m3 _ _ _ S3); auto. ni.
        * apply (has_out [v] m2); [apply but_out; auto|ni|auto].
        * apply (has_out _ m1 m3 _ _ _ S3); [ni|]. apply (has_out [idx] m); [apply but_out; auto|ni|auto]. }
  assert (EP : exists l, indexPutAdvanceCuda (A := R) (mkD out [B; C]) [mkD idx [B]; mkD q [B]] (mkD v []) = Ok l).
  { destruct (KP (blank [(idx, map Some (map (fun j => Ix (Z.of_nat (nth 0 j 0))) (indices [B]))); (out, map Some (map (fun _ => El 0%R) (indices [B; C]))); (v, map Some (map (fun _ => El (-1)%R) (indices []))); (q, map Some (map (fun o => Ix (t o)) (indices [B])))])) as (l & E & _); eauto; apply blank_holds; cbn [find fst].
    - rewrite Nat.eqb_refl. auto.
    - destruct (Nat.eqb_spec idx out); [exfalso; ni; congruence|]. rewrite Nat.eqb_refl. auto.
    - destruct (Nat.eqb_spec idx v); [exfalso; ni; congruence|]. destruct (Nat.eqb_spec out v); [exfalso; ni; congruence|]. rewrite Nat.eqb_refl. auto.
    - destruct (Nat.eqb_spec idx q); [exfalso; ni; congruence|]. destruct (Nat.eqb_spec out q); [exfalso; ni; congruence|]. destruct (Nat.eqb_spec v q); [exfalso; ni; congruence|]. rewrite Nat.eqb_refl. auto. }
  destruct EP as (l4 & E4). rewrite E4. cbn [rbind].
  assert (K4 : always_all [l1; l2; l3; l4] m (fun m4 => has m4 out [B; C] (fun o => El (V0 o)) /\ same_out [idx; out; v] m m4)).
  { change [l1; l2; l3; l4] with ([l1] ++ [l2; l3] ++ [l4]). apply always_all_app. cbn [always_all]. eapply always_mono; [exact C1|]. intros m1 (A1 & A2). apply always_all_app.
    eapply always_all_mono; [|apply (KM m1 A1 A2)]. intros m3 (H1 & H2 & H3 & H4 & H5). destruct (KP m3 H1 H2 H3 H4) as (l & E & K). rewrite E4 in E. injection E as <-. cbn [always_all].
    eapply always_mono; [exact K|]. intros m4 (A3 & A4). split; auto. eapply same_out_incl; [|apply (same_out_trans [idx] ([out; v] ++ [out]) m m1 m4); [apply but_out; auto|apply (same_out_trans _ _ m1 m3 m4); auto; apply but_out; auto]].
    intros x Hx. cbn [app In] in *. tauto. }
  destruct red.
  - eexists. split; [reflexivity|]. eapply always_all_mono; [|exact K4]. intros m4 (A1 & A2). split; [exact A1|]. eapply same_out_incl; [|exact A2]. intros x Hx. cbn [app In] in *. tauto.
  - assert (P : positive [B; C]) by (apply positive_of; rewrite <- size_numel; lia). rewrite (by_scalar_is Rdiv out [B; C] (INR B) s P). cbn [rbind]. eexists. split; [reflexivity|].
    change (l1 :: l2 :: l3 :: l4 :: ?x) with ([l1; l2; l3; l4] ++ x). apply always_all_app. eapply always_all_mono; [|exact K4]. intros m4 (A1 & A2). apply els_has in A1.
    destruct (by_scalar_ok Rdiv (els m4) out [B; C] _ (INR B) s ltac:(rewrite <- size_numel; lia) ltac:(ni) A1) as (ls & E & K).
    { apply els_room. apply (room_out _ m m4 _ _ A2); auto. ni. }
    rewrite by_scalar_is in E by auto. injection E as <-. eapply always_all_mono; [|apply typed_all; exact K]. intros m' ((A3 & A4) & A5). split.
    + apply els_has. apply (has_eq _ _ _ _ _ A3). intros o V. unfold V0. destruct (_ =? _); auto. unfold Rdiv. ring.
    + eapply same_out_incl; [|apply (same_out_trans _ _ _ _ _ A2 (els_same _ _ _ A5 A4))]. intros x Hx. cbn [app In] in *. tauto.
  - eexists. split; [reflexivity|]. eapply always_all_mono; [|exact K4]. intros m4 (A1 & A2). split; [exact A1|]. eapply same_out_incl; [|exact A2]. intros x Hx. cbn [app In] in *. tauto.
Qed.
