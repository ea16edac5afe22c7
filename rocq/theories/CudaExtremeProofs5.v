(* Extremes over one dimension, whichever way, and over all elements. *)
From Coq Require Import List Arith ZArith Bool Lia Permutation.
From Verif Require Import ShapeModel ShapeSpec ShapeProofs TensorModel TensorSpec TensorLemmas BcastModel BufModel BufProofs CutSpec ReduceModel ReduceSpec ReduceProofs2
  GpuModel GpuSpec GpuProofs GpuLemmas GpuWarp GpuOrder
  CudaModel CudaSpec CudaProofs CudaItems CudaFillModel CudaFillProofs CudaFillProps CudaMoveModel CudaTile CudaReduceModel CudaReduceSpec CudaReduceProofs CudaReduceProofs2 CudaReduceProofs3 CudaReduceProofs4
  CudaExtremeModel CudaExtremeSpec CudaExtremeProofs CudaExtremeProofs2 CudaExtremeProofs3 CudaExtremeProofs4.
Import ListNotations.

(* from cells to tensors *)
Lemma has_cells : forall {V} (m m' : addr -> cell V) out sh (f : nat -> V), room m out (numel sh) ->
  (forall i, i < numel sh -> m' (out, Z.of_nat i) = Some (Some (f i))) -> (forall i, ~ (0 <= i < Z.of_nat (numel sh))%Z -> m' (out, i) = m (out, i)) ->
  has m' out sh (fun idx => f (ravel sh idx)).
Proof.
  intros V m m' out sh f HR A B. unfold has. rewrite <- map_seq_indices. intros i. destruct (Z.ltb_spec i 0).
  - rewrite B by lia. apply HR. lia.
  - destruct (Z.ltb_spec i (Z.of_nat (numel sh))) as [L|L].
    + rewrite nth_error_map, (nth_error_nth' _ 0) by (rewrite seq_length; lia). cbn [option_map]. rewrite seq_nth by lia. cbn [Nat.add].
      rewrite <- (Z2Nat.id i) at 1 by lia. rewrite A by lia. rewrite ravel_o2i by lia. reflexivity.
    + rewrite B by lia. replace (nth_error _ (Z.to_nat i)) with (@None V); [apply HR; lia|]. symmetry. apply nth_error_None. rewrite map_length, seq_length. lia.
Qed.

Section All.
Context {A : Type} (lt : A -> A -> bool) (e : A).
Hypothesis TO : total_order lt.

Theorem max_dim : forall pre n post (F : list nat -> A) m p dim keep outV outI tmpV tmpI tr,
  let sh := pre ++ n :: post in let rest := numel (pre ++ post) in let ksh := pre ++ (if keep : bool then [1] else []) ++ post in
  let rows := (match pre with [] => true | _ => false end || match post with [] => true | _ => false end) && (512 <=? n) in
  axis (length sh) dim = Some (length pre) ->
  (0 < Z.of_nat (numel sh) <= 2 ^ 32)%Z -> (rows = true -> (n = 512 /\ (Z.of_nat rest * 512 < 2 ^ 32)%Z) \/ (rest = 1 /\ n <= 512 * 512)) ->
  has m p sh (fun idx => El (F idx)) -> room m outV rest -> room m outI rest ->
  room m tmpV (rest * ((n + 511) / 512)) -> room m tmpI (rest * ((n + 511) / 512)) -> room m tr (n * rest) ->
  NoDup [p; outV; outI; tmpV; tmpI; tr] ->
  exists ls Y, reduceIdxDimCuda lt e (mkD p sh) dim keep outV outI tmpV tmpI tr = Ok (ksh, ls) /\
    (forall ridx, valid ksh ridx -> (if rows then pickl lt e else lastl lt e) (line F keep (length pre) n ridx) (Y ridx)) /\
    always_all ls m (fun m' => has m' outV ksh (fun ridx => El (fst (Y ridx))) /\ has m' outI ksh (fun ridx => Ix (snd (Y ridx))) /\
      forall q, ~ In q [outV; outI; tmpV; tmpI; tr] -> forall i, m' (q, i) = m (q, i)).
Proof.
  intros pre n post F m p dim keep outV outI tmpV tmpI tr sh rest ksh rows Hd HZ HO HF HV HI HTV HTI HTR ND.
  assert (ND' : forall i j, i < 6 -> j < 6 -> nth i [p; outV; outI; tmpV; tmpI; tr] 0 = nth j [p; outV; outI; tmpV; tmpI; tr] 0 -> i = j) by (intros i j; apply (proj1 (NoDup_nth _ 0) ND)).
  assert (N1 : outV <> p) by (intros X; specialize (ND' 1 0 ltac:(lia) ltac:(lia) X); lia). assert (N2 : outI <> p) by (intros X; specialize (ND' 2 0 ltac:(lia) ltac:(lia) X); lia).
  assert (N3 : outV <> outI) by (intros X; specialize (ND' 1 2 ltac:(lia) ltac:(lia) X); lia).
  assert (N4 : ~ In outV [tmpV; tmpI; tr]) by (inversion ND as [|? ? _ ND1]; subst; inversion ND1 as [|? ? D _]; subst; cbn [In] in *; tauto).
  assert (N5 : ~ In outI [tmpV; tmpI; tr]) by (inversion ND as [|? ? _ ND1]; subst; inversion ND1 as [|? ? _ ND2]; subst; inversion ND2 as [|? ? D _]; subst; cbn [In] in *; tauto).
  pose proof (sizes pre n post (proj1 HZ)) as SZ. fold sh rest in SZ.
  assert (EK : numel ksh = rest) by (unfold ksh, rest; destruct keep; rewrite !numel_app, ?numel_cons, numel_nil; lia).
  assert (LK : forall ridx, valid ksh ridx -> line F keep (length pre) n ridx = line F false (length pre) n (offsetToIndices (pre ++ post) (ravel ksh ridx))).
  { intros ridx Hv. pose proof (ravel_lt ksh ridx Hv) as L. rewrite EK in L. rewrite <- (o2i_ravel ksh ridx Hv) at 1. unfold ksh in *. destruct keep; [apply (line_same F pre n post), L|reflexivity]. }
  assert (FIN : forall ls Y, (forall i, i < rest -> (if rows then pickl lt e else lastl lt e) (line F false (length pre) n (offsetToIndices (pre ++ post) i)) (Y i)) ->
      always_all ls m (leaves m outV outI [tmpV; tmpI; tr] rest Y) ->
      exists Y', (forall ridx, valid ksh ridx -> (if rows then pickl lt e else lastl lt e) (line F keep (length pre) n ridx) (Y' ridx)) /\
      always_all ls m (fun m' => has m' outV ksh (fun ridx => El (fst (Y' ridx))) /\ has m' outI ksh (fun ridx => Ix (snd (Y' ridx))) /\
        forall q, ~ In q [outV; outI; tmpV; tmpI; tr] -> forall i, m' (q, i) = m (q, i))).
  { intros ls Y HP HA. exists (fun ridx => Y (ravel ksh ridx)). split.
    - intros ridx Hv. rewrite LK by exact Hv. apply HP. rewrite <- EK. apply ravel_lt, Hv.
    - revert HA. apply always_all_mono. intros m' [B1 B2]. split; [|split].
      + apply (has_cells m m' outV ksh (fun i => El (fst (Y i)))); rewrite ?EK; [exact HV|intros i Hi; apply B1, Hi|]. intros i Hi. apply B2; [exact N4|intros _; exact Hi].
      + apply (has_cells m m' outI ksh (fun i => Ix (snd (Y i)))); rewrite ?EK; [exact HI|intros i Hi; apply B1, Hi|]. intros i Hi. apply B2; [exact N5|intros _; exact Hi].
      + intros q Hq i. cbn [In] in Hq. apply B2; [cbn [In]; tauto|]. intros [->| ->]; tauto. }
  unfold reduceIdxDimCuda. cbn [dshape dbuf]. rewrite Hd. cbv zeta.
  assert (E0 : reduceShape1 sh (length pre) false = pre ++ post) by apply shape1_mid.
  assert (E1 : reduceShape1 sh (length pre) keep = ksh) by apply shape1_mid.
  assert (E2 : nth (length pre) sh 0 = n) by apply nth_mid. rewrite E0, E1, E2. fold rest.
  assert (BL : Z.of_nat blockSize = 512%Z) by reflexivity. rewrite BL.
  assert (SM : (Z.of_nat n <? 512)%Z = negb (512 <=? n)) by (destruct (Z.ltb_spec (Z.of_nat n) 512), (Nat.leb_spec 512 n); try reflexivity; lia). rewrite SM.
  destruct (Nat.eqb_spec (length pre) 0) as [L0|L0].
  - assert (pre = []) by (destruct pre; [reflexivity|discriminate]). subst pre. cbn [app length orb andb] in *. unfold rows in *.
    destruct (512 <=? n) eqn:S; cbn [negb andb] in *.
    + destruct (first_rows2 lt e TO n post F m outV outI p tmpV tmpI tr) as (ls & Y & E & HP & C); try assumption; [unfold rest in HO; apply Nat.leb_le in S; specialize (HO eq_refl); lia|].
      fold rest in E. rewrite E. destruct (FIN ls Y HP C) as (Y' & F1 & F2). exists ls, Y'. auto.
    + destruct (FIN _ _ (fun i _ => y_last lt e TO [] n post F i) (scan_end2 lt e TO [] n post F m outV outI p HZ HF HV HI N1 N2 N3 true ltac:(auto) ltac:(discriminate) _)) as (Y' & F1 & F2).
      eexists. exists Y'. split; [reflexivity|]. auto.
  - assert (EP : (match pre with [] => true | _ => false end) = false) by (destruct pre; [destruct (L0 eq_refl)|reflexivity]).
    unfold rows in *. rewrite EP in *. cbn [orb] in *.
    destruct (Nat.eqb_spec (length pre) (length sh - 1)) as [L1|L1].
    + assert (post = []) by (unfold sh in L1; rewrite app_length in L1; cbn [length] in L1; destruct post; [reflexivity|cbn [length] in L1; lia]). subst post. cbn [andb] in *.
      destruct (512 <=? n) eqn:S; cbn [negb andb] in *.
      * assert (ND5 : NoDup [p; outV; outI; tmpV; tmpI]).
        { change [p; outV; outI; tmpV; tmpI; tr] with ([p; outV; outI; tmpV; tmpI] ++ [tr]) in ND. apply NoDup_remove_1 in ND. rewrite app_nil_r in ND. exact ND. }
        destruct (last_rows2 lt e TO pre n F outV outI p tmpV tmpI) as (ls & Y & E & HP & C); try assumption; [fold rest; apply Nat.leb_le in S; specialize (HO eq_refl); lia|].
        fold rest in E. rewrite E. specialize (C m HF HV HI HTV HTI). destruct (FIN ls Y HP) as (Y' & F1 & F2).
        { revert C. apply always_all_mono. intros m' [B1 B2]. split; [exact B1|]. intros q i Q. apply B2. cbn [In] in *. tauto. }
        exists ls, Y'. auto.
      * destruct (FIN _ _ (fun i _ => y_last lt e TO pre n [] F i) (scan_end2 lt e TO pre n [] F m outV outI p HZ HF HV HI N1 N2 N3 false ltac:(discriminate) ltac:(auto) _)) as (Y' & F1 & F2).
        eexists. exists Y'. split; [reflexivity|]. auto.
    + assert (EQ : (match post with [] => true | _ => false end) = false).
      { destruct post; [|reflexivity]. exfalso. apply L1. unfold sh. rewrite app_length. cbn [length]. lia. }
      rewrite EQ in *. cbn [andb] in *.
      destruct (FIN _ _ (fun i _ => y_last lt e TO pre n post F i) (scan_mid2 lt e TO pre n post F m outV outI p HZ HF HV HI N1 N2 N3 _)) as (Y' & F1 & F2).
      eexists. exists Y'. split; [reflexivity|]. auto.
Qed.

(* all elements, with the index *)
Theorem argmax_all : forall sh (F : list nat -> A) p out tmpV tmpI, sh <> [] ->
  0 < numel sh <= 512 * 512 -> NoDup [p; out; tmpV; tmpI] ->
  exists ls r, argmaxCuda lt e (mkD p sh) out tmpV tmpI = Ok ([], ls) /\ pickl lt e (map F (indices sh)) r /\
    forall m, has m p sh (fun idx => El (F idx)) -> room m out 1 -> room m tmpV ((numel sh + 511) / 512) -> room m tmpI ((numel sh + 511) / 512) ->
      always_all ls m (fun m' => has m' out [] (fun _ => Ix (snd r)) /\ forall q, ~ In q [out; tmpV; tmpI] -> forall i, m' (q, i) = m (q, i)).
Proof.
  intros sh F p out tmpV tmpI HS HZ ND.
  assert (ND' : forall i j, i < 4 -> j < 4 -> nth i [p; out; tmpV; tmpI] 0 = nth j [p; out; tmpV; tmpI] 0 -> i = j) by (intros i j; apply (proj1 (NoDup_nth _ 0) ND)).
  assert (N1 : out <> p) by (intros X; specialize (ND' 1 0 ltac:(lia) ltac:(lia) X); lia). assert (N2 : tmpV <> tmpI) by (intros X; specialize (ND' 2 3 ltac:(lia) ltac:(lia) X); lia).
  assert (N3 : p <> tmpV) by (intros X; specialize (ND' 0 2 ltac:(lia) ltac:(lia) X); lia). assert (N4 : p <> tmpI) by (intros X; specialize (ND' 0 3 ltac:(lia) ltac:(lia) X); lia).
  assert (N5 : out <> tmpV) by (intros X; specialize (ND' 1 2 ltac:(lia) ltac:(lia) X); lia). assert (N6 : out <> tmpI) by (intros X; specialize (ND' 1 3 ltac:(lia) ltac:(lia) X); lia).
  destruct (merge_list2 lt e TO indexAll2 None (Some out) p tmpV tmpI (numel sh) (fun i => F (offsetToIndices sh i)) HZ N2 N3 N4) as (ls & r & E & HP & C).
  - intros q X. discriminate.
  - intros q X. injection X as <-. auto.
  - exact index_all2.
  - exists (fillCuda out (Ix 0%Z) 1 :: ls), r. split; [|split].
    + unfold argmaxCuda. cbn [dshape dbuf]. destruct sh; [congruence|]. rewrite E. reflexivity.
    + rewrite <- map_seq_indices. apply (pick_pickl lt e TO), HP.
    + intros m HF HO HTV HTI. eapply always_all_cons.
      * apply (cuda_fill_partial (word A) (Ix 0%Z) [] out m); [cbn; lia|]. exact HO.
      * intros m1 [B1 B2]. assert (R1 : room m1 out 1) by exact (has_room _ m1 out [] _ B1).
        assert (G : always_all ls m1 (merged2 m1 None (Some out) tmpV tmpI 1 (fun _ => r))).
        { apply C.
          - intros i Hi. rewrite B2 by congruence. rewrite (has_ix _ m p sh _ _ HF) by lia. rewrite Nat2Z.id. reflexivity.
          - intros i Hi. rewrite !B2 by congruence. split; [apply (room_at _ m tmpV _ _ HTV)|apply (room_at _ m tmpI _ _ HTI)]; lia.
          - intros q [X|X]; [discriminate|]. injection X as <-. apply (room_at _ m1 out _ _ R1). lia. }
        revert G. apply always_all_mono. intros m' (_ & D2 & D3). split.
        -- apply (has_cells m1 m' out [] (fun _ => Ix (snd r))); rewrite ?numel_nil; [exact R1|intros i Hi; apply (D2 out i eq_refl Hi)|]. intros i Hi. apply D3; auto.
        -- intros q Hq i. cbn [In] in Hq. rewrite D3; [apply B2; intros ->; tauto|intros ->; tauto|intros ->; tauto|]. intros [X|X]; [discriminate|]. injection X as ->. tauto.
Qed.
End All.
