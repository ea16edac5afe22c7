(* C75: minima and maxima of CUDA tensors. *)
From Coq Require Import List Arith ZArith Bool Lia.
From Verif Require Import ShapeModel ShapeSpec ShapeProofs TensorModel TensorSpec TensorLemmas BufModel BufProofs
  BcastModel CutSpec ReduceModel ReduceSpec ReduceProofs2
  GpuModel GpuSpec GpuProofs GpuLemmas CudaModel CudaSpec CudaProofs CudaFillModel CudaFillProofs CudaFillProps CudaMoveModel
  CudaReduceModel CudaReduceSpec CudaReduceProofs2 CudaReduceProofs3 CudaReduceRaces CudaReduceProps CudaMeanProofs
  CudaExtremeModel CudaExtremeSpec CudaExtremeProofs CudaExtremeProofs2 CudaExtremeProofs3 CudaExtremeProofs4 CudaExtremeProofs5.
Import ListNotations.
Local Open Scope nat_scope.

(* ---- the value, over all elements ---- *)

Lemma fold_max : forall A (lt : A -> A -> bool) (e : A) l, total_order lt ->
  (fold_right (maxOf lt) e l = e \/ In (fold_right (maxOf lt) e l) l) /\ lt (fold_right (maxOf lt) e l) e = false /\ (forall x, In x l -> lt (fold_right (maxOf lt) e l) x = false).
Proof.
  intros A lt e l TO. induction l as [|a l (H1 & H2 & H3)]; cbn [fold_right].
  - split; [auto|]. split; [apply (lt_irr lt TO)|intros x []].
  - split; [|split].
    + destruct (max_one lt a (fold_right (maxOf lt) e l)) as [->| ->]; [right; left; reflexivity|]. destruct H1 as [H1|H1]; [left; exact H1|right; right; exact H1].
    + apply (le_trans lt TO _ (fold_right (maxOf lt) e l)); [exact H2|apply (max_r lt TO)].
    + intros x [<-|Hx]; [apply (max_l lt TO)|]. apply (le_trans lt TO _ (fold_right (maxOf lt) e l)); [apply H3, Hx|apply (max_r lt TO)].
Qed.

(* Whatever the schedules, the greatest of at most 512 * 512 elements, unless
   they are all below lowest, the least finite number. *)
Theorem cuda_max_all_partial : forall A (lt : A -> A -> bool) lowest sh (F : list nat -> A) m p out tmp,
  total_order lt -> sh <> [] -> 0 < size sh <= 512 * 512 -> tmp <> p -> out <> tmp ->
  has m p sh F -> room m tmp ((size sh + 511) / 512) -> room m out (size []) ->
  (exists idx, valid sh idx /\ lt (F idx) lowest = false) ->
  exists ls idx, maxAllCuda lt lowest (mkD p sh) out tmp = Ok ([], Some ls) /\
    valid sh idx /\ (forall idx', valid sh idx' -> lt (F idx) (F idx') = false) /\
    computes_all ls m out [tmp] [] (fun _ => F idx).
Proof.
  intros A lt lowest sh F m p out tmp TO HS HZ N1 N2 HF HT HO (i0 & V0 & L0). rewrite size_numel in *.
  destruct (reduce_all (maxOf lt) lowest (max_comm lt TO) (max_assoc lt TO) (max_same lt lowest) m p sh F out tmp HS HZ N1 N2 HF HT HO) as (ls & E & C).
  destruct (fold_max A lt lowest (map F (indices sh)) TO) as (H1 & H2 & H3).
  assert (IN : In (fold_right (maxOf lt) lowest (map F (indices sh))) (map F (indices sh))).
  { destruct H1 as [H1|H1]; [|exact H1]. rewrite H1 in *. replace lowest with (F i0); [apply in_map, indices_in, V0|].
    apply (le_anti lt TO); [apply H3, in_map, indices_in, V0|exact L0]. }
  apply in_map_iff in IN as (idx & Ei & Hi). apply indices_in in Hi. exists ls, idx. split; [exact E|]. split; [exact Hi|]. rewrite Ei. split; [|exact C].
  intros idx' V. apply H3, in_map, indices_in, V.
Qed.

Theorem cuda_min_all_partial : forall A (lt : A -> A -> bool) highest sh (F : list nat -> A) m p out tmp,
  total_order lt -> sh <> [] -> 0 < size sh <= 512 * 512 -> tmp <> p -> out <> tmp ->
  has m p sh F -> room m tmp ((size sh + 511) / 512) -> room m out (size []) ->
  (exists idx, valid sh idx /\ lt highest (F idx) = false) ->
  exists ls idx, minAllCuda lt highest (mkD p sh) out tmp = Ok ([], Some ls) /\
    valid sh idx /\ (forall idx', valid sh idx' -> lt (F idx') (F idx) = false) /\
    computes_all ls m out [tmp] [] (fun _ => F idx).
Proof. intros A lt highest sh F m p out tmp TO. apply (cuda_max_all_partial A (flip lt) highest sh F m p out tmp (flip_total lt TO)). Qed.

(* The extreme of a scalar is the scalar itself. *)
Theorem cuda_extreme_scalar : forall A (lt : A -> A -> bool) e p out tmp,
  maxAllCuda lt e (mkD p []) out tmp = Ok ([], None) /\ minAllCuda lt e (mkD p []) out tmp = Ok ([], None).
Proof. intros. split; reflexivity. Qed.

(* Elements that are all below lowest (minus infinity): the result is lowest,
   which is none of them. *)
Theorem cuda_max_below_refuted : forall A (lt : A -> A -> bool) lowest sh (F : list nat -> A) m p out tmp,
  total_order lt -> sh <> [] -> 0 < size sh <= 512 * 512 -> tmp <> p -> out <> tmp ->
  has m p sh F -> room m tmp ((size sh + 511) / 512) -> room m out (size []) ->
  (forall idx, valid sh idx -> lt (F idx) lowest = true) ->
  (exists ls, maxAllCuda lt lowest (mkD p sh) out tmp = Ok ([], Some ls) /\ computes_all ls m out [tmp] [] (fun _ => lowest)) /\
  forall idx, valid sh idx -> F idx <> lowest.
Proof.
  intros A lt lowest sh F m p out tmp TO HS HZ N1 N2 HF HT HO HL. rewrite size_numel in *. split.
  - destruct (reduce_all (maxOf lt) lowest (max_comm lt TO) (max_assoc lt TO) (max_same lt lowest) m p sh F out tmp HS HZ N1 N2 HF HT HO) as (ls & E & C).
    exists ls. split; [exact E|]. destruct (fold_max A lt lowest (map F (indices sh)) TO) as (H1 & H2 & H3).
    assert (X : fold_right (maxOf lt) lowest (map F (indices sh)) = lowest); [|rewrite X in C; exact C].
    destruct H1 as [H1|H1]; [exact H1|]. apply in_map_iff in H1 as (idx & Ei & Hi). apply indices_in in Hi. rewrite <- Ei in H2. rewrite (HL idx Hi) in H2. discriminate.
  - intros idx V X. pose proof (HL idx V) as L. rewrite X, (lt_irr lt TO) in L. discriminate.
Qed.

(* More than 512 * 512 elements: all 0 but for the second 512, which are 1; with
   some schedule the maximum is 0. *)
Theorem cuda_max_all_large_refuted : forall m p out tmp,
  let n := Z.to_nat 262145 in
  let F := fun idx => if nth 0 idx 0 / 512 =? 1 then 1%Z else 0%Z in
  tmp <> p -> out <> tmp -> has m p [n] F -> room m tmp ((n + 511) / 512) -> room m out 1 ->
  F [512] = 1%Z /\ valid [n] [512] /\
  exists ls, maxAllCuda Z.ltb 0%Z (mkD p [n]) out tmp = Ok ([], Some ls) /\
    sometimes_all ls m (fun m' => m' (out, 0%Z) = Some (Some 0%Z)).
Proof.
  assert (Hn : Z.of_nat (Z.to_nat 262145) = 262145%Z) by (apply Z2Nat.id; discriminate).
  intros m p out tmp n F N1 N2 HF HT HO. fold n in Hn. clearbody n. split; [reflexivity|]. split; [repeat constructor; lia|].
  assert (TO : total_order Z.ltb) by (split; [intros x; apply Z.ltb_irrefl|split; [intros x y z H1 H2; apply Z.ltb_lt in H1, H2; apply Z.ltb_lt; lia|intros x y H1 H2; apply Z.ltb_ge in H1, H2; lia]]).
  set (x := fun i => if i / 512 =? 1 then 1%Z else 0%Z).
  assert (Z0 : forall A (f : A -> Z) l, (forall t, In t l -> f t = 0%Z) -> fold_right (maxOf Z.ltb) 0%Z (map f l) = 0%Z).
  { intros A f l. induction l as [|a l IH]; intros H; [reflexivity|]. cbn [map fold_right]. rewrite IH by (intros; apply H; right; assumption). rewrite (H a) by (left; reflexivity). reflexivity. }
  assert (CB : forall b, b <> 1 -> chunk (maxOf Z.ltb) 0%Z x n b = 0%Z).
  { intros b Hb. unfold chunk. apply Z0. intros t Ht. apply in_seq in Ht. destruct (b * 512 + t <? n)%nat; [|reflexivity]. unfold x.
    replace ((b * 512 + t) / 512) with b; [destruct (Nat.eqb_spec b 1); [contradiction|reflexivity]|]. rewrite Nat.add_comm, Nat.div_add, Nat.div_small by lia. reflexivity. }
  assert (CZ : chunk (maxOf Z.ltb) 0%Z (chunk (maxOf Z.ltb) 0%Z x n) ((n + 511) / 512) 1 = 0%Z).
  { unfold chunk at 1. apply Z0. intros t Ht. apply in_seq in Ht. destruct (1 * 512 + t <? (n + 511) / 512)%nat; [|reflexivity]. apply CB. lia. }
  destruct (list_race (maxOf Z.ltb) 0%Z (max_comm Z.ltb TO) (max_assoc Z.ltb TO) (max_same Z.ltb 0%Z) m out p tmp n x ltac:(lia) ltac:(lia) N1 N2) as (ls & E & C).
  - intros i Hi. rewrite (has_ix Z m p [n] _ _ HF) by (rewrite numel_cons, numel_nil; lia). rewrite Nat2Z.id. unfold F, x.
    replace (nth 0 (offsetToIndices [n] i) 0) with i; [reflexivity|]. replace (offsetToIndices [n] i) with [i]; [reflexivity|].
    rewrite <- (o2i_ravel [n] [i]) by (repeat constructor; exact Hi). f_equal. rewrite ravel_cons, ravel_nil, numel_nil. lia.
  - intros i Hi. apply (room_at Z m tmp _ _ HT). lia.
  - apply (room_at Z m out _ _ HO). lia.
  - exists ls. split.
    + unfold maxAllCuda, reduceAllCuda. cbn [dshape dbuf]. rewrite numel_cons, numel_nil, Nat.mul_1_r, E. reflexivity.
    + cbv zeta in C. rewrite CZ in C. rewrite Z0 in C; [exact C|]. intros b _. destruct (Nat.eqb_spec b 1); [reflexivity|apply CB; assumption].
Qed.

(* An empty tensor: the first launch is refused. *)
Theorem cuda_max_empty_refuted : forall A (lt : A -> A -> bool) e p sh out tmp, sh <> [] -> size sh = 0 ->
  exists l ls, maxAllCuda lt e (mkD p sh) out tmp = Ok ([], Some (l :: ls)) /\ ~ accepted l.
Proof.
  intros A lt e p sh out tmp HS H0. rewrite size_numel in H0. unfold maxAllCuda, reduceAllCuda. cbn [dshape dbuf].
  destruct sh as [|d sh]; [contradiction|]. rewrite H0. do 2 eexists. split; [reflexivity|]. intros [X _]. cbn in X. lia.
Qed.

(* ---- the index, over all elements ---- *)

(* Whatever the schedules, the index of an element that is the greatest, if some
   element is above lowest. *)
Theorem cuda_argmax_partial : forall A (lt : A -> A -> bool) lowest sh (F : list nat -> A) m p out tmpV tmpI,
  total_order lt -> sh <> [] -> 0 < size sh <= 512 * 512 -> NoDup [p; out; tmpV; tmpI] ->
  has m p sh (fun idx => El (F idx)) -> room m tmpV ((size sh + 511) / 512) -> room m tmpI ((size sh + 511) / 512) -> room m out (size []) ->
  (exists idx, valid sh idx /\ lt lowest (F idx) = true) ->
  exists ls idx, argmaxCuda lt lowest (mkD p sh) out tmpV tmpI = Ok ([], ls) /\
    valid sh idx /\ (forall idx', valid sh idx' -> lt (F idx) (F idx') = false) /\
    computes_all ls m out [tmpV; tmpI] [] (fun _ => Ix (Z.of_nat (ravel sh idx))).
Proof.
  intros A lt lowest sh F m p out tmpV tmpI TO HS HZ ND HF HTV HTI HO (i0 & V0 & L0). rewrite size_numel in *.
  destruct (argmax_all lt lowest TO sh F p out tmpV tmpI HS HZ ND) as (ls & r & E & HP & C). specialize (C m HF HO HTV HTI).
  destruct HP as [(v & i & -> & [H1 H2] & _)|[_ H2]]; [|rewrite (H2 (F i0)) in L0; [discriminate|apply in_map, indices_in, V0]].
  rewrite <- map_seq_indices in H1. apply nth_error_map_seq in H1 as [Hi ->]. exists ls, (offsetToIndices sh i). split; [exact E|]. split; [apply o2i_valid, Hi|]. split.
  - intros idx' V. apply (H2 (ravel sh idx')). rewrite <- map_seq_indices. apply nth_error_map_seq. split; [apply ravel_lt, V|]. rewrite o2i_ravel by exact V. reflexivity.
  - unfold computes_all. revert C. apply always_all_mono. intros m' [B1 B2]. rewrite ravel_o2i by exact Hi. split; [exact B1|]. intros q Q1 Q2. apply B2. cbn [In] in *. intuition.
Qed.

Theorem cuda_argmin_partial : forall A (lt : A -> A -> bool) highest sh (F : list nat -> A) m p out tmpV tmpI,
  total_order lt -> sh <> [] -> 0 < size sh <= 512 * 512 -> NoDup [p; out; tmpV; tmpI] ->
  has m p sh (fun idx => El (F idx)) -> room m tmpV ((size sh + 511) / 512) -> room m tmpI ((size sh + 511) / 512) -> room m out (size []) ->
  (exists idx, valid sh idx /\ lt (F idx) highest = true) ->
  exists ls idx, argminCuda lt highest (mkD p sh) out tmpV tmpI = Ok ([], ls) /\
    valid sh idx /\ (forall idx', valid sh idx' -> lt (F idx') (F idx) = false) /\
    computes_all ls m out [tmpV; tmpI] [] (fun _ => Ix (Z.of_nat (ravel sh idx))).
Proof. intros A lt highest sh F m p out tmpV tmpI TO. apply (cuda_argmax_partial A (flip lt) highest sh F m p out tmpV tmpI (flip_total lt TO)). Qed.

Theorem cuda_argmax_scalar : forall A (lt : A -> A -> bool) e p out tmpV tmpI (m : addr -> cell (word A)), room m out (size []) ->
  exists ls, argmaxCuda lt e (mkD p []) out tmpV tmpI = Ok ([], ls) /\ argminCuda lt e (mkD p []) out tmpV tmpI = Ok ([], ls) /\
    computes_all ls m out [] [] (fun _ => Ix 0%Z).
Proof.
  intros A lt e p out tmpV tmpI m HO. eexists. split; [reflexivity|]. split; [reflexivity|]. unfold computes_all. cbn [always_all]. eapply always_mono.
  - apply (cuda_fill_partial (word A) (Ix 0%Z) [] out m); [cbn; lia|exact HO].
  - intros m' [B1 B2]. split; [exact B1|]. intros q Q _ i. apply B2, Q.
Qed.

(* No element above lowest, for instance all equal to it: the index is -1. *)
Theorem cuda_argmax_lowest_refuted : forall A (lt : A -> A -> bool) lowest sh (F : list nat -> A) m p out tmpV tmpI,
  total_order lt -> sh <> [] -> 0 < size sh <= 512 * 512 -> NoDup [p; out; tmpV; tmpI] ->
  has m p sh (fun idx => El (F idx)) -> room m tmpV ((size sh + 511) / 512) -> room m tmpI ((size sh + 511) / 512) -> room m out (size []) ->
  (forall idx, valid sh idx -> lt lowest (F idx) = false) ->
  exists ls, argmaxCuda lt lowest (mkD p sh) out tmpV tmpI = Ok ([], ls) /\ computes_all ls m out [tmpV; tmpI] [] (fun _ => Ix (-1)%Z).
Proof.
  intros A lt lowest sh F m p out tmpV tmpI TO HS HZ ND HF HTV HTI HO HL. rewrite size_numel in *.
  destruct (argmax_all lt lowest TO sh F p out tmpV tmpI HS HZ ND) as (ls & r & E & HP & C).
  assert (r = (lowest, (-1)%Z)) as ->.
  { destruct HP as [(v & i & _ & [H1 _] & H3)|[-> _]]; [|reflexivity]. apply nth_error_In, in_map_iff in H1 as (idx & <- & Hi). apply indices_in in Hi. rewrite (HL idx Hi) in H3. discriminate. }
  exists ls. split; [exact E|]. specialize (C m HF HO HTV HTI). unfold computes_all. revert C. apply always_all_mono. intros m' [B1 B2]. split; [exact B1|].
  intros q Q1 Q2. apply B2. cbn [In] in *. intuition.
Qed.

(* Two elements, both 7: the index is 1, not 0, the first where 7 occurs. *)
Theorem cuda_argmax_tie_refuted : forall m p out tmpV tmpI, NoDup [p; out; tmpV; tmpI] ->
  has m p [2] (fun _ => El 7%Z) -> room m tmpV 1 -> room m tmpI 1 -> room m out 1 ->
  exists ls, argmaxCuda Z.ltb 0%Z (mkD p [2]) out tmpV tmpI = Ok ([], ls) /\ computes_all ls m out [tmpV; tmpI] [] (fun _ => Ix 1%Z).
Proof.
  intros m p out tmpV tmpI ND HF HTV HTI HO.
  assert (ND' : forall i j, i < 4 -> j < 4 -> nth i [p; out; tmpV; tmpI] 0 = nth j [p; out; tmpV; tmpI] 0 -> i = j) by (intros i j; apply (proj1 (NoDup_nth _ 0) ND)).
  assert (N1 : out <> p) by (intros X; specialize (ND' 1 0 ltac:(lia) ltac:(lia) X); lia). assert (N2 : tmpV <> tmpI) by (intros X; specialize (ND' 2 3 ltac:(lia) ltac:(lia) X); lia).
  assert (N3 : p <> tmpV) by (intros X; specialize (ND' 0 2 ltac:(lia) ltac:(lia) X); lia). assert (N4 : p <> tmpI) by (intros X; specialize (ND' 0 3 ltac:(lia) ltac:(lia) X); lia).
  assert (N5 : out <> tmpV) by (intros X; specialize (ND' 1 2 ltac:(lia) ltac:(lia) X); lia). assert (N6 : out <> tmpI) by (intros X; specialize (ND' 1 3 ltac:(lia) ltac:(lia) X); lia).
  eexists. split; [reflexivity|]. unfold computes_all. eapply always_all_cons.
  { apply (cuda_fill_partial (word Z) (Ix 0%Z) [] out m); [cbn; lia|exact HO]. }
  intros m1 [B1 B2]. assert (R1 : room m1 out 1) by exact (has_room _ m1 out [] _ B1).
  set (val := fun (b t : nat) => if t <? 2 then (7%Z, Z.of_nat t) else (0%Z, (-1)%Z)).
  eapply always_all_cons.
  { change (Z.to_nat ((1 * gridSize (Z.of_nat blockSize) (Z.of_nat (numel [2])) 1) mod 2 ^ 32)) with 1.
    apply (round_idx Z.ltb 0%Z indexAll2 tmpV tmpI p None 2%Z 1%Z 1 m1 (fun b t => if t <? 2 then Z.of_nat t else (-1)%Z) (fun b t => if t <? 2 then Z.of_nat t else (-1)%Z) val).
    - lia.
    - lia.
    - exact N2.
    - left. repeat split; congruence.
    - intros b t Hb Ht. assert (b = 0) as -> by lia. unfold indexAll2. rewrite Z.mul_0_l, Z.add_0_l. destruct (Nat.ltb_spec t 2), (Z.ltb_spec (Z.of_nat t) 2); try lia; reflexivity.
    - intros b t Hb Ht. unfold val. destruct (Nat.ltb_spec t 2).
      + replace (0 <=? Z.of_nat t)%Z with true by lia. cbn [fst snd]. split; [|reflexivity]. rewrite B2 by congruence. exact (has_ix _ m p [2] _ (Z.of_nat t) HF ltac:(change (numel [2]) with 2; lia)).
      + reflexivity.
    - intros b Hb. rewrite !B2 by congruence. split; [apply (room_at _ m tmpV _ _ HTV)|apply (room_at _ m tmpI _ _ HTI)]; lia. }
  cbv beta. intros m2 [C1 C2]. assert (TW : twice Z.ltb 0%Z 16 (val 0) = (7%Z, 1%Z)) by (vm_compute; reflexivity).
  assert (G : always_all ([copyDevice out tmpI 1]) m2 (merged2 m1 None (Some out) tmpV tmpI 1 (fun _ => (7%Z, 1%Z)))).
  { apply (copies 0%Z m1 m2 None (Some out) tmpV tmpI 1 (fun _ => (7%Z, 1%Z)) N2).
    - intros q X. discriminate.
    - intros q X. injection X as <-. auto.
    - intros r Hr. assert (r = 0) as -> by lia. specialize (C1 0 Hr). rewrite TW in C1. exact C1.
    - intros q i [X|X] Hi; [discriminate|]. injection X as <-. apply (room_at _ m1 out _ _ R1). lia.
    - exact C2. }
  revert G. apply always_all_mono. intros m' (_ & D2 & D3). split.
  - apply (has_cells m1 m' out [] (fun _ => Ix 1%Z)); rewrite ?numel_nil; [exact R1|intros i Hi; apply (D2 out i eq_refl Hi)|]. intros i Hi. apply D3; auto.
  - intros q Q1 Q2 i. cbn [In] in Q2. rewrite D3; [apply B2, Q1|intros ->; tauto|intros ->; tauto|]. intros [X|X]; [discriminate|]. injection X as ->. tauto.
Qed.

(* ---- over one dimension ---- *)

Lemma split_dim : forall sh dim k, dim_is (length sh) dim k -> exists pre n post, sh = pre ++ n :: post /\ length pre = k /\ axis (length sh) dim = Some (length pre) /\ nth k sh 0 = n /\
  without_dim false k sh = pre ++ post /\ forall keep, without_dim keep k sh = pre ++ (if keep : bool then [1] else []) ++ post.
Proof.
  intros sh dim k HD. pose proof HD as [Hk _]. apply axis_some in HD. destruct (nth_split sh 0 Hk) as (pre & post & E & L). exists pre, (nth k sh 0), post.
  split; [exact E|]. split; [exact L|]. split; [rewrite L; exact HD|]. split; [reflexivity|].
  assert (W : without_dim false k sh = pre ++ post).
  { rewrite E, <- L. unfold without_dim. rewrite firstn_app, Nat.sub_diag, firstn_all. cbn [firstn]. rewrite app_nil_r. f_equal.
    replace (S (length pre)) with (length pre + 1) by lia. rewrite skipn_app, skipn_all2 by lia. replace (length pre + 1 - length pre) with 1 by lia. reflexivity. }
  split; [exact W|]. intros [|]; [|exact W]. rewrite E, <- L. generalize (nth (length pre) sh 0). clear. intros n. unfold without_dim. induction pre as [|a pre IH]; [reflexivity|]. cbn. f_equal. exact IH.
Qed.

Lemma max_dim_cases : forall A (lt : A -> A -> bool) e sh (F : list nat -> A) dim k keep m p outV outI tmpV tmpI tr,
  let n := nth k sh 0 in let rest := size (without_dim false k sh) in
  total_order lt -> dim_is (length sh) dim k -> (0 < Z.of_nat (size sh) <= 2 ^ 32)%Z ->
  (k = 0 \/ k = length sh - 1 -> n < 512 \/ (n = 512 /\ (Z.of_nat rest * 512 < 2 ^ 32)%Z) \/ (rest = 1 /\ n <= 512 * 512)) ->
  has m p sh (fun idx => El (F idx)) -> room m outV rest -> room m outI rest ->
  room m tmpV (rest * ((n + 511) / 512)) -> room m tmpI (rest * ((n + 511) / 512)) -> room m tr (size sh) ->
  NoDup [p; outV; outI; tmpV; tmpI; tr] ->
  exists ls Y, maxDimCuda lt e (mkD p sh) dim keep outV outI tmpV tmpI tr = Ok (outV, without_dim keep k sh, ls) /\
    (forall ridx, valid (without_dim keep k sh) ridx -> (lastl lt e (line F keep k n ridx) (Y ridx) \/
       ((k = 0 \/ k = length sh - 1) /\ 512 <= n) /\ pickl lt e (line F keep k n ridx) (Y ridx))) /\
    always_all ls m (fun m' => has m' outV (without_dim keep k sh) (fun ridx => El (fst (Y ridx))) /\ has m' outI (without_dim keep k sh) (fun ridx => Ix (snd (Y ridx))) /\
      forall q, ~ In q [outV; outI; tmpV; tmpI; tr] -> forall i, m' (q, i) = m (q, i)).
Proof.
  intros A lt e sh F dim k keep m p outV outI tmpV tmpI tr n rest TO HD HZ HN HF HV HI HTV HTI HTR ND.
  destruct (split_dim sh dim k HD) as (pre & n' & post & E & L & AX & En & W0 & W). subst n rest. rewrite En, W0, !size_numel in *. rewrite W. clear En W0 W. subst sh k. rename n' into n.
  destruct (max_dim lt e TO pre n post F m p dim keep outV outI tmpV tmpI tr AX HZ) as (ls & Y & E & HP & C); auto.
  - intros R. apply andb_true_iff in R as [R1 R2]. apply Nat.leb_le in R2. destruct HN as [|]; [|lia|auto].
    apply orb_true_iff in R1 as [R1|R1]; [destruct pre; [left; reflexivity|discriminate]|destruct post; [|discriminate]]. right. rewrite app_length. cbn. lia.
  - replace (n * numel (pre ++ post)) with (numel (pre ++ n :: post)); [exact HTR|]. rewrite !numel_app, numel_cons. lia.
  - exists ls, Y. split; [|split; [|exact C]].
    + unfold maxDimCuda. cbn [dshape]. rewrite E. destruct (pre ++ n :: post) eqn:E0; [destruct pre; discriminate|reflexivity].
    + intros ridx Hv. specialize (HP ridx Hv). destruct (_ && _) eqn:R in HP; [|left; exact HP]. right. split; [|exact HP].
      apply andb_true_iff in R as [R1 R2]. apply Nat.leb_le in R2. split; [|exact R2].
      apply orb_true_iff in R1 as [R1|R1]; [destruct pre; [left; reflexivity|discriminate]|destruct post; [|discriminate]]. right. rewrite app_length. cbn. lia.
Qed.

(* Whatever the schedules, values and indices of the greatest elements of each
   line; a line must have an element above lowest. *)
Theorem cuda_max_dim_partial : forall A (lt : A -> A -> bool) lowest sh (F : list nat -> A) dim k keep m p outV outI tmpV tmpI tr,
  let n := nth k sh 0 in let rest := size (without_dim false k sh) in let rsh := without_dim keep k sh in
  total_order lt -> dim_is (length sh) dim k -> (0 < Z.of_nat (size sh) <= 2 ^ 32)%Z ->
  (k = 0 \/ k = length sh - 1 -> n < 512 \/ (n = 512 /\ (Z.of_nat rest * 512 < 2 ^ 32)%Z) \/ (rest = 1 /\ n <= 512 * 512)) ->
  has m p sh (fun idx => El (F idx)) -> room m outV rest -> room m outI rest ->
  room m tmpV (rest * ((n + 511) / 512)) -> room m tmpI (rest * ((n + 511) / 512)) -> room m tr (size sh) ->
  NoDup [p; outV; outI; tmpV; tmpI; tr] ->
  (forall ridx, valid rsh ridx -> exists x, In x (line F keep k n ridx) /\ lt lowest x = true) ->
  exists ls val pos, maxDimCuda lt lowest (mkD p sh) dim keep outV outI tmpV tmpI tr = Ok (outV, rsh, ls) /\
    (forall ridx, valid rsh ridx -> some_max lt (line F keep k n ridx) (val ridx) (pos ridx)) /\
    always_all ls m (fun m' => has m' outV rsh (fun ridx => El (val ridx)) /\ has m' outI rsh (fun ridx => Ix (Z.of_nat (pos ridx))) /\
      forall q, ~ In q [outV; outI; tmpV; tmpI; tr] -> forall i, m' (q, i) = m (q, i)).
Proof.
  intros A lt lowest sh F dim k keep m p outV outI tmpV tmpI tr n rest rsh TO HD HZ HN HF HV HI HTV HTI HTR ND HL.
  destruct (max_dim_cases A lt lowest sh F dim k keep m p outV outI tmpV tmpI tr TO HD HZ HN HF HV HI HTV HTI HTR ND) as (ls & Y & E & HP & C).
  assert (HM : forall ridx, valid rsh ridx -> exists v i, Y ridx = (v, Z.of_nat i) /\ some_max lt (line F keep k n ridx) v i).
  { intros ridx Hv. destruct (HL ridx Hv) as (x & Hx & L). destruct (HP ridx Hv) as [[(v & i & -> & H1 & H2)|[_ H2]]|[_ [H|[_ H2]]]].
    - exists v, i. split; [reflexivity|]. split; [exact H1|]. intros j y Hy. apply (H2 j y Hy).
    - specialize (H2 x Hx). rewrite (lt_asym lt TO _ _ H2) in L. discriminate.
    - destruct H as (v & i & H3 & H4 & _). exists v, i. auto.
    - fold n in H2. rewrite (H2 x Hx) in L. discriminate. }
  exists ls, (fun ridx => fst (Y ridx)), (fun ridx => Z.to_nat (snd (Y ridx))). split; [exact E|]. split.
  - intros ridx Hv. destruct (HM ridx Hv) as (v & i & -> & H). cbn [fst snd]. rewrite Nat2Z.id. exact H.
  - revert C. apply always_all_mono. intros m' (B1 & B2 & B3). split; [exact B1|]. split; [|exact B3].
    apply (has_eq m' outI rsh (fun ridx => Ix (snd (Y ridx)))); [exact B2|]. intros ridx Hv. destruct (HM ridx Hv) as (v & i & -> & _). cbn [snd]. rewrite Nat2Z.id. reflexivity.
Qed.

Theorem cuda_min_dim_partial : forall A (lt : A -> A -> bool) highest sh (F : list nat -> A) dim k keep m p outV outI tmpV tmpI tr,
  let n := nth k sh 0 in let rest := size (without_dim false k sh) in let rsh := without_dim keep k sh in
  total_order lt -> dim_is (length sh) dim k -> (0 < Z.of_nat (size sh) <= 2 ^ 32)%Z ->
  (k = 0 \/ k = length sh - 1 -> n < 512 \/ (n = 512 /\ (Z.of_nat rest * 512 < 2 ^ 32)%Z) \/ (rest = 1 /\ n <= 512 * 512)) ->
  has m p sh (fun idx => El (F idx)) -> room m outV rest -> room m outI rest ->
  room m tmpV (rest * ((n + 511) / 512)) -> room m tmpI (rest * ((n + 511) / 512)) -> room m tr (size sh) ->
  NoDup [p; outV; outI; tmpV; tmpI; tr] ->
  (forall ridx, valid rsh ridx -> exists x, In x (line F keep k n ridx) /\ lt x highest = true) ->
  exists ls val pos, minDimCuda lt highest (mkD p sh) dim keep outV outI tmpV tmpI tr = Ok (outV, rsh, ls) /\
    (forall ridx, valid rsh ridx -> some_max (flip lt) (line F keep k n ridx) (val ridx) (pos ridx)) /\
    always_all ls m (fun m' => has m' outV rsh (fun ridx => El (val ridx)) /\ has m' outI rsh (fun ridx => Ix (Z.of_nat (pos ridx))) /\
      forall q, ~ In q [outV; outI; tmpV; tmpI; tr] -> forall i, m' (q, i) = m (q, i)).
Proof. intros A lt highest sh F dim k keep m p outV outI tmpV tmpI tr n rest rsh TO. apply (cuda_max_dim_partial A (flip lt) highest sh F dim k keep m p outV outI tmpV tmpI tr (flip_total lt TO)). Qed.

(* A dimension in the middle, or of fewer than 512 elements: the position is the
   last where the greatest element occurs. *)
Theorem cuda_max_dim_last : forall A (lt : A -> A -> bool) lowest sh (F : list nat -> A) dim k keep m p outV outI tmpV tmpI tr,
  let n := nth k sh 0 in let rest := size (without_dim false k sh) in let rsh := without_dim keep k sh in
  total_order lt -> dim_is (length sh) dim k -> (0 < Z.of_nat (size sh) <= 2 ^ 32)%Z -> n < 512 \/ 0 < k < length sh - 1 ->
  has m p sh (fun idx => El (F idx)) -> room m outV rest -> room m outI rest ->
  room m tmpV (rest * ((n + 511) / 512)) -> room m tmpI (rest * ((n + 511) / 512)) -> room m tr (size sh) ->
  NoDup [p; outV; outI; tmpV; tmpI; tr] ->
  (forall ridx, valid rsh ridx -> exists x, In x (line F keep k n ridx) /\ lt x lowest = false) ->
  exists ls val pos, maxDimCuda lt lowest (mkD p sh) dim keep outV outI tmpV tmpI tr = Ok (outV, rsh, ls) /\
    (forall ridx, valid rsh ridx -> last_max lt (line F keep k n ridx) (val ridx) (pos ridx)) /\
    always_all ls m (fun m' => has m' outV rsh (fun ridx => El (val ridx)) /\ has m' outI rsh (fun ridx => Ix (Z.of_nat (pos ridx))) /\
      forall q, ~ In q [outV; outI; tmpV; tmpI; tr] -> forall i, m' (q, i) = m (q, i)).
Proof.
  intros A lt lowest sh F dim k keep m p outV outI tmpV tmpI tr n rest rsh TO HD HZ HN HF HV HI HTV HTI HTR ND HL.
  destruct (max_dim_cases A lt lowest sh F dim k keep m p outV outI tmpV tmpI tr TO HD HZ) as (ls & Y & E & HP & C); try assumption.
  { intros X. left. fold n. lia. }
  assert (HM : forall ridx, valid rsh ridx -> exists v i, Y ridx = (v, Z.of_nat i) /\ last_max lt (line F keep k n ridx) v i).
  { intros ridx Hv. destruct (HL ridx Hv) as (x & Hx & L). destruct (HP ridx Hv) as [[H|[_ H2]]|[[H1 H2] _]].
    - exact H.
    - specialize (H2 x Hx). congruence.
    - fold n in H2. lia. }
  exists ls, (fun ridx => fst (Y ridx)), (fun ridx => Z.to_nat (snd (Y ridx))). split; [exact E|]. split.
  - intros ridx Hv. destruct (HM ridx Hv) as (v & i & -> & H). cbn [fst snd]. rewrite Nat2Z.id. exact H.
  - revert C. apply always_all_mono. intros m' (B1 & B2 & B3). split; [exact B1|]. split; [|exact B3].
    apply (has_eq m' outI rsh (fun ridx => Ix (snd (Y ridx)))); [exact B2|]. intros ridx Hv. destruct (HM ridx Hv) as (v & i & -> & _). cbn [snd]. rewrite Nat2Z.id. reflexivity.
Qed.

Theorem cuda_min_dim_last : forall A (lt : A -> A -> bool) highest sh (F : list nat -> A) dim k keep m p outV outI tmpV tmpI tr,
  let n := nth k sh 0 in let rest := size (without_dim false k sh) in let rsh := without_dim keep k sh in
  total_order lt -> dim_is (length sh) dim k -> (0 < Z.of_nat (size sh) <= 2 ^ 32)%Z -> n < 512 \/ 0 < k < length sh - 1 ->
  has m p sh (fun idx => El (F idx)) -> room m outV rest -> room m outI rest ->
  room m tmpV (rest * ((n + 511) / 512)) -> room m tmpI (rest * ((n + 511) / 512)) -> room m tr (size sh) ->
  NoDup [p; outV; outI; tmpV; tmpI; tr] ->
  (forall ridx, valid rsh ridx -> exists x, In x (line F keep k n ridx) /\ lt highest x = false) ->
  exists ls val pos, minDimCuda lt highest (mkD p sh) dim keep outV outI tmpV tmpI tr = Ok (outV, rsh, ls) /\
    (forall ridx, valid rsh ridx -> last_max (flip lt) (line F keep k n ridx) (val ridx) (pos ridx)) /\
    always_all ls m (fun m' => has m' outV rsh (fun ridx => El (val ridx)) /\ has m' outI rsh (fun ridx => Ix (Z.of_nat (pos ridx))) /\
      forall q, ~ In q [outV; outI; tmpV; tmpI; tr] -> forall i, m' (q, i) = m (q, i)).
Proof. intros A lt highest sh F dim k keep m p outV outI tmpV tmpI tr n rest rsh TO. apply (cuda_max_dim_last A (flip lt) highest sh F dim k keep m p outV outI tmpV tmpI tr (flip_total lt TO)). Qed.

(* Two elements, both 7, over their dimension: position 1, not the first. *)
Theorem cuda_max_dim_tie_refuted : forall m p outV outI tmpV tmpI tr, NoDup [p; outV; outI; tmpV; tmpI; tr] ->
  has m p [2] (fun _ => El 7%Z) -> room m outV 1 -> room m outI 1 -> room m tmpV 1 -> room m tmpI 1 -> room m tr 2 ->
  first_max Z.ltb [7; 7]%Z 7%Z 0 /\
  exists ls, maxDimCuda Z.ltb 0%Z (mkD p [2]) 0%Z false outV outI tmpV tmpI tr = Ok (outV, [], ls) /\
    always_all ls m (fun m' => m' (outV, 0%Z) = Some (Some (El 7%Z)) /\ m' (outI, 0%Z) = Some (Some (Ix 1%Z))).
Proof.
  intros m p outV outI tmpV tmpI tr ND HF HV HI HTV HTI HTR. split.
  { split; [reflexivity|]. intros [|[|[|j]]] x H; cbn in H; try discriminate; injection H as <-; (split; [reflexivity|lia]). }
  assert (TO : total_order Z.ltb) by (split; [intros x; apply Z.ltb_irrefl|split; [intros x y z H1 H2; apply Z.ltb_lt in H1, H2; apply Z.ltb_lt; lia|intros x y H1 H2; apply Z.ltb_ge in H1, H2; lia]]).
  destruct (cuda_max_dim_last Z Z.ltb 0%Z [2] (fun _ => 7%Z) 0%Z 0 false m p outV outI tmpV tmpI tr TO) as (ls & val & pos & E & HM & C); try assumption.
  - split; cbn; lia.
  - cbn. lia.
  - left. cbn. lia.
  - intros ridx Hv. exists 7%Z. split; [left; reflexivity|reflexivity].
  - exists ls. split; [exact E|]. specialize (HM [] (Forall2_nil _)). change (line _ _ _ _ []) with [7; 7]%Z in HM. destruct HM as [H1 H2].
    assert (P : pos [] = 1). { destruct (pos []) as [|[|[|q]]]; [|reflexivity|discriminate|discriminate]. injection H1 as H1. destruct (H2 1 7%Z eq_refl) as [_ H]. specialize (H ltac:(lia)). rewrite <- H1 in H. discriminate. }
    rewrite P in H1. injection H1 as H1. revert C. apply always_all_mono. intros m' (B1 & B2 & _). split.
    + rewrite (has_ix _ m' outV [] _ 0%Z B1) by (rewrite numel_nil; lia). cbn. rewrite <- H1. reflexivity.
    + rewrite (has_ix _ m' outI [] _ 0%Z B2) by (rewrite numel_nil; lia). cbn. rewrite P. reflexivity.
Qed.

Theorem cuda_max_dim_rejects : forall A (lt : A -> A -> bool) e sh dim keep p outV outI tmpV tmpI tr, sh <> [] ->
  (forall k, ~ dim_is (length sh) dim k) ->
  maxDimCuda lt e (mkD p sh) dim keep outV outI tmpV tmpI tr = Fail /\ minDimCuda lt e (mkD p sh) dim keep outV outI tmpV tmpI tr = Fail.
Proof.
  intros A lt e sh dim keep p outV outI tmpV tmpI tr HS HD. unfold minDimCuda, maxDimCuda, reduceIdxDimCuda. cbn [dshape].
  destruct (axis (length sh) dim) as [k|] eqn:E; [exfalso; apply (HD k), axis_some, E|]. destruct sh; [contradiction|split; reflexivity].
Qed.

(* The extreme of a scalar, whatever dim, is the scalar itself and index 0. *)
Theorem cuda_max_dim_scalar : forall A (lt : A -> A -> bool) e dim keep p outV outI tmpV tmpI tr (m : addr -> cell (word A)), room m outI (size []) ->
  exists ls, maxDimCuda lt e (mkD p []) dim keep outV outI tmpV tmpI tr = Ok (p, [], ls) /\ minDimCuda lt e (mkD p []) dim keep outV outI tmpV tmpI tr = Ok (p, [], ls) /\
    computes_all ls m outI [] [] (fun _ => Ix 0%Z).
Proof.
  intros A lt e dim keep p outV outI tmpV tmpI tr m HO. eexists. split; [reflexivity|]. split; [reflexivity|]. unfold computes_all. cbn [always_all]. eapply always_mono.
  - apply (cuda_fill_partial (word A) (Ix 0%Z) [] outI m); [cbn; lia|exact HO].
  - intros m' [B1 B2]. split; [exact B1|]. intros q Q _ i. apply B2, Q.
Qed.

(* ---- the hypotheses can be met ---- *)

Lemma Z_total : total_order Z.ltb.
Proof. split; [intros x; apply Z.ltb_irrefl|split; [intros x y z H1 H2; apply Z.ltb_lt in H1, H2; apply Z.ltb_lt; lia|intros x y H1 H2; apply Z.ltb_ge in H1, H2; lia]]. Qed.

Example cuda_max_all_ex : let m := mem_of [map Some [3; -1; 4; 1; -5; 2]%Z; [None]; [None]] in
  exists ls, maxAllCuda Z.ltb (-100)%Z (mkD 0 [2; 3]) 1 2 = Ok ([], Some ls) /\ always_all ls m (fun m' => m' (1, 0%Z) = Some (Some 4%Z)).
Proof.
  cbv zeta. set (m := mem_of _).
  destruct (cuda_max_all_partial Z Z.ltb (-100)%Z [2; 3] (fun idx => nth (nth 0 idx 0 * 3 + nth 1 idx 0) [3; -1; 4; 1; -5; 2]%Z 0%Z) m 0 1 2 Z_total) as (ls & idx & E & V & M & C);
    try discriminate; try (apply holds_of; reflexivity); try (apply room_of; reflexivity); [split; apply Nat.leb_le; reflexivity|exists [0; 0]; split; [repeat constructor|reflexivity]|].
  exists ls. split; [exact E|]. eapply always_all_mono; [|exact C]. intros m' [A _]. rewrite (has_ix _ m' 1 [] _ 0%Z A) by (rewrite numel_nil; lia).
  apply indices_in in V. cbn in V. specialize (M [0; 2] ltac:(repeat constructor)).
  repeat (destruct V as [<-|V]; [first [reflexivity|discriminate M]|]). destruct V.
Qed.

Example cuda_argmax_ex : let m := mem_of [map (fun z => Some (El z)) [3; -1; 4; 1; -5; 2]%Z; [None]; [None]; [None]] in
  exists ls, argmaxCuda Z.ltb (-100)%Z (mkD 0 [2; 3]) 1 2 3 = Ok ([], ls) /\ always_all ls m (fun m' => m' (1, 0%Z) = Some (Some (Ix 2%Z))).
Proof.
  cbv zeta. set (m := mem_of _).
  destruct (cuda_argmax_partial Z Z.ltb (-100)%Z [2; 3] (fun idx => nth (nth 0 idx 0 * 3 + nth 1 idx 0) [3; -1; 4; 1; -5; 2]%Z 0%Z) m 0 1 2 3 Z_total) as (ls & idx & E & V & M & C);
    try discriminate; try (apply holds_of; reflexivity); try (apply room_of; reflexivity); [split; apply Nat.leb_le; reflexivity|repeat constructor; cbn; lia|exists [0; 0]; split; [repeat constructor|reflexivity]|].
  exists ls. split; [exact E|]. eapply always_all_mono; [|exact C]. intros m' [A _]. rewrite (has_ix _ m' 1 [] _ 0%Z A) by (rewrite numel_nil; lia).
  apply indices_in in V. cbn in V. specialize (M [0; 2] ltac:(repeat constructor)).
  repeat (destruct V as [<-|V]; [first [reflexivity|discriminate M]|]). destruct V.
Qed.

Example cuda_max_dim_ex : let m := mem_of [map (fun z => Some (El z)) [3; -1; 4; 1; -5; 2]%Z; repeat None 3; repeat None 3; repeat None 3; repeat None 3; repeat None 6] in
  exists ls, maxDimCuda Z.ltb (-100)%Z (mkD 0 [2; 3]) (-2)%Z true 1 2 3 4 5 = Ok (1, [1; 3], ls) /\
    always_all ls m (fun m' => m' (1, 2%Z) = Some (Some (El 4%Z)) /\ m' (2, 2%Z) = Some (Some (Ix 0%Z))).
Proof.
  cbv zeta. set (m := mem_of _).
  destruct (cuda_max_dim_partial Z Z.ltb (-100)%Z [2; 3] (fun idx => nth (nth 0 idx 0 * 3 + nth 1 idx 0) [3; -1; 4; 1; -5; 2]%Z 0%Z) (-2)%Z 0 true m 0 1 2 3 4 5 Z_total) as (ls & val & pos & E & M & C);
    try (apply holds_of; reflexivity); try (apply room_of; reflexivity).
  - split; cbn; lia.
  - cbn. lia.
  - intros _. left. cbn [nth]. apply Nat.ltb_lt. reflexivity.
  - repeat constructor; cbn; lia.
  - intros ridx V. apply indices_in in V. cbn in V. repeat (destruct V as [<-|V]; [eexists; split; [left; reflexivity|reflexivity]|]). destruct V.
  - exists ls. split; [exact E|]. eapply always_all_mono; [|exact C]. intros m' (A1 & A2 & _).
    specialize (M [0; 2] ltac:(repeat constructor)). change (line _ _ _ _ [0; 2]) with [4; 2]%Z in M. destruct M as [M1 M2].
    assert (P : pos [0; 2] = 0). { destruct (pos [0; 2]) as [|[|q]]; [reflexivity| |destruct q; discriminate]. injection M1 as M1. specialize (M2 0 4%Z eq_refl). rewrite <- M1 in M2. discriminate. }
    rewrite P in M1. injection M1 as M1. split.
    + rewrite (has_ix _ m' 1 _ _ 2%Z A1) by (cbn; lia). change (offsetToIndices _ _) with [0; 2]. rewrite <- M1. reflexivity.
    + rewrite (has_ix _ m' 2 _ _ 2%Z A2) by (cbn; lia). change (offsetToIndices _ _) with [0; 2]. rewrite P. reflexivity.
Qed.

Print Assumptions cuda_max_all_partial.
Print Assumptions cuda_min_all_partial.
Print Assumptions cuda_extreme_scalar.
Print Assumptions cuda_max_below_refuted.
Print Assumptions cuda_max_all_large_refuted.
Print Assumptions cuda_max_empty_refuted.
Print Assumptions cuda_argmax_partial.
Print Assumptions cuda_argmin_partial.
Print Assumptions cuda_argmax_scalar.
Print Assumptions cuda_argmax_lowest_refuted.
Print Assumptions cuda_argmax_tie_refuted.
Print Assumptions cuda_max_dim_partial.
Print Assumptions cuda_min_dim_partial.
Print Assumptions cuda_max_dim_last.
Print Assumptions cuda_min_dim_last.
Print Assumptions cuda_max_dim_tie_refuted.
Print Assumptions cuda_max_dim_rejects.
Print Assumptions cuda_max_dim_scalar.
