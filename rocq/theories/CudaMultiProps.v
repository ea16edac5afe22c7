(* C97: drawing categories from weights in device memory. *)
From Coq Require Import List Arith ZArith Bool Lia Reals Lra.
From Flocq Require Import Core IEEE754.BinarySingleNaN IEEE754.Binary IEEE754.Bits.
From Verif Require Import ShapeModel ShapeSpec ShapeProofs TensorModel TensorSpec TensorLemmas BcastModel BufModel MultiModel MultiSpec MultiProofs MultiProofs2
  GpuModel GpuSpec GpuProofs GpuLemmas CudaModel CudaSpec CudaProofs CudaFillModel CudaFillProofs CudaFillProps CudaMoveModel CudaExtremeModel CudaLineModel CudaReduceSpec CudaReduceProofs3 CudaMeanProofs LinalgProofs4 RopeProofs
  CudaMultiModel CudaMultiSpec CudaMultiProofs CudaMultiProofs2 CudaMultiProofs3 CudaMultiProofs4.
Import ListNotations.
Local Open Scope nat_scope.

(* ---- Whatever the weights (NaN, infinities, negative numbers), whatever the random
   numbers and whatever the order of the additions, no schedule reads or writes outside
   the buffers or races, the result is filled, and every drawn category exists. *)
Theorem multinomial_cuda_in_range : forall draw scan lead n k replacement p out tmp g (m : addr -> cell (word f32)) (W : list nat -> f32),
  length lead <= 1 -> has m p (lead ++ [n]) (fun idx => El (W idx)) -> room m out (numel (lead ++ [k])) -> room m tmp (numel (lead ++ [n])) ->
  p <> out -> p <> tmp -> out <> tmp -> 0 < n -> (0 < Z.of_nat (numel lead) < 2 ^ 31)%Z ->
  (replacement = true \/ k = 1 -> (0 < Z.of_nat (numel lead * k) <= 2 ^ 32)%Z) -> (forall l, length (scan l) = length l) ->
  exists ls G, multinomialCuda draw scan (mkD p (lead ++ [n])) k replacement out tmp g = Ok (lead ++ [k], ls, mkCG (gseed g) ((gseq g + 1) mod 2 ^ 64)%Z) /\
    computes_all ls m out [tmp] (lead ++ [k]) (fun idx => Ix (Z.of_nat (G idx))) /\ forall idx, G idx < n.
Proof.
  intros draw scan lead n k replacement p out tmp g m W HL IN RO RT N1 N2 N3 HN HB HK LEN.
  assert (HK' : (if k =? 1 then true else replacement) = true -> (0 < Z.of_nat (numel lead * k) <= 2 ^ 32)%Z) by (intros H; apply HK; destruct (Nat.eqb_spec k 1); auto).
  assert (LEN' : (if k =? 1 then true else replacement) = true -> forall b, b < numel lead -> length (scan (map (fun i => W (offsetToIndices lead b ++ [i])) (seq 0 n))) = n).
  { intros _ b _. rewrite LEN, map_length, seq_length. reflexivity. }
  destruct (multi_run draw scan lead n k replacement p out tmp g m W HL IN RO RT N1 N2 N3 HN HB HK' LEN') as (ls & E & C).
  eexists ls, _. split; [exact E|]. split; [exact C|]. intros idx. apply drawn_lt; assumption.
Qed.

(* The random number of draw s of row b: with replacement (and for one draw) each draw
   has a generator of its own; without, each row has one. *)
Definition random (draw : Z -> Z -> Z -> nat -> f32) (replacement : bool) (k : nat) (g : cudaGen) (b s : nat) : f32 :=
  if replacement || (k =? 1) then draw (gseed g) (Z.of_nat (b * k + s)) (gseq g) 0 else draw (gseed g) (Z.of_nat b) (gseq g) s.

(* ---- For plain weights with something left to draw each time, the draws are valid
   and each is the category in whose share of the total weight the random number falls,
   if the cumulated sums are those from the left. *)
Theorem multinomial_cuda_draws_partial : forall draw scan lead n k replacement p out tmp g (m : addr -> cell (word f32)) (W : list nat -> f32),
  length lead <= 1 -> has m p (lead ++ [n]) (fun idx => El (W idx)) -> room m out (numel (lead ++ [k])) -> room m tmp (numel (lead ++ [n])) ->
  p <> out -> p <> tmp -> out <> tmp -> 0 < n -> (0 < Z.of_nat (numel lead) < 2 ^ 31)%Z ->
  (replacement = true \/ k = 1 -> (0 < Z.of_nat (numel lead * k) <= 2 ^ 32)%Z) ->
  (forall seed sub off j, in_unit_right (draw seed sub off j)) ->
  (forall b i, valid lead b -> i < n -> plain (W (b ++ [i]))) ->
  (forall b, valid lead b -> enough replacement k n (fun i => W (b ++ [i]))) ->
  (replacement = true \/ k = 1 -> forall b, valid lead b -> from_left_on scan (map (fun i => W (b ++ [i])) (seq 0 n))) ->
  exists ls G g', multinomialCuda draw scan (mkD p (lead ++ [n])) k replacement out tmp g = Ok (lead ++ [k], ls, g') /\
    computes_all ls m out [tmp] (lead ++ [k]) (fun idx => Ix (Z.of_nat (G idx))) /\
    forall b, valid lead b -> valid_draws replacement k n (fun i => W (b ++ [i])) (fun s => G (b ++ [s])) /\
      draws_by_weight_right replacement k n (fun i => W (b ++ [i])) (random draw replacement k g (ravel lead b)) (fun s => G (b ++ [s])).
Proof.
  intros draw scan lead n k replacement p out tmp g m W HL IN RO RT N1 N2 N3 HN HB HK RAND PL EN SC.
  assert (OR : (if k =? 1 then true else replacement) = true -> replacement = true \/ k = 1) by (intros H; destruct (Nat.eqb_spec k 1); auto).
  destruct (multi_law draw scan lead n k replacement p out tmp g m W HL IN RO RT N1 N2 N3 HN HB (fun H => HK (OR H))) as (ls & G & E & C & L); try assumption.
  - intros H b Hb. destruct (SC (OR H) _ (o2i_valid lead b Hb)) as [L _]. rewrite L, map_length, seq_length. reflexivity.
  - intros H. apply SC, OR, H.
  - exists ls, G, (snd (nextSequence g)). auto.
Qed.
(* It is enough for valid draws that the cumulated sums can be used. *)
Theorem multinomial_cuda_usable_partial : forall draw scan lead n k replacement p out tmp g (m : addr -> cell (word f32)) (W : list nat -> f32),
  length lead <= 1 -> has m p (lead ++ [n]) (fun idx => El (W idx)) -> room m out (numel (lead ++ [k])) -> room m tmp (numel (lead ++ [n])) ->
  p <> out -> p <> tmp -> out <> tmp -> 0 < n -> (0 < Z.of_nat (numel lead) < 2 ^ 31)%Z ->
  (replacement = true \/ k = 1 -> (0 < Z.of_nat (numel lead * k) <= 2 ^ 32)%Z) ->
  (forall seed sub off j, in_unit_right (draw seed sub off j)) ->
  (forall b i, valid lead b -> i < n -> plain (W (b ++ [i]))) ->
  (forall b, valid lead b -> enough replacement k n (fun i => W (b ++ [i]))) ->
  (replacement = true \/ k = 1 -> forall b, valid lead b -> usable_on scan (map (fun i => W (b ++ [i])) (seq 0 n))) ->
  exists ls G g', multinomialCuda draw scan (mkD p (lead ++ [n])) k replacement out tmp g = Ok (lead ++ [k], ls, g') /\
    computes_all ls m out [tmp] (lead ++ [k]) (fun idx => Ix (Z.of_nat (G idx))) /\
    forall b, valid lead b -> valid_draws replacement k n (fun i => W (b ++ [i])) (fun s => G (b ++ [s])).
Proof.
  intros draw scan lead n k replacement p out tmp g m W HL IN RO RT N1 N2 N3 HN HB HK RAND PL EN SC.
  assert (OR : (if k =? 1 then true else replacement) = true -> replacement = true \/ k = 1) by (intros H; destruct (Nat.eqb_spec k 1); auto).
  destruct (multi_valid draw scan lead n k replacement p out tmp g m W HL IN RO RT N1 N2 N3 HN HB (fun H => HK (OR H))) as (ls & G & E & C & L); try assumption.
  - intros H b Hb. destruct (SC (OR H) _ (o2i_valid lead b Hb)) as [L _]. rewrite L, map_length, seq_length. reflexivity.
  - intros H. apply SC, OR, H.
  - exists ls, G, (snd (nextSequence g)). auto.
Qed.

(* ---- Which cumulated sums are those from the left: the sum from the left of plain
   weights; and for whole numbers up to 2^24 in all, every order of the additions. *)
Theorem sum_from_left : forall l, Forall plain l -> from_left_on partialSum l.
Proof. exact left_from_left. Qed.
Theorem counts_any_order : forall scan l, any_order scan -> counts l -> from_left_on scan l /\ Forall plain l.
Proof. intros scan l A C. split; [exact (counts_from_left scan l A C)|exact (counts_plain l C)]. Qed.
Theorem from_left_is_usable : forall scan l, Forall plain l -> from_left_on scan l -> usable_on scan l.
Proof. exact from_left_usable. Qed.

(* ---- A tensor of another rank is rejected. *)
Theorem multinomial_cuda_rejects : forall draw scan self k replacement out tmp g, length (dshape self) <> 1 -> length (dshape self) <> 2 ->
  multinomialCuda draw scan self k replacement out tmp g = Fail.
Proof. intros draw scan self k replacement out tmp g H1 H2. unfold multinomialCuda. destruct (dshape self) as [|a [|b [|c l]]]; simpl in *; try lia; reflexivity. Qed.

(* ---- Where it fails.  The sum from the left is free in the order of its additions, and
   so is this one, which adds neighbours first (as parallel sums do). *)
Definition neighbours (l : list f32) : list f32 :=
  match l with
  | [a; b; c; d] => [a; b32_plus mode_NE a b; b32_plus mode_NE a (b32_plus mode_NE b c); b32_plus mode_NE (b32_plus mode_NE a b) (b32_plus mode_NE c d)]
  | _ => partialSum l
  end.
Lemma running_sums l : forall a l0, sums_to l0 a -> length (runningSum a l) = length l /\ forall i, i < length l -> sums_to (l0 ++ firstn (S i) l) (nth i (runningSum a l) zero32).
Proof.
  induction l as [|x l IH]; intros a l0 H; cbn [runningSum length]; [split; [reflexivity|intros; lia]|].
  assert (H' : sums_to (l0 ++ [x]) (b32_plus mode_NE a x)) by (constructor; [exact H|constructor]). destruct (IH _ _ H') as [L T]. split; [lia|]. intros [|i] Hi; cbn [firstn nth].
  - exact H'.
  - specialize (T i ltac:(lia)). rewrite <- app_assoc in T. exact T.
Qed.
Theorem left_any_order : any_order partialSum.
Proof.
  intros [|x l]; cbn [partialSum length]; [split; [reflexivity|intros; lia]|]. destruct (running_sums l x [x] (sums_one x)) as [L T]. split; [lia|].
  intros [|i] Hi; cbn [firstn nth]; [constructor|]. apply T. lia.
Qed.
Theorem neighbours_any_order : any_order neighbours.
Proof.
  intros l. destruct l as [|a [|b [|c [|d [|e l]]]]]; try apply left_any_order. split; [reflexivity|]. intros [|[|[|[|i]]]] Hi; cbn in Hi; try lia; cbn [firstn neighbours nth].
  - constructor.
  - exact (sums_two [a] [b] _ _ (sums_one a) (sums_one b)).
  - exact (sums_two [a] [b; c] _ _ (sums_one a) (sums_two [b] [c] _ _ (sums_one b) (sums_one c))).
  - exact (sums_two [a; b] [c; d] _ _ (sums_two [a] [b] _ _ (sums_one a) (sums_one b)) (sums_two [c] [d] _ _ (sums_one c) (sums_one d))).
Qed.
Definition one32 : binary32 := b32_of_bits 0x3F800000.
Definition two_m24 : binary32 := b32_of_bits 0x33800000.
Definition two_m33 : binary32 := b32_of_bits 0x2F000000.
Definition least : binary32 := b32_of_bits 1.
Theorem sample_numbers : val one32 = 1%R /\ val two_m24 = bpow radix2 (-24) /\ val two_m33 = bpow radix2 (-33) /\ val least = bpow radix2 (-149).
Proof. repeat split; cbv [one32 two_m24 two_m33 least val]; cbn; unfold F2R; cbn; lra. Qed.
Lemma one_unit : in_unit_right one32.
Proof. split; [reflexivity|]. rewrite (proj1 sample_numbers). split; [apply (bpow_le radix2 (-33) 0); lia|apply Rle_refl]. Qed.
Lemma m33_unit : in_unit_right two_m33.
Proof. split; [reflexivity|]. destruct sample_numbers as (_ & _ & E & _). rewrite E. split; [apply Rle_refl|apply (bpow_le radix2 (-33) 0); lia]. Qed.
Lemma bpow_plain w e : is_finite 24 128 w = true -> val w = bpow radix2 e -> (-116 <= e < 103)%Z -> plain w.
Proof. intros F E H. split; [exact F|]. right. rewrite E. split; [apply bpow_le; lia|apply bpow_lt; lia]. Qed.
Lemma one_plain : plain one32.
Proof. apply (bpow_plain _ 0); [reflexivity|exact (proj1 sample_numbers)|lia]. Qed.
Lemma m24_plain : plain two_m24.
Proof. apply (bpow_plain _ (-24)); [reflexivity|exact (proj1 (proj2 sample_numbers))|lia]. Qed.
Lemma zero_plain : plain zero32.
Proof. exact f0_plain. Qed.
(* A call on one row: what is drawn. *)
Definition row_of (l : list f32) : list nat -> f32 := fun idx => nth (nth 0 idx 0) l zero32.
Definition mem_for (l : list f32) (k : nat) : addr -> cell (word f32) := mem_of [map (fun w => Some (El w)) l; repeat None k; repeat None (length l)].
Lemma one_row draw scan l k replacement g : l <> [] -> (replacement = true \/ k = 1 -> 0 < k /\ (Z.of_nat k <= 2 ^ 32)%Z) -> length (scan l) = length l ->
  exists ls, multinomialCuda draw scan (mkD 0 [length l]) k replacement 1 2 g = Ok ([k], ls, snd (nextSequence g)) /\
    computes_all ls (mem_for l k) 1 [2] [k] (fun idx => Ix (Z.of_nat (drawn draw scan (if k =? 1 then true else replacement) (length l) k (fun _ i => nth i l zero32) (gseed g) (gseq g) (ravel [k] idx / k) (ravel [k] idx mod k)))).
Proof.
  intros Hl HK HS. assert (EL : map (fun i => nth i l zero32) (seq 0 (length l)) = l).
  { clear. induction l as [|x l IH]; [reflexivity|]. cbn [length seq map nth]. f_equal. rewrite <- seq_shift, map_map. exact IH. }
  destruct (multi_run draw scan [] (length l) k replacement 0 1 2 g (mem_for l k) (row_of l)) as (ls & E & C); try (cbn; lia).
  - cbn [app]. apply holds_of. cbn [nth]. rewrite indices_1, !map_map. rewrite <- EL at 1. rewrite map_map. reflexivity.
  - cbn [app]. apply room_of. cbn [nth]. rewrite repeat_length, numel_cons. change (numel []) with 1. lia.
  - cbn [app]. apply room_of. cbn [nth]. rewrite repeat_length, numel_cons. change (numel []) with 1. lia.
  - destruct l; [congruence|cbn; lia].
  - intros H. change (numel []) with 1. assert (R : replacement = true \/ k = 1) by (destruct (Nat.eqb_spec k 1); auto). specialize (HK R). lia.
  - intros H b Hb. change (length (scan (map (fun i => nth i l zero32) (seq 0 (length l)))) = length l). rewrite EL. exact HS.
  - exists ls. split; [exact E|exact C].
Qed.
Lemma cell_at (ls : list (launch (word f32))) m k (G : list nat -> word f32) s v : computes_all ls m 1 [2] [k] G -> s < k -> G [s] = v -> always_all ls m (fun m' => m' (1, Z.of_nat s) = Some (Some v)).
Proof.
  intros C Hs E. eapply always_all_mono; [|exact C]. cbv beta. intros m' [A _]. rewrite <- E. pose proof (has_at _ m' 1 [k] G [s] A ltac:(repeat constructor; exact Hs)) as X. rewrite ravel1 in X. exact X.
Qed.

(* With other orders of the additions, a category of weight zero can be drawn. *)
Theorem multinomial_cuda_order_refuted : let l := [two_m24; two_m24; one32; zero32] in
  any_order neighbours /\ in_unit_right one32 /\ Forall plain l /\ enough true 1 4 (fun i => nth i l zero32) /\
  forall g, exists ls g', multinomialCuda (fun _ _ _ _ => one32) neighbours (mkD 0 [4]) 1 true 1 2 g = Ok ([1], ls, g') /\
    always_all ls (mem_for l 1) (fun m' => m' (1, 0%Z) = Some (Some (Ix 3%Z))) /\ val (nth 3 l zero32) = 0%R.
Proof.
  cbv zeta. set (l := [two_m24; two_m24; one32; zero32]). split; [apply neighbours_any_order|]. split; [apply one_unit|]. split; [repeat (apply Forall_cons; [first [apply m24_plain|apply one_plain|apply zero_plain]|]); apply Forall_nil|]. split.
  { right. cbn [seq]. assert (In 2 (drawable 4 (fun i => nth i l zero32))) by (apply drawable_in; split; [lia|]; cbn [nth l]; rewrite (proj1 sample_numbers); apply Rlt_0_1). destruct (drawable 4 _); [destruct H|cbn; lia]. }
  intros g. destruct (one_row (fun _ _ _ _ => one32) neighbours l 1 true g) as (ls & E & C); [discriminate|intros _; lia|reflexivity|]. exists ls, (snd (nextSequence g)). split; [exact E|]. split; [|reflexivity].
  apply (cell_at _ _ 1 _ 0 _ C); [lia|]. vm_compute. reflexivity.
Qed.
(* A total so small that its product with the random number rounds to zero. *)
Theorem multinomial_cuda_tiny_refuted : let l := [zero32; least] in
  in_unit_right two_m33 /\ (forall i, is_finite 24 128 (nth i l zero32) = true) /\ enough true 1 2 (fun i => nth i l zero32) /\
  forall g, exists ls g', multinomialCuda (fun _ _ _ _ => two_m33) partialSum (mkD 0 [2]) 1 true 1 2 g = Ok ([1], ls, g') /\
    always_all ls (mem_for l 1) (fun m' => m' (1, 0%Z) = Some (Some (Ix 0%Z))) /\ val (nth 0 l zero32) = 0%R.
Proof.
  cbv zeta. set (l := [zero32; least]). split; [apply m33_unit|]. split; [intros [|[|[|i]]]; reflexivity|]. split.
  { right. assert (In 1 (drawable 2 (fun i => nth i l zero32))) by (apply drawable_in; split; [lia|]; cbn [nth l]; destruct sample_numbers as (_ & _ & _ & ->); apply bpow_gt_0). destruct (drawable 2 _); [destruct H|cbn; lia]. }
  intros g. destruct (one_row (fun _ _ _ _ => two_m33) partialSum l 1 true g) as (ls & E & C); [discriminate|intros _; lia|reflexivity|]. exists ls, (snd (nextSequence g)). split; [exact E|]. split; [|reflexivity].
  apply (cell_at _ _ 1 _ 0 _ C); [lia|]. vm_compute. reflexivity.
Qed.
(* When nothing is left to draw, the call is not rejected: it draws category 0 (again). *)
Theorem multinomial_cuda_nothing_left_refuted : let l := [one32; zero32] in
  Forall plain l /\ ~ enough false 2 2 (fun i => nth i l zero32) /\
  forall g, exists ls g', multinomialCuda (fun _ _ _ _ => one32) partialSum (mkD 0 [2]) 2 false 1 2 g = Ok ([2], ls, g') /\
    always_all ls (mem_for l 2) (fun m' => m' (1, 0%Z) = Some (Some (Ix 0%Z))) /\ always_all ls (mem_for l 2) (fun m' => m' (1, 1%Z) = Some (Some (Ix 0%Z))).
Proof.
  cbv zeta. set (l := [one32; zero32]). split; [repeat (apply Forall_cons; [first [apply one_plain|apply zero_plain]|]); apply Forall_nil|]. split.
  { intros [H|H]; [discriminate|]. assert (NoDup (drawable 2 (fun i => nth i l zero32))) as ND by apply drawable_nodup.
    assert (IC : incl (drawable 2 (fun i => nth i l zero32)) [0]).
    { intros i Hi. apply drawable_in in Hi. destruct Hi as [Hi P]. destruct i as [|[|i]]; [left; reflexivity| |lia]. cbn [nth l] in P. change (val zero32) with 0%R in P. exfalso. apply (Rlt_irrefl _ P). }
    apply NoDup_incl_length in IC; [|exact ND]. cbn [length] in IC. lia. }
  intros g. destruct (one_row (fun _ _ _ _ => one32) partialSum l 2 false g) as (ls & E & C); [discriminate|intros [X|X]; discriminate|reflexivity|]. exists ls, (snd (nextSequence g)). split; [exact E|]. split.
  - apply (cell_at _ _ 2 _ 0 _ C); [lia|]. vm_compute. reflexivity.
  - apply (cell_at _ _ 2 _ 1 _ C); [lia|]. vm_compute. reflexivity.
Qed.
(* Without categories the call succeeds and leaves the result as the allocation had it. *)
Theorem multinomial_cuda_no_category_refuted : forall draw scan k replacement p out tmp g,
  multinomialCuda draw scan (mkD p [0]) k replacement out tmp g = Ok ([k], [], g) /\
  forall batch, multinomialCuda draw scan (mkD p [batch; 0]) k replacement out tmp g = Ok ([batch; k], [], g).
Proof. intros. split; reflexivity. Qed.
(* Without rows, and with replacement also for no draws, a launch of no blocks is made. *)
Theorem multinomial_cuda_empty_refuted : forall draw scan p out tmp g n k replacement, 0 < n ->
  (forall ls g', multinomialCuda draw scan (mkD p [0; n]) k replacement out tmp g = Ok ([0; k], ls, g') -> exists l, In l ls /\ ~ accepted l) /\
  (forall ls g', multinomialCuda draw scan (mkD p [n]) 0 true out tmp g = Ok ([0], ls, g') -> exists l, In l ls /\ ~ accepted l).
Proof.
  intros draw scan p out tmp g n k replacement Hn. assert (En : n =? 0 = false) by (apply Nat.eqb_neq; lia). split; intros ls g'; unfold multinomialCuda; cbn [dshape dbuf]; rewrite En; cbn [nextSequence].
  - destruct (if k =? 1 then true else replacement); intros X; injection X as <- _; eexists; (split; [left; reflexivity|]); intros [A _]; cbn in A; lia.
  - cbn [Nat.eqb seq map app]. intros X. injection X as <- _. eexists. split; [right; right; left; reflexivity|]. intros [A _]. cbn in A. lia.
Qed.

(* ---- An example: two draws without replacement from each of two rows. *)
Example multinomial_cuda_ex : forall g, let m := mem_of [map (fun w => Some (El w)) [one32; zero32; one32; zero32; one32; one32]; repeat None 4; repeat None 6] in
  exists ls G g', multinomialCuda (fun _ sub _ j => if Z.even sub then two_m33 else one32) neighbours (mkD 0 [2; 3]) 2 false 1 2 g = Ok ([2; 2], ls, g') /\
    computes_all ls m 1 [2] [2; 2] (fun idx => Ix (Z.of_nat (G idx))) /\ G [0; 0] <> 1 /\ G [1; 0] <> 0 /\ G [1; 0] <> G [1; 1].
Proof.
  intros g m. set (W := fun idx => nth (nth 0 idx 0 * 3 + nth 1 idx 0) [one32; zero32; one32; zero32; one32; one32] zero32).
  destruct (multinomial_cuda_draws_partial (fun _ sub _ j => if Z.even sub then two_m33 else one32) neighbours [2] 3 2 false 0 1 2 g m W) as (ls & G & g' & E & C & D); try discriminate; try (apply room_of; reflexivity).
  - apply le_n.
  - apply holds_of. reflexivity.
  - lia.
  - change (numel [2]) with 2. lia.
  - intros [X|X]; discriminate.
  - intros _ sub _ j. destruct (Z.even sub); [apply m33_unit|apply one_unit].
  - intros b i Hb Hi. unfold W. generalize (nth 0 (b ++ [i]) 0 * 3 + nth 1 (b ++ [i]) 0). intros [|[|[|[|[|[|q]]]]]]; cbn [nth]; first [apply one_plain|apply zero_plain|destruct q; apply zero_plain].
  - intros b Hb. right. inversion Hb as [|x d b' s Hx Hb']; subst. inversion Hb'; subst. cbn [app]. destruct x as [|[|x]]; [| |lia].
    + assert (NoDup [0; 2] /\ incl [0; 2] (drawable 3 (fun i => W [0; i]))) as [N I]; [|apply NoDup_incl_length in I; [exact I|exact N]]. split; [repeat constructor; cbn; lia|].
      intros i Hi. apply drawable_in. destruct Hi as [<-|[<-|[]]]; (split; [lia|]); change (0 < val one32)%R; rewrite (proj1 sample_numbers); apply Rlt_0_1.
    + assert (NoDup [1; 2] /\ incl [1; 2] (drawable 3 (fun i => W [1; i]))) as [N I]; [|apply NoDup_incl_length in I; [exact I|exact N]]. split; [repeat constructor; cbn; lia|].
      intros i Hi. apply drawable_in. destruct Hi as [<-|[<-|[]]]; (split; [lia|]); change (0 < val one32)%R; rewrite (proj1 sample_numbers); apply Rlt_0_1.
  - intros [X|X]; discriminate.
  - exists ls, G, g'. split; [exact E|]. split; [exact C|]. destruct (D [0] ltac:(repeat constructor)) as [(_ & A0 & _) _]. destruct (D [1] ltac:(repeat constructor)) as [(_ & A1 & B1) _]. cbn [app] in *.
    split; [|split].
    + intros X. specialize (A0 0 ltac:(lia)). rewrite X in A0. change (0 < 0)%R in A0. apply (Rlt_irrefl _ A0).
    + intros X. specialize (A1 0 ltac:(lia)). rewrite X in A1. change (0 < 0)%R in A1. apply (Rlt_irrefl _ A1).
    + intros X. specialize (B1 eq_refl 0 1 ltac:(lia) ltac:(lia) X). discriminate.
Qed.
Example counts_ex : counts [one32; zero32; one32].
Proof.
  exists [1; 0; 1]%Z. split; [|cbn; lia]. assert (E := proj1 sample_numbers). repeat constructor; try exact E; try lia; try reflexivity.
Qed.
Print Assumptions multinomial_cuda_in_range.
Print Assumptions multinomial_cuda_draws_partial.
Print Assumptions multinomial_cuda_usable_partial.
Print Assumptions sum_from_left.
Print Assumptions counts_any_order.
Print Assumptions from_left_is_usable.
Print Assumptions left_any_order.
Print Assumptions neighbours_any_order.
Print Assumptions multinomial_cuda_rejects.
Print Assumptions multinomial_cuda_order_refuted.
Print Assumptions multinomial_cuda_tiny_refuted.
Print Assumptions multinomial_cuda_nothing_left_refuted.
Print Assumptions multinomial_cuda_no_category_refuted.
Print Assumptions multinomial_cuda_empty_refuted.
Print Assumptions multinomial_cuda_ex.
