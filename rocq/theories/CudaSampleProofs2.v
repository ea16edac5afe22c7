(* Stable sorting and running sums of CUDA tensors. *)
From Coq Require Import List Arith ZArith Bool Lia Permutation.
From Verif Require Import ShapeModel ShapeSpec ShapeProofs TensorModel TensorSpec TensorLemmas BcastModel BufModel BufProofs CutSpec ReduceSpec LineModel LineProofs SoftmaxProofs
  SampleModel SampleSpec SampleProofs GpuModel GpuSpec GpuProofs GpuLemmas GpuOrder CudaModel CudaSpec CudaProofs CudaFillProofs CudaReduceSpec CudaReduceProofs2 CudaReduceProofs3 CudaMeanProofs CudaExtremeProofs5
  CudaItems CudaLineModel CudaLineProofs2 CudaSampleModel CudaSampleSpec CudaSampleProofs.
Import ListNotations.
Local Open Scope nat_scope.

Lemma tensor_of_inj {A} sh (F G : list nat -> A) : tensor_of sh F = tensor_of sh G -> forall idx, valid sh idx -> F idx = G idx.
Proof. intros E idx V. pose proof (rd_of_idx sh F idx V) as A1. pose proof (rd_of_idx sh G idx V) as A2. rewrite E in A1. congruence. Qed.

Lemma sortCuda_full {A} (lt : A -> A -> bool) ssort (P : A -> Prop) sh (F : list nat -> A) dim k desc : stable_contract ssort -> dim_is (length sh) dim k -> strict_weak P lt -> (forall idx, valid sh idx -> P (F idx)) ->
  exists V I, sortCuda lt ssort (tensor_of sh F) dim desc = Ok (tensor_of sh V, tensor_of sh I)
  /\ forall idx, valid sh idx ->
     Permutation (line I true k (nth k sh 0) idx) (seq 0 (nth k sh 0))
     /\ V idx = F (with_coord true k idx (I idx))
     /\ forall i j, i < j < nth k sh 0 ->
        let before := V (with_coord true k idx i) in let after := V (with_coord true k idx j) in
        (if desc then lt before after else lt after before) = false /\
        (lt before after = false -> lt after before = false -> I (with_coord true k idx i) < I (with_coord true k idx j)).
Proof.
  intros HS Hd HP HF. destruct (sortCuda_ok lt ssort (proj1 HS) P sh F dim k desc Hd HP HF) as [E1 E2]. cbv zeta in E1.
  destruct (sort_ok lt ssort (proj1 HS) P sh F dim k desc Hd HP HF) as (V & I & E3 & H). exists V, I. split; [rewrite <- E2; exact E3|].
  rewrite E2, E1 in E3. set (G := fun idx => sortLine lt ssort desc (line F true k (nth k sh 0) idx)) in *.
  assert (EV : forall idx, valid sh idx -> V idx = fst (nth (nth k idx 0) (G idx) (F [], 0))).
  { intros idx Vi. symmetry. revert idx Vi. apply tensor_of_inj. apply (f_equal (fun r => match r with Ok (a, _) => a | _ => tensor_of sh V end)) in E3. exact E3. }
  assert (EI : forall idx, valid sh idx -> I idx = snd (nth (nth k idx 0) (G idx) (F [], 0))).
  { intros idx Vi. symmetry. revert idx Vi. apply tensor_of_inj. apply (f_equal (fun r => match r with Ok (_, a) => a | _ => tensor_of sh I end)) in E3. exact E3. }
  intros idx Vi. destruct (H idx Vi) as (H1 & H2 & H3). split; [exact H1|]. split; [exact H2|]. intros i j Hij before after. split; [apply (H3 i j Hij)|]. intros N1 N2.
  destruct Hd as [Hk Hd]. pose proof (valid_length _ _ Vi) as Lx.
  assert (Vij : forall j, j < nth k sh 0 -> valid sh (with_coord true k idx j)) by (intros q Hq; apply valid_coord; assumption).
  assert (GE : forall j, G (with_coord true k idx j) = G idx) by (intros q; unfold G; rewrite line_twice; reflexivity).
  assert (LG : length (G idx) = nth k sh 0).
  { assert (V' : valid (set_nth sh k (nth k sh 0)) idx) by (rewrite set_nth_same; exact Vi).
    pose proof (sortLine_ok lt ssort (proj1 HS) P desc (line F true k (nth k sh 0) idx) HP (line_all sh k F P idx _ Hk HF V')) as [Q _].
    unfold G. rewrite (Permutation_length Q), entries_length. apply line_length. }
  assert (AT : forall j, j < nth k sh 0 -> nth_error (G idx) j = Some (V (with_coord true k idx j), I (with_coord true k idx j))).
  { intros q Hq. rewrite EV, EI by (apply Vij; exact Hq). rewrite with_coord_nth by lia. rewrite GE. rewrite <- surjective_pairing. apply nth_error_nth'. lia. }
  apply (stable_line lt ssort P desc (line F true k (nth k sh 0) idx) HS HP) with (i := i) (j := j) (x := (V (with_coord true k idx i), I (with_coord true k idx i))) (y := (V (with_coord true k idx j), I (with_coord true k idx j))); try assumption.
  - assert (V' : valid (set_nth sh k (nth k sh 0)) idx) by (rewrite set_nth_same; exact Vi). apply (line_all sh k F P idx _ Hk HF V').
  - lia.
  - apply AT. lia.
  - apply AT. lia.
Qed.

(* ---- running sums ---- *)
Section Scan.
Context {K : cring}.
Add Ring Kring : (cring_ring K).

Lemma plan_scan (m : addr -> cell K) self out base n inner (x : nat -> K) :
  (forall i, i < n -> m (self, Z.of_nat (base + i * inner)) = Some (Some (x i))) -> (forall i, i < n -> m (out, Z.of_nat (base + i * inner)) <> None) ->
  plan (scanLine self out base n inner) m
  = Some (map (fun i => (self, Z.of_nat (base + i * inner))) (seq 0 n), map (fun i => ((out, Z.of_nat (base + i * inner)), sum x (seq 0 (S i)))) (seq 0 n)).
Proof.
  intros HS HO. unfold scanLine.
  enough (G : forall c s, s + c <= n -> plan (each (seq s c) (fun i s k => Ld (self, Z.of_nat (base + i * inner)) (fun x => let s := add s x in St (out, Z.of_nat (base + i * inner)) s (k s))) (sum x (seq 0 s)) (fun _ => Done)) m
    = Some (map (fun i => (self, Z.of_nat (base + i * inner))) (seq s c), map (fun i => ((out, Z.of_nat (base + i * inner)), sum x (seq 0 (S i)))) (seq s c))) by (apply (G n 0); lia).
  induction c as [|c IH]; intros s Hs; [reflexivity|]. cbn [seq each map]. apply plan_ld with (v := x s); [apply HS; lia|]. cbv beta zeta.
  assert (ES : add (sum x (seq 0 s)) (x s) = sum x (seq 0 (S s))).
  { rewrite seq_S, sum_app, Nat.add_0_l. f_equal. rewrite sum_cons, sum_nil. ring. }
  rewrite ES. apply plan_st; [apply HO; lia|]. apply IH. lia.
Qed.


Section Tensor.
Context (m : addr -> cell K) (self out : nat) (sh : list nat) (F : list nat -> K) (dim : Z) (k : nat).
Hypothesis DIM : dim_is (length sh) dim k.
Hypothesis HAS : has m self sh F.
Hypothesis ROOM : room m out (numel sh).
Hypothesis NEQ : self <> out.
Let n := nth k sh 0.
Let outer := outerSize sh k.
Let inner := innerSize sh k.
Let x (o i d : nat) : K := F (offsetToIndices sh (lineOffset n inner o i d)).
Let y (o i d : nat) : K := sum (x o i) (seq 0 (S d)).

Lemma cell_self o i d : o < outer -> i < inner -> d < n -> m (self, Z.of_nat (lineOffset n inner o i d)) = Some (Some (x o i d)).
Proof.
  intros Ho Hi Hd. pose proof (lineOffset_lt outer n inner o i d Ho Hi Hd) as L. pose proof (split_numel sh k (proj1 DIM)) as EN. fold n outer inner in EN. rewrite <- EN in L.
  rewrite (has_ix K m self sh F _ HAS) by lia. rewrite Nat2Z.id. reflexivity.
Qed.
Lemma cell_out (m1 : addr -> cell K) o i d : room m1 out (numel sh) -> o < outer -> i < inner -> d < n -> m1 (out, Z.of_nat (lineOffset n inner o i d)) <> None.
Proof.
  intros HR Ho Hi Hd. pose proof (lineOffset_lt outer n inner o i d Ho Hi Hd) as L. pose proof (split_numel sh k (proj1 DIM)) as EN. fold n outer inner in EN. rewrite <- EN in L.
  apply (room_at K m1 out (numel sh)); [exact HR|lia].
Qed.
Lemma scan_offset o i d : o * n * inner + i + d * inner = lineOffset n inner o i d.
Proof. rewrite lineOffset_alt. ring. Qed.

(* what the elements of the result are *)
Lemma scan_has m' : (forall o i d, o < outer -> i < inner -> d < n -> m' (out, Z.of_nat (lineOffset n inner o i d)) = Some (Some (y o i d))) ->
  (forall z, ~ (0 <= z < Z.of_nat (numel sh))%Z -> m' (out, z) = m (out, z)) ->
  has m' out sh (fun idx => sum (fun j => F (with_coord true k idx j)) (seq 0 (S (nth k idx 0)))).
Proof.
  intros A B. pose proof (proj1 DIM) as Hk. pose proof (split_numel sh k Hk) as EN. fold n outer inner in EN.
  apply has_eq with (F := fun idx => (fun p => y (p / inner / n) (p mod inner) (p / inner mod n)) (ravel sh idx)).
  - apply (has_cells m m' out sh (fun p => y (p / inner / n) (p mod inner) (p / inner mod n)) ROOM); [|exact B].
    intros p Hp. rewrite EN in Hp. destruct (lineOffset_all outer n inner p Hp) as (E & A1 & A2 & A3). rewrite E at 1. apply A; assumption.
  - intros idx Vi. cbv beta. pose proof (ravel_lt sh idx Vi) as HL. rewrite EN in HL. destruct (lineOffset_all outer n inner _ HL) as (E & A1 & B1 & C).
    rewrite (line_self sh k idx Hk Vi) in E at 1. fold n inner in E. destruct (split_valid sh k idx Hk Vi) as (V1 & V2 & V3).
    apply lineOffset_inj in E; [|apply ravel_lt, V3|exact B1|exact V2|exact C]. destruct E as (<- & <- & <-). unfold y. apply sum_ext. intros j Hj. apply in_seq in Hj.
    apply (line_elem sh k F idx j Hk Vi). lia.
Qed.

(* one line after another *)
Lemma scans_run : inner = 1 -> forall c o0 m1, o0 + c <= outer -> room m1 out (numel sh) -> (forall z, m1 (self, z) = m (self, z)) ->
  always_all (map (fun o => inclusiveScan self out (o * n) n) (seq o0 c)) m1 (fun m' =>
    (forall o d, o0 <= o < o0 + c -> d < n -> m' (out, Z.of_nat (lineOffset n inner o 0 d)) = Some (Some (y o 0 d))) /\
    (forall a, (forall o d, o0 <= o < o0 + c -> d < n -> a <> (out, Z.of_nat (lineOffset n inner o 0 d))) -> m' a = m1 a)).
Proof.
  intros EI. induction c as [|c IH]; intros o0 m1 Ho HR HM; [cbn; split; [intros; lia|reflexivity]|]. cbn [seq map].
  assert (OFF : forall d, o0 * n + d * 1 = lineOffset n inner o0 0 d) by (intros d; rewrite <- scan_offset, EI; ring).
  assert (PL : plan (scanLine self out (o0 * n) n 1) m1 = Some (map (fun i => (self, Z.of_nat (o0 * n + i * 1))) (seq 0 n), map (fun i => ((out, Z.of_nat (o0 * n + i * 1)), sum (x o0 0) (seq 0 (S i)))) (seq 0 n))).
  { apply plan_scan; intros i Hi; rewrite OFF; [rewrite HM; apply cell_self; lia|apply cell_out; [exact HR|lia|lia|exact Hi]]. }
  eapply always_all_cons.
  - apply (covers_at (inclusiveScan self out (o0 * n) n) m1 out (Z.of_nat (o0 * n)) (Z.of_nat n) (fun i => y o0 0 (Z.to_nat i))).
    + split; [cbn; lia|]. split; [cbn; lia|cbn; lia].
    + intros b t _ _. cbn [code inclusiveScan]. eexists _, _. split; [exact PL|]. split.
      * intros a Ha Ea. apply in_map_iff in Ha as (i & <- & _). cbn in Ea. congruence.
      * intros a v Hav. apply in_map_iff in Hav as (i & E & Hi). apply in_seq in Hi. injection E as <- <-. exists (Z.of_nat i). split; [lia|]. split; [f_equal; lia|]. rewrite Nat2Z.id. reflexivity.
    + intros i Hi. exists 0, 0. split; [cbn; lia|]. split; [cbn; lia|]. intros R W E. cbn [code inclusiveScan] in E. rewrite PL in E. injection E as _ <-.
      apply in_map_iff. exists (Z.to_nat i). split; [|apply in_seq; lia]. f_equal. f_equal. lia.
  - intros m' [Q1 Q2]. assert (NE : forall z, m' (self, z) = m1 (self, z)) by (intros z; apply Q2; intros i _ X; injection X; congruence).
    assert (HR' : room m' out (numel sh)).
    { intros z. destruct (Z_lt_dec z (Z.of_nat (o0 * n))) as [L|L].
      - rewrite Q2 by (intros i Hi X; injection X; lia). apply HR.
      - destruct (Z_lt_dec z (Z.of_nat (o0 * n) + Z.of_nat n)) as [L'|L'].
        + specialize (Q1 (z - Z.of_nat (o0 * n))%Z). replace (Z.of_nat (o0 * n) + (z - Z.of_nat (o0 * n)))%Z with z in Q1 by lia. rewrite Q1 by lia.
          split; [discriminate|]. intros X. exfalso. apply X. pose proof (lineOffset_lt outer n inner o0 0 (Z.to_nat z - o0 * n)) as Y. rewrite <- OFF in Y.
          pose proof (split_numel sh k (proj1 DIM)) as EN. fold n outer inner in EN. lia.
        + rewrite Q2 by (intros i Hi X; injection X; lia). apply HR. }
    eapply always_all_mono; [|apply (IH (S o0) m'); [lia|exact HR'|intros z; rewrite NE; apply HM]].
    intros m2 [P1 P2]. split.
    + intros o d Hoo Hd. destruct (Nat.eq_dec o o0) as [->|Ne].
      * rewrite P2.
        -- specialize (Q1 (Z.of_nat d)). rewrite <- OFF. replace (Z.of_nat (o0 * n + d * 1)) with (Z.of_nat (o0 * n) + Z.of_nat d)%Z by lia. rewrite Q1 by lia. rewrite Nat2Z.id. reflexivity.
        -- intros o' d' Ho' Hd' X. injection X as X. apply Nat2Z.inj in X. apply lineOffset_inj in X; lia.
      * apply P1; lia.
    + intros a Ha. rewrite P2 by (intros o d Hoo Hd; apply Ha; lia). apply Q2. intros i Hi X. subst a. apply (Ha o0 (Z.to_nat i)); [lia|lia|]. rewrite <- OFF. f_equal. lia.
Qed.

Hypothesis SMALL : (Z.of_nat (outer * inner) < 2 ^ 31)%Z.

Lemma cumsumCuda_ok : exists ls, cumsumCuda (mkD self sh) dim out = Ok (sh, ls) /\
  computes_all ls m out [] sh (fun idx => sum (fun j => F (with_coord true k idx j)) (seq 0 (S (nth k idx 0)))).
Proof.
  pose proof (proj1 DIM) as Hk. pose proof (split_numel sh k Hk) as EN. fold n outer inner in EN.
  unfold cumsumCuda. cbn [dshape dbuf]. replace (axis (length sh) dim) with (Some k) by (symmetry; apply axis_some; exact DIM). cbv zeta. fold n outer inner.
  eexists. split; [reflexivity|]. unfold computes_all. destruct (Nat.eqb_spec inner 1) as [EI|NI].
  - eapply always_all_mono; [|apply (scans_run EI outer 0 m); [lia|exact ROOM|reflexivity]]. intros m' [Q1 Q2]. split.
    + apply scan_has.
      * intros o i d Ho Hi Hd. assert (i = 0) as -> by lia. apply Q1; lia.
      * intros z Hz. apply Q2. intros o d Ho Hd X. injection X as X. pose proof (lineOffset_lt outer n inner o 0 d ltac:(lia) ltac:(lia) Hd). lia.
    + intros p Hp _ i. apply Q2. intros o d _ _ X. injection X. congruence.
  - unfold forEachN. destruct (Nat.eqb_spec (outer * inner) 0) as [Z0|NZ].
    + split; [|reflexivity]. apply scan_has; [|reflexivity]. intros o i d Ho Hi Hd. exfalso. assert (0 < outer * inner) by (apply Nat.mul_pos_pos; lia). lia.
    + assert (HI : 0 < inner) by (destruct inner; [rewrite Nat.mul_0_r in NZ; lia|lia]).
      assert (ROW : forall r, r < outer * inner -> r / inner < outer /\ r mod inner < inner) by (intros r Hr; split; [apply Nat.div_lt_upper_bound; lia|apply Nat.mod_upper_bound; lia]).
      assert (PL : forall r, r < outer * inner -> plan (scanLine self out (r / inner * n * inner + r mod inner) n inner) m
        = Some (map (fun d => (self, Z.of_nat (r / inner * n * inner + r mod inner + d * inner))) (seq 0 n), map (fun d => ((out, Z.of_nat (r / inner * n * inner + r mod inner + d * inner)), sum (x (r / inner) (r mod inner)) (seq 0 (S d)))) (seq 0 n))).
      { intros r Hr. destruct (ROW r Hr) as [Ro Ri]. apply plan_scan; intros d Hd; rewrite scan_offset; [apply cell_self; assumption|apply cell_out; assumption]. }
      set (f := fun z => let p := Z.to_nat z in y (p / inner / n) (p mod inner) (p / inner mod n)).
      assert (FV : forall o i d, i < inner -> d < n -> f (Z.of_nat (lineOffset n inner o i d)) = y o i d).
      { intros o i d Hi Hd. unfold f. rewrite Nat2Z.id. cbv zeta. rewrite lineOffset_alt. destruct (div_prod (o * n + d) i inner Hi) as [-> ->]. destruct (div_prod o d n Hd) as [-> ->]. reflexivity. }
      cbn [always_all]. eapply always_mono.
      * apply (covers_at _ m out 0 (Z.of_nat (numel sh)) f).
        -- split; [cbn [grid]; lia|]. split; [cbn [grid]; lia|cbn; lia].
        -- intros b t Hb _. cbn [grid] in Hb. cbn [code]. destruct (ROW b Hb) as [Ro Ri]. eexists _, _. split; [exact (PL b Hb)|]. split.
           ++ intros a Ha Ea. apply in_map_iff in Ha as (d & <- & _). cbn in Ea. congruence.
           ++ intros a v Hav. apply in_map_iff in Hav as (d & E & Hd). apply in_seq in Hd. injection E as <- <-. rewrite scan_offset. exists (Z.of_nat (lineOffset n inner (b / inner) (b mod inner) d)).
              pose proof (lineOffset_lt outer n inner _ _ d Ro Ri ltac:(lia)). split; [lia|]. split; [reflexivity|]. rewrite FV by (try assumption; lia). reflexivity.
        -- intros z Hz. pose proof (lineOffset_all outer n inner (Z.to_nat z) ltac:(lia)) as (E & A1 & A2 & A3). set (o := Z.to_nat z / inner / n) in *. set (i := Z.to_nat z mod inner) in *. set (d := (Z.to_nat z / inner) mod n) in *.
           exists (o * inner + i), 0. cbn [grid bdim code]. assert (Hr : o * inner + i < outer * inner) by (assert (S o * inner <= outer * inner) by (apply Nat.mul_le_mono_r; lia); lia).
           split; [exact Hr|]. split; [lia|]. intros R W EP. rewrite (PL _ Hr) in EP. injection EP as _ <-. destruct (div_prod o i inner A2) as [-> ->]. apply in_map_iff. exists d. split; [|apply in_seq; lia].
           replace z with (Z.of_nat (lineOffset n inner o i d)) by lia. rewrite scan_offset, FV by assumption. reflexivity.
      * intros m' [Q1 Q2]. cbn [Z.add] in Q1, Q2. split.
        -- apply scan_has.
           ++ intros o i d Ho Hi Hd. pose proof (lineOffset_lt outer n inner o i d Ho Hi Hd). rewrite Q1 by lia. rewrite FV by assumption. reflexivity.
           ++ intros z Hz. apply Q2. intros i Hi X. injection X as X. lia.
        -- intros p Hp _ i. apply Q2. intros j _ X. injection X. congruence.
Qed.
End Tensor.
Lemma cumsumCuda_bad self sh dim out : (forall k, ~ dim_is (length sh) dim k) -> cumsumCuda (K := K) (mkD self sh) dim out = Fail.
Proof. intro H. unfold cumsumCuda. cbn [dshape]. destruct (axis (length sh) dim) as [k|] eqn:E; auto. apply axis_some in E. destruct (H k). exact E. Qed.
End Scan.
