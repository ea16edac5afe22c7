(* multinomial on the device as a whole. *)
From Coq Require Import List Arith ZArith Bool Lia.
From Flocq Require Import IEEE754.BinarySingleNaN IEEE754.Binary IEEE754.Bits.
From Verif Require Import ShapeModel ShapeSpec ShapeProofs TensorModel TensorSpec TensorLemmas BcastModel BufModel MultiModel MultiSpec MultiProofs MultiProofs2
  GpuModel GpuSpec GpuProofs GpuLemmas CudaModel CudaSpec CudaProofs CudaFillModel CudaFillProofs CudaMoveModel CudaExtremeModel CudaLineModel CudaReduceSpec CudaReduceProofs2 CudaReduceProofs3 CudaMeanProofs CudaExtremeProofs5
  CudaMultiModel CudaMultiSpec CudaMultiProofs CudaMultiProofs2 CudaMultiProofs3.
Import ListNotations.
Local Open Scope nat_scope.

Section Scans.
Context (scan : list f32 -> list f32) (tmp batch n : nat) (W : nat -> nat -> f32).
Hypothesis LEN : forall b, b < batch -> length (scan (map (W b) (seq 0 n))) = n.
Lemma scans_run : forall len s (m : addr -> cell W32) (Q : (addr -> cell W32) -> Prop), s + len = batch ->
  (forall b i, b < s -> i < n -> m (tmp, Z.of_nat (b * n + i)) = Some (Some (El (nth i (scan (map (W b) (seq 0 n))) f0)))) ->
  (forall b i, s <= b < batch -> i < n -> m (tmp, Z.of_nat (b * n + i)) = Some (Some (El (W b i)))) ->
  (forall m', (forall b i, b < batch -> i < n -> m' (tmp, Z.of_nat (b * n + i)) = Some (Some (El (nth i (scan (map (W b) (seq 0 n))) f0)))) -> (forall a, fst a <> tmp -> m' a = m a) -> Q m') ->
  always_all (map (fun b => scanInPlace scan tmp (b * n) n) (seq s len)) m Q.
Proof.
  induction len as [|len IH]; intros s m Q E H1 H2 HQ; cbn [seq map].
  - cbn [always_all]. apply HQ; [|reflexivity]. intros b i Hb Hi. apply H1; [lia|exact Hi].
  - eapply always_all_cons; [apply scan_run with (x := W s)|].
    + intros i Hi. apply H2; [lia|exact Hi].
    + apply LEN. lia.
    + cbv beta. intros m' [A B]. assert (B' : forall b i, b <> s -> i < n -> m' (tmp, Z.of_nat (b * n + i)) = m (tmp, Z.of_nat (b * n + i))).
      { intros b i N Hi. apply B. intros j Hj X. injection X as X. assert (b = s) by nia. contradiction. }
      apply IH; [lia| | |].
      * intros b i Hb Hi. destruct (Nat.eq_dec b s) as [->|N]; [apply A, Hi|]. rewrite B' by assumption. apply H1; [lia|exact Hi].
      * intros b i Hb Hi. rewrite B' by (assumption || lia). apply H2; [lia|exact Hi].
      * intros m'' H3 H4. apply HQ; [exact H3|]. intros a Na. rewrite H4 by exact Na. apply B. intros i _ ->. apply Na. reflexivity.
Qed.
End Scans.

(* What is drawn. *)
Definition drawn (draw : Z -> Z -> Z -> nat -> f32) (scan : list f32 -> list f32) (rep : bool) (n k : nat) (W : nat -> nat -> f32) (seed seq_ : Z) (b s : nat) : nat :=
  if rep then withF (fun i => nth i (scan (map (W b) (seq 0 n))) f0) n (draw seed (Z.of_nat (b * k + s)) seq_ 0)
  else nth s (noF k (W b) n (draw seed (Z.of_nat b) seq_) 0) 0.

Section All.
Context (draw : Z -> Z -> Z -> nat -> f32) (scan : list f32 -> list f32) (lead : list nat) (n k : nat) (replacement : bool) (p out tmp : nat) (g : cudaGen) (m : addr -> cell W32) (W : list nat -> f32).
Hypothesis LEAD : length lead <= 1.
Hypothesis IN : has m p (lead ++ [n]) (fun idx => El (W idx)).
Hypothesis ROUT : room m out (numel (lead ++ [k])).
Hypothesis RTMP : room m tmp (numel (lead ++ [n])).
Hypothesis N1 : p <> out.
Hypothesis N2 : p <> tmp.
Hypothesis N3 : out <> tmp.
Hypothesis HN : 0 < n.
Hypothesis HB : (0 < Z.of_nat (numel lead) < 2 ^ 31)%Z.
Let rep := if k =? 1 then true else replacement.
Hypothesis HK : rep = true -> (0 < Z.of_nat (numel lead * k) <= 2 ^ 32)%Z.
Let Wf (b i : nat) : f32 := W (offsetToIndices lead b ++ [i]).
Hypothesis LEN : rep = true -> forall b, b < numel lead -> length (scan (map (Wf b) (seq 0 n))) = n.

Lemma numel_snoc d : numel (lead ++ [d]) = numel lead * d.
Proof. rewrite numel_app, numel_cons. change (numel []) with 1. lia. Qed.
Lemma ravel_snoc b d i : valid lead b -> ravel (lead ++ [d]) (b ++ [i]) = ravel lead b * d + i.
Proof. intros H. rewrite ravel_app by (apply valid_length in H; exact H). rewrite ravel_cons, numel_cons. change (numel []) with 1. change (ravel [] []) with 0. lia. Qed.
Lemma in_cell b i : b < numel lead -> i < n -> m (p, Z.of_nat (b * n + i)) = Some (Some (El (Wf b i))).
Proof.
  intros Hb Hi. pose proof (o2i_valid lead b Hb) as V. assert (V2 : valid (lead ++ [n]) (offsetToIndices lead b ++ [i])) by (apply valid_app; [apply valid_length, V|split; [exact V|repeat constructor; exact Hi]]).
  pose proof (has_at _ m p _ _ _ IN V2) as E. rewrite ravel_snoc in E by exact V. rewrite ravel_o2i in E by exact Hb. exact E.
Qed.
Lemma multi_run : exists ls, multinomialCuda draw scan (mkD p (lead ++ [n])) k replacement out tmp g = Ok (lead ++ [k], ls, snd (nextSequence g)) /\
  computes_all ls m out [tmp] (lead ++ [k]) (fun idx => Ix (Z.of_nat (drawn draw scan rep n k Wf (gseed g) (gseq g) (ravel (lead ++ [k]) idx / k) (ravel (lead ++ [k]) idx mod k)))).
Proof.
  assert (B0 : 0 < numel lead) by lia. pose proof in_cell as CELL. clear IN.
  set (ls := if rep then kPrepareProbabilities p tmp n (numel lead) :: map (fun b => scanInPlace scan tmp (b * n) n) (seq 0 (numel lead)) ++ [kMultinomialWithReplacement draw tmp out (numel lead) n k (gseed g) (gseq g)]
             else [kMultinomialNoReplacement draw p out tmp (numel lead) n k (gseed g) (gseq g)]).
  exists ls. split.
  - unfold multinomialCuda. cbn [dshape dbuf]. destruct lead as [|b [|? ?]]; [| |exfalso; simpl in LEAD; lia]; cbn [app]; destruct (Nat.eqb_spec n 0); try lia; unfold ls; fold rep.
    + change (numel []) with 1. destruct rep; reflexivity.
    + replace (numel [b]) with b by (rewrite numel_cons; change (numel []) with 1; lia). destruct rep; reflexivity.
  - assert (RT : forall z, (0 <= z < Z.of_nat (numel lead * n))%Z -> m (tmp, z) <> None) by (intros z Hz; apply (room_at _ m tmp (numel (lead ++ [n])) z RTMP); rewrite numel_snoc; exact Hz).
    assert (RO : forall z, (0 <= z < Z.of_nat (numel lead * k))%Z -> m (out, z) <> None) by (intros z Hz; apply (room_at _ m out (numel (lead ++ [k])) z ROUT); rewrite numel_snoc; exact Hz).
    assert (FIN : forall m', (forall q, q < numel lead * k -> m' (out, Z.of_nat q) = Some (Some (Ix (Z.of_nat (drawn draw scan rep n k Wf (gseed g) (gseq g) (q / k) (q mod k)))))) ->
      (forall a, fst a <> tmp -> (forall z, (0 <= z < Z.of_nat (numel lead * k))%Z -> a <> (out, z)) -> m' a = m a) ->
      has m' out (lead ++ [k]) (fun idx => Ix (Z.of_nat (drawn draw scan rep n k Wf (gseed g) (gseq g) (ravel (lead ++ [k]) idx / k) (ravel (lead ++ [k]) idx mod k)))) /\ forall q, q <> out -> ~ In q [tmp] -> forall i, m' (q, i) = m (q, i)).
    { intros m' A B. split.
      - apply (has_cells m m' out (lead ++ [k]) (fun q => Ix (Z.of_nat (drawn draw scan rep n k Wf (gseed g) (gseq g) (q / k) (q mod k)))) ROUT).
        + intros q Hq. rewrite numel_snoc in Hq. apply A, Hq.
        + intros i Hi. rewrite numel_snoc in Hi. apply B; [exact N3|]. intros z Hz X. injection X as ->. apply Hi, Hz.
      - intros q Nq Hq i. apply B; [intros E; apply Hq; left; cbn [fst] in E; congruence|]. intros z _ X. injection X as X _. contradiction. }
    unfold computes_all, ls. destruct rep eqn:ER.
    + specialize (HK eq_refl). assert (K0 : k <> 0) by nia. eapply always_all_cons; [apply prepare_run with (W := Wf); [intros b i Hb Hi; apply CELL; assumption|exact RT|exact N2|exact B0|lia]|].
      cbv beta. intros m1 [A1 B1]. apply always_all_app. apply scans_run with (W := Wf) (batch := numel lead) (s := 0); [exact (LEN eq_refl)|reflexivity|intros b i Hb; lia|intros b i [_ Hb] Hi; apply A1; assumption|].
      intros m2 A2 B2. assert (B2' : forall a, fst a <> tmp -> m2 a = m a) by (intros a Na; rewrite B2 by exact Na; apply B1; intros z _ ->; apply Na; reflexivity).
      eapply always_all_cons; [apply with_run with (c := fun b i => nth i (scan (map (Wf b) (seq 0 n))) f0); [exact A2|intros z Hz; rewrite B2' by exact N3; apply RO, Hz|congruence|exact HN|exact HK]|].
      cbv beta. intros m3 [A3 B3]. cbn [always_all]. apply FIN.
      * intros q Hq. rewrite A3 by exact Hq. unfold drawn. do 4 f_equal. rewrite Nat.mul_comm, <- Nat.div_mod by exact K0. reflexivity.
      * intros a Na Ha. rewrite B3 by exact Ha. apply B2', Na.
    + eapply always_all_cons; [apply no_run with (W := Wf); [intros b i Hb Hi; apply CELL; assumption|exact RT|exact RO|exact N2|exact N3|exact N1|exact HN|exact B0|lia]|].
      cbv beta. intros m1 [A1 B1]. cbn [always_all]. apply FIN; [|exact B1]. intros q Hq. assert (K0 : k <> 0) by nia.
      specialize (A1 (q / k) (q mod k)). rewrite (Nat.mul_comm (q / k)), <- Nat.div_mod in A1 by exact K0. unfold drawn. apply A1; [apply Nat.div_lt_upper_bound; lia|apply Nat.mod_upper_bound, K0].
Qed.
Lemma drawn_at b s : valid lead b -> s < k -> drawn draw scan rep n k Wf (gseed g) (gseq g) (ravel (lead ++ [k]) (b ++ [s]) / k) (ravel (lead ++ [k]) (b ++ [s]) mod k) = drawn draw scan rep n k Wf (gseed g) (gseq g) (ravel lead b) s.
Proof.
  intros Hb Hs. rewrite ravel_snoc by exact Hb. rewrite Nat.add_comm, Nat.div_add, Nat.mod_add, Nat.div_small, Nat.mod_small by lia. reflexivity.
Qed.
Lemma drawn_lt b s : drawn draw scan rep n k Wf (gseed g) (gseq g) b s < n.
Proof.
  unfold drawn. destruct rep; [apply withF_lt, HN|]. destruct (Nat.lt_ge_cases s k) as [H|H].
  - pose proof (noF_lt n (draw (gseed g) (Z.of_nat b) (gseq g)) HN k (Wf b) 0) as F. rewrite Forall_forall in F. apply F, nth_In. rewrite noF_length. exact H.
  - rewrite nth_overflow by (rewrite noF_length; exact H). exact HN.
Qed.
(* The random number of a draw. *)
Definition rand (b s : nat) : f32 := if replacement || (k =? 1) then draw (gseed g) (Z.of_nat (b * k + s)) (gseq g) 0 else draw (gseed g) (Z.of_nat b) (gseq g) s.
Lemma rep_or : rep = replacement || (k =? 1).
Proof. unfold rep. destruct (k =? 1), replacement; reflexivity. Qed.

Hypothesis RAND : forall seed sub off j, in_unit_right (draw seed sub off j).
Hypothesis PL : forall b i, valid lead b -> i < n -> plain (W (b ++ [i])).
Hypothesis EN : forall b, valid lead b -> enough replacement k n (fun i => W (b ++ [i])).

Lemma rows b : valid lead b -> forall i, Wf (ravel lead b) i = W (b ++ [i]).
Proof.
  intros Hb i. unfold Wf. f_equal. f_equal. apply (ravel_inj lead); [apply o2i_valid, ravel_lt, Hb|exact Hb|]. apply ravel_o2i, ravel_lt, Hb.
Qed.
Lemma valid_rep j W' d : valid_draws rep j n W' d -> (j <= k)%nat -> (j <> 0 -> j = k) -> valid_draws replacement j n W' d.
Proof.
  intros (A & B & C) Hj Hjk. split; [exact A|]. split; [exact B|]. intros E. rewrite rep_or, E in C. cbn [orb] in C. destruct (Nat.eqb_spec k 1) as [->|N]; [|apply C; reflexivity]. intros s s' H1 H2 _. lia.
Qed.
Lemma some_left b : valid lead b -> rep = true -> (1 <= length (drawable n (fun i => W (b ++ [i]))))%nat.
Proof.
  intros Hb ER. pose proof (HK ER) as HK'. destruct (EN b Hb) as [E|E]; [rewrite E in HK'; lia|]. rewrite rep_or in ER. destruct replacement; [exact E|]. cbn [orb] in ER. apply Nat.eqb_eq in ER. lia.
Qed.
Lemma row_list b : valid lead b -> map (Wf (ravel lead b)) (seq 0 n) = map (fun i => W (b ++ [i])) (seq 0 n).
Proof. intros Hb. apply map_ext. intros i. apply rows, Hb. Qed.
Lemma drawn_with b s : valid lead b -> rep = true -> drawn draw scan rep n k Wf (gseed g) (gseq g) (ravel lead b) s
  = withF (fun i => nth i (scan (map (fun i => W (b ++ [i])) (seq 0 n))) f0) n (rand (ravel lead b) s).
Proof. intros Hb ER. unfold drawn. rewrite ER, row_list by exact Hb. unfold rand. rewrite <- rep_or, ER. reflexivity. Qed.
Lemma totalF_ext w w' n' : (forall i, w i = w' i) -> totalF w n' = totalF w' n'.
Proof. intros H. unfold totalF. generalize f0. induction (seq 0 n') as [|j l IH]; intros a; [reflexivity|]. cbn [fold_left]. rewrite H. apply IH. Qed.
Lemma findF_ext w w' r : (forall i, w i = w' i) -> forall rest i acc, findF rest w i r acc = findF rest w' i r acc.
Proof. intros H. induction rest as [|rest IH]; intros i acc; cbn [findF]; [reflexivity|]. rewrite H, IH. reflexivity. Qed.
Lemma noF_ext n' us : forall j w w' d, (forall i, w i = w' i) -> noF j w n' us d = noF j w' n' us d.
Proof.
  induction j as [|j IH]; intros w w' d H; cbn [noF]; [reflexivity|]. rewrite (totalF_ext w w') by exact H. destruct (flt f0 (totalF w' n')); [|f_equal; apply IH, H].
  rewrite (findF_ext w w') by exact H. f_equal. apply IH. intros i. unfold clearF. rewrite H. reflexivity.
Qed.
Lemma no_law b : valid lead b -> rep = false -> draws_by_weight_right replacement k n (fun i => W (b ++ [i])) (rand (ravel lead b)) (drawn draw scan rep n k Wf (gseed g) (gseq g) (ravel lead b)).
Proof.
  intros Hb ER. pose proof ER as ER'. rewrite rep_or in ER'. apply orb_false_iff in ER'. destruct ER' as [E0 E1].
  unfold drawn, rand. rewrite ER, E0. cbn [orb]. rewrite E1. destruct (EN b Hb) as [Ek|E]; [intros s Hs; lia|]. rewrite E0 in E.
  intros s Hs w. pose proof (noF_law n (draw (gseed g) (Z.of_nat (ravel lead b)) (gseq g)) (fun j => RAND _ _ _ _) k (fun i => W (b ++ [i])) 0 (fun i Hi => PL b i Hb Hi) E s Hs) as L. cbv zeta in L.
  rewrite (noF_ext n _ k _ (Wf (ravel lead b)) 0) in L by (intros i; symmetry; apply rows, Hb). exact L.
Qed.
Lemma all_law b : valid lead b -> (rep = true -> from_left_on scan (map (fun i => W (b ++ [i])) (seq 0 n))) ->
  draws_by_weight_right replacement k n (fun i => W (b ++ [i])) (rand (ravel lead b)) (drawn draw scan rep n k Wf (gseed g) (gseq g) (ravel lead b)).
Proof.
  intros Hb HS. destruct (Bool.bool_dec rep true) as [ER|ER]; [|apply Bool.not_true_is_false in ER; apply no_law; assumption].
  assert (L : draws_by_weight_right true k n (fun i => W (b ++ [i])) (rand (ravel lead b)) (fun s => drawn draw scan rep n k Wf (gseed g) (gseq g) (ravel lead b) s)).
  { intros s Hs w. pose proof (with_law scan n k (fun i => W (b ++ [i])) (rand (ravel lead b)) HN (fun i Hi => PL b i Hb Hi) (some_left b Hb ER)) as L. unfold w, weights_at. cbn [negb andb].
    rewrite drawn_with by assumption. apply L; [|apply HS, ER|exact Hs]. intros j. unfold rand. destruct (replacement || (k =? 1)); apply RAND. }
  pose proof ER as ER'. rewrite rep_or in ER'. apply orb_true_iff in ER'. destruct ER' as [E|E]; [intros s Hs w; unfold w, weights_at; rewrite E; exact (L s Hs)|]. apply Nat.eqb_eq in E.
  intros s Hs w. assert (s = 0) by lia. subst s. specialize (L 0 Hs). unfold w, weights_at in *. cbn [seq existsb] in *. rewrite andb_false_r in *. exact L.
Qed.
Lemma all_valid b : valid lead b -> (rep = true -> usable_on scan (map (fun i => W (b ++ [i])) (seq 0 n))) ->
  valid_draws replacement k n (fun i => W (b ++ [i])) (drawn draw scan rep n k Wf (gseed g) (gseq g) (ravel lead b)).
Proof.
  intros Hb HS. destruct (Bool.bool_dec rep true) as [ER|ER].
  - apply valid_rep; [|lia|reflexivity]. assert (V : valid_draws true k n (fun i => W (b ++ [i])) (fun s => withF (fun i => nth i (scan (map (fun i => W (b ++ [i])) (seq 0 n))) f0) n (rand (ravel lead b) s))).
    { apply with_valid; [exact HN|intros i Hi; apply PL; assumption|apply some_left; assumption| |apply HS, ER]. intros j. unfold rand. destruct (replacement || (k =? 1)); apply RAND. }
    destruct V as (V1 & V2 & _). split; [intros s _; apply drawn_lt|]. split; [|rewrite ER; discriminate]. intros s Hs. rewrite drawn_with by assumption. apply V2, Hs.
  - apply Bool.not_true_is_false in ER. apply law_valid with (u := rand (ravel lead b)); [intros i Hi; apply plain_nonneg, PL; assumption|intros s _; apply drawn_lt|apply no_law; assumption].
Qed.
Lemma law_ext rep' k' n' W' u d d' : (forall s, s < k' -> d s = d' s /\ d s < n') -> draws_by_weight_right rep' k' n' W' u d -> draws_by_weight_right rep' k' n' W' u d'.
Proof.
  intros H D s Hs w. specialize (D s Hs). cbv zeta in D. destruct (H s Hs) as [E L]. rewrite <- E.
  assert (EW : forall j, weights_at rep' W' d s j = w j).
  { intros j. unfold w, weights_at. assert (Q : forall l, (forall s', In s' l -> s' < k') -> existsb (fun s' => d s' =? j) l = existsb (fun s' => d' s' =? j) l).
    { induction l as [|a l IH]; intros Hl; [reflexivity|]. cbn [existsb]. rewrite IH by (intros; apply Hl; right; assumption). destruct (H a) as [-> _]; [apply Hl; left; reflexivity|reflexivity]. }
    rewrite Q; [reflexivity|]. intros s' Hs'. apply in_seq in Hs'. lia. }
  rewrite <- !(fsum_ext (weights_at rep' W' d s) w) by (intros; apply EW). exact D.
Qed.
Theorem multi_valid : (rep = true -> forall b, valid lead b -> usable_on scan (map (fun i => W (b ++ [i])) (seq 0 n))) ->
  exists ls G, multinomialCuda draw scan (mkD p (lead ++ [n])) k replacement out tmp g = Ok (lead ++ [k], ls, snd (nextSequence g)) /\
    computes_all ls m out [tmp] (lead ++ [k]) (fun idx => Ix (Z.of_nat (G idx))) /\ forall b, valid lead b -> valid_draws replacement k n (fun i => W (b ++ [i])) (fun s => G (b ++ [s])).
Proof.
  intros SC. destruct multi_run as (ls & E & C). exists ls. eexists. split; [exact E|]. split; [exact C|]. intros b Hb. eapply draws_ext; [|apply (all_valid b Hb); intros ER; apply SC; assumption].
  intros s Hs. cbv beta. symmetry. apply drawn_at; assumption.
Qed.
Theorem multi_law : (rep = true -> forall b, valid lead b -> from_left_on scan (map (fun i => W (b ++ [i])) (seq 0 n))) ->
  exists ls G, multinomialCuda draw scan (mkD p (lead ++ [n])) k replacement out tmp g = Ok (lead ++ [k], ls, snd (nextSequence g)) /\
    computes_all ls m out [tmp] (lead ++ [k]) (fun idx => Ix (Z.of_nat (G idx))) /\ forall b, valid lead b -> valid_draws replacement k n (fun i => W (b ++ [i])) (fun s => G (b ++ [s])) /\
      draws_by_weight_right replacement k n (fun i => W (b ++ [i])) (rand (ravel lead b)) (fun s => G (b ++ [s])).
Proof.
  intros SC. destruct multi_run as (ls & E & C). exists ls. eexists. split; [exact E|]. split; [exact C|]. intros b Hb. split.
  - eapply draws_ext; [|apply (all_valid b Hb)].
    + intros s Hs. cbv beta. symmetry. apply drawn_at; assumption.
    + intros ER. apply from_left_usable; [|apply SC; assumption]. apply Forall_forall. intros w Hw. apply in_map_iff in Hw. destruct Hw as (i & <- & Hi). apply in_seq in Hi. apply PL; [exact Hb|lia].
  - eapply law_ext; [|apply (all_law b Hb); intros ER; apply SC; assumption]. intros s Hs. split; [symmetry; apply drawn_at; assumption|apply drawn_lt].
Qed.
End All.
