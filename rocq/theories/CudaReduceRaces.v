(* The second round of a merge reads and writes the same buffer: with more than
   one block the result depends on the order of the blocks. *)
From Coq Require Import List Arith ZArith Bool Lia Permutation.
From Verif Require Import ShapeModel ShapeSpec ShapeProofs TensorModel TensorSpec TensorLemmas BcastModel BufModel BufProofs CutSpec ReduceModel ReduceSpec ReduceProofs2
  GpuModel GpuSpec GpuProofs GpuLemmas GpuOrder GpuWarp
  CudaModel CudaSpec CudaProofs CudaItems CudaFillProofs CudaMoveModel CudaReduceModel CudaReduceSpec CudaReduceProofs CudaReduceProofs2 CudaReduceProofs3 GpuWarp.
Import ListNotations.
Local Open Scope Z_scope.

Section Races.
Context {V : Type} (op : V -> V -> V) (e : V).
Hypothesis Hc : forall a b, op a b = op b a.
Hypothesis Ha : forall a b c, op a (op b c) = op (op a b) c.
Hypothesis He : op e e = e.

Lemma sometimes_mono : forall (l : launch V) m (Q Q' : (addr -> cell V) -> Prop), sometimes l m Q -> (forall m', Q m' -> Q' m') -> sometimes l m Q'.
Proof. intros l m Q Q' (s & R & F & H) HQ. exists s. auto. Qed.

(* one block of a round on its own *)
Lemma one_merge : forall indexer m out inp segL segC g b (inI : nat -> Z) (val : nat -> V), (b < g)%nat ->
  (forall t, (t < 512)%nat -> indexer segL segC g (gidx blockSize b t) = Some (inI t)) ->
  (forall t, (t < 512)%nat -> if 0 <=? inI t then m (inp, inI t) = Some (Some (val t)) else val t = e) ->
  (forall t, (t < 512)%nat -> 0 <= inI t -> (out, Z.of_nat b) = (inp, inI t) -> t = 0%nat) ->
  m (out, Z.of_nat b) <> None ->
  sometimes (only (kReduceMerge op e indexer out inp segL segC g) b) m (fun m' =>
    m' (out, Z.of_nat b) = Some (Some (fold_right op e (map val (seq 0 512)))) /\
    forall a, a <> (out, Z.of_nat b) -> m' a = m a).
Proof.
  intros indexer m out inp segL segC g b inI val Hb HX HV HR HO. apply always_some. eapply always_mono.
  - apply (block_merge op e Hc Ha He _ m inp (fun _ => inI) (fun _ => (out, Z.of_nat b)) (fun _ => val) 16).
    + reflexivity.
    + lia.
    + apply (chunks_acc op e Hc Ha); lia.
    + intros a. reflexivity.
    + intros b' t Hb' Ht. cbn [only grid bdim code kReduceMerge] in *. rewrite HX by exact Ht. reflexivity.
    + intros b' t Hb' Ht. apply HV, Ht.
    + intros b' _. exact HO.
    + intros b1 b2 H1 H2 _. cbn [only grid] in *. lia.
    + intros b1 b2 t H1 H2 Ht H0 E. cbn [only grid bdim kReduceMerge] in *. split; [lia|]. apply HR; auto.
  - intros m' [A B]. split.
    + apply (A 0%nat). cbn [only grid]. lia.
    + intros a Hna. apply B. intros b' _. exact Hna.
Qed.

(* ---- one list of more than 512 * 512 ---- *)

Definition chunk (x : nat -> V) (n b : nat) : V :=
  fold_right op e (map (fun t => if (b * 512 + t <? n)%nat then x (b * 512 + t)%nat else e) (seq 0 512)).

Lemma list_race : forall m out inp tmp n (x : nat -> V), (512 * 512 < n)%nat -> Z.of_nat n <= 2 * 512 * 512 -> tmp <> inp -> out <> tmp ->
  (forall i, (i < n)%nat -> m (inp, Z.of_nat i) = Some (Some (x i))) ->
  (forall i, (i < (n + 511) / 512)%nat -> m (tmp, Z.of_nat i) <> None) ->
  m (out, 0) <> None ->
  exists ls, reduceMerge op e indexAll out inp tmp (Z.of_nat n) 1 = Some ls /\
    let z := chunk (chunk x n) ((n + 511) / 512) 1 in
    sometimes_all ls m (fun m' => m' (out, 0) = Some (Some (op (fold_right op e (map (fun b => if (b =? 1)%nat then z else chunk x n b) (seq 0 512))) z))).
Proof.
  intros m out inp tmp n x Hn HN N1 N2 HI HT HO.
  destruct (grid_le n ltac:(lia)) as (E & E0 & E1 & E2); [lia|].
  set (B := ((n + 511) / 512)%nat) in *. clearbody B.
  assert (HB : 512 < Z.of_nat B <= 1024) by lia.
  assert (EG : gridSize (Z.of_nat blockSize) (Z.of_nat B) 1 = 2).
  { destruct (grid_le B ltac:(lia)) as (EG & G0 & G1 & G2); [lia|]. rewrite EG. lia. }
  unfold reduceMerge. rewrite E. cbn [mergeRounds]. destruct (Z.ltb_spec 1 (Z.of_nat B)) as [_|]; [|lia]. rewrite EG. cbn [mergeRounds Z.ltb Z.compare Pos.compare Pos.compare_cont].
  assert (E3 : gridSize (Z.of_nat blockSize) 2 1 = 1) by reflexivity. rewrite E3. cbn [mergeRounds Z.ltb Z.compare Pos.compare Pos.compare_cont app].
  eexists. split; [reflexivity|].
  cbv zeta. set (z := chunk (chunk x n) B 1). cbn [sometimes_all]. rewrite Z.mul_1_l, (Z.mod_small (Z.of_nat B)), Nat2Z.id by lia. change (Z.to_nat ((1 * 2) mod 2 ^ 32)) with 2%nat. change (Z.to_nat ((1 * 1) mod 2 ^ 32)) with 1%nat. change (Z.to_nat 1) with 1%nat.
  eapply sometimes_mono.
  { apply always_some. apply (round_chunks op e Hc Ha He indexAll m tmp inp n 1 B x); [lia|lia|left; exact N1| |exact HI|exact HT]. intros index _. apply index_all. }
  intros m1 [A1 U1].
  set (y := chunk x n) in *. assert (A1' : forall b, (b < B)%nat -> m1 (tmp, Z.of_nat b) = Some (Some (y b))) by exact A1. clear A1.
  assert (GI : forall b t, (b < 2)%nat -> (t < 512)%nat -> gidx blockSize b t = Z.of_nat b * 512 + Z.of_nat t).
  { intros b t Hb Ht. unfold gidx. change (Z.of_nat blockSize) with 512. apply Z.mod_small. lia. }
  (* second round: block 1, then block 0 *)
  apply (block_order _ [1; 0]%nat); [cbn [grid kReduceMerge]; apply perm_swap|]. cbn [in_turn].
  eapply sometimes_mono.
  { apply (one_merge indexAll m1 tmp tmp (Z.of_nat B) 1 2 1 (fun t => if (512 + t <? B)%nat then Z.of_nat (512 + t) else -1) (fun t => if (512 + t <? B)%nat then y (512 + t)%nat else e)).
    - lia.
    - intros t Ht. rewrite GI by lia. unfold indexAll. f_equal. destruct (Z.ltb_spec (Z.of_nat 1 * 512 + Z.of_nat t) (Z.of_nat B)), (Nat.ltb_spec (512 + t) B); lia.
    - intros t Ht. destruct (Nat.ltb_spec (512 + t) B); [|reflexivity]. destruct (Z.leb_spec 0 (Z.of_nat (512 + t))); [|lia]. apply A1'. lia.
    - intros t Ht H0 X. apply (f_equal snd) in X. cbn [snd] in X. destruct (Nat.ltb_spec (512 + t) B); lia.
    - rewrite A1' by lia. discriminate. }
  intros m2 [A2 U2].
  assert (EZ : fold_right op e (map (fun t => if (512 + t <? B)%nat then y (512 + t)%nat else e) (seq 0 512)) = z).
  { unfold z. unfold chunk at 1. f_equal. }
  rewrite EZ in A2. change (Z.of_nat 1) with 1 in *.
  eapply sometimes_mono.
  { apply (one_merge indexAll m2 tmp tmp (Z.of_nat B) 1 2 0 (fun t => Z.of_nat t) (fun b => if (b =? 1)%nat then z else y b)).
    - lia.
    - intros t Ht. rewrite GI by lia. unfold indexAll. f_equal. destruct (Z.ltb_spec (Z.of_nat 0 * 512 + Z.of_nat t) (Z.of_nat B)); lia.
    - intros t Ht. destruct (Z.leb_spec 0 (Z.of_nat t)); [|lia]. destruct (Nat.eqb_spec t 1) as [->|Nt]; [exact A2|].
      rewrite U2; [apply A1'; lia|]. intros X. apply (f_equal snd) in X. cbn [snd] in X. lia.
    - intros t Ht H0 X. apply (f_equal snd) in X. cbn [snd] in X. lia.
    - change (Z.of_nat 0) with 0. rewrite U2; [|intros X; apply (f_equal snd) in X; discriminate]. change 0 with (Z.of_nat 0). rewrite A1' by lia. discriminate. }
  intros m3 [A3 U3]. set (w := fold_right op e (map (fun b => if (b =? 1)%nat then z else y b) (seq 0 512))) in *. change (Z.of_nat 0) with 0 in *.
  assert (M31 : m3 (tmp, 1) = Some (Some z)) by (rewrite U3; [exact A2|intros X; apply (f_equal snd) in X; discriminate]).
  (* third round *)
  eapply sometimes_mono.
  { apply always_some. apply (round_chunks op e Hc Ha He indexAll m3 tmp tmp 2 1 1 (fun b => if (b =? 0)%nat then w else z)); [lia|lia|right; reflexivity| | |].
    - intros index _. apply index_all.
    - intros i Hi. destruct (Nat.eqb_spec i 0) as [->|Ni]; [exact A3|]. assert (i = 1)%nat as -> by lia. exact M31.
    - intros i Hi. assert (i = 0)%nat as -> by lia. change (Z.of_nat 0) with 0. rewrite A3. discriminate. }
  intros m4 [A4 U4]. specialize (A4 0%nat ltac:(lia)).
  pose proof (fold_valid op e Hc Ha He (fun t => if (t =? 0)%nat then w else z) 2 512 ltac:(lia)) as FV. change (seq 0 2) with [0; 1]%nat in FV. cbn [map fold_right Nat.eqb] in FV.
  change (m4 (tmp, Z.of_nat 0) = Some (Some (fold_right op e (map (fun t => if (t <? 2)%nat then if (t =? 0)%nat then w else z else e) (seq 0 512))))) in A4. rewrite FV in A4.
  assert (EZe : op z e = z) by (unfold z, chunk at 1 2; apply (fold_e op e Ha He)). rewrite EZe in A4.
  eapply sometimes_mono.
  { apply always_some. apply (copy_device op e Hc Ha m4 out tmp 1 (fun _ => op w z) N2).
    - intros i Hi. assert (i = 0)%nat as -> by lia. exact A4.
    - intros i Hi. assert (i = 0)%nat as -> by lia. change (Z.of_nat 0) with 0. rewrite U4 by (left; exact N2). rewrite U3 by (intros X; apply (f_equal fst) in X; cbn [fst] in X; congruence).
      rewrite U2 by (intros X; apply (f_equal fst) in X; cbn [fst] in X; congruence). rewrite U1 by (left; exact N2). exact HO. }
  intros m5 [A5 U5]. apply (A5 0%nat). lia.
Qed.

(* ---- two rows of more than 512 ---- *)

Lemma rows_race : forall m out inp tmp n (x : nat -> V), (512 < n <= 1024)%nat -> tmp <> inp -> out <> tmp ->
  (forall i, (i < 2 * n)%nat -> m (inp, Z.of_nat i) = Some (Some (x i))) ->
  (forall i, (i < 4)%nat -> m (tmp, Z.of_nat i) <> None) ->
  (forall i, (i < 2)%nat -> m (out, Z.of_nat i) <> None) ->
  exists ls, reduceMerge op e indexLastDim out inp tmp (Z.of_nat n) 2 = Some ls /\
    sometimes_all ls m (fun m' => m' (out, 0) = Some (Some (
      op (fold_right op e (map x (seq 0 512))) (fold_right op e (map (fun j => x (n + j)%nat) (seq 0 n)))))).
Proof.
  intros m out inp tmp n x Hn N1 N2 HI HT HO.
  assert (E : gridSize (Z.of_nat blockSize) (Z.of_nat n) 1 = 2).
  { destruct (grid_le n ltac:(lia)) as (E & E0 & E1 & E2); [lia|]. rewrite E. lia. }
  unfold reduceMerge. rewrite E. cbn [mergeRounds Z.ltb Z.compare Pos.compare Pos.compare_cont].
  assert (E3 : gridSize (Z.of_nat blockSize) 2 1 = 1) by reflexivity. rewrite E3. cbn [mergeRounds Z.ltb Z.compare Pos.compare Pos.compare_cont app].
  eexists. split; [reflexivity|]. cbn [sometimes_all].
  change (Z.to_nat ((2 * 2) mod 2 ^ 32)) with 4%nat. change (Z.to_nat ((2 * 1) mod 2 ^ 32)) with 2%nat. change (Z.to_nat 2) with 2%nat.
  assert (GI : forall b t, (b < 4)%nat -> (t < 512)%nat -> gidx blockSize b t = Z.of_nat b * 512 + Z.of_nat t).
  { intros b t Hb Ht. unfold gidx. change (Z.of_nat blockSize) with 512. apply Z.mod_small. lia. }
  (* first round: block b has chunk b mod 2 of row b / 2 *)
  set (v := fun b t => if ((b mod 2) * 512 + t <? n)%nat then x (b / 2 * n + ((b mod 2) * 512 + t))%nat else e).
  assert (IDX : forall b t, (b < 4)%nat -> (t < 512)%nat ->
    indexLastDim (Z.of_nat n) 2 4 (gidx blockSize b t) = Some (if ((b mod 2) * 512 + t <? n)%nat then Z.of_nat (b / 2 * n + ((b mod 2) * 512 + t)) else -1)).
  { intros b t Hb Ht. rewrite GI by assumption. unfold indexLastDim. cbn [Z.eqb]. change (Z.of_nat 4 * Z.of_nat blockSize) with 2048. change (2048 mod 2 ^ 32 / 2) with 1024. cbn [Z.eqb].
    pose proof (Nat.div_mod b 2 ltac:(lia)). pose proof (Nat.mod_upper_bound b 2 ltac:(lia)). set (q := (b / 2)%nat) in *. set (r := (b mod 2)%nat) in *.
    assert (EQ : Z.of_nat b * 512 + Z.of_nat t = Z.of_nat q * 1024 + (Z.of_nat r * 512 + Z.of_nat t)) by lia.
    assert (D : (Z.of_nat b * 512 + Z.of_nat t) / 1024 = Z.of_nat q) by (symmetry; apply (Z.div_unique_pos _ _ _ (Z.of_nat r * 512 + Z.of_nat t)); lia).
    assert (M : (Z.of_nat b * 512 + Z.of_nat t) mod 1024 = Z.of_nat r * 512 + Z.of_nat t) by (symmetry; apply (Z.mod_unique_pos _ _ (Z.of_nat q)); lia).
    rewrite D, M. destruct (Z.ltb_spec (Z.of_nat r * 512 + Z.of_nat t) (Z.of_nat n)), (Nat.ltb_spec (r * 512 + t) n); try lia; f_equal; lia. }
  eapply sometimes_mono.
  { apply always_some. apply (block_merge op e Hc Ha He _ m inp (fun b t => if ((b mod 2) * 512 + t <? n)%nat then Z.of_nat (b / 2 * n + ((b mod 2) * 512 + t)) else -1) (fun b => (tmp, Z.of_nat b)) v 16).
    - reflexivity.
    - lia.
    - apply (chunks_acc op e Hc Ha); lia.
    - intros a. reflexivity.
    - intros b t Hb Ht. cbn [grid bdim code kReduceMerge] in *. rewrite IDX by assumption. reflexivity.
    - intros b t Hb Ht. cbn [grid bdim kReduceMerge] in *. unfold v. destruct (Nat.ltb_spec ((b mod 2) * 512 + t) n); [|reflexivity].
      rewrite (proj2 (Z.leb_le 0 _) (Nat2Z.is_nonneg _)). apply HI.
      pose proof (Nat.div_mod b 2 ltac:(lia)). pose proof (Nat.mod_upper_bound b 2 ltac:(lia)). assert (b / 2 <= 1)%nat by lia. assert (b / 2 * n <= 1 * n)%nat by (apply Nat.mul_le_mono_r; assumption). lia.
    - intros b Hb. apply HT, Hb.
    - intros b b' _ _ X. apply (f_equal snd) in X. cbn [snd] in X. lia.
    - intros b b' t Hb Hb' Ht H0 X. apply (f_equal fst) in X. cbn [fst] in X. contradiction. }
  intros m1 [A1 U1]. cbn [grid kReduceMerge] in A1, U1. change (32 * 16)%nat with 512%nat in A1.
  set (y := fun b => fold_right op e (map (v b) (seq 0 512))) in *.
  assert (A1' : forall b, (b < 4)%nat -> m1 (tmp, Z.of_nat b) = Some (Some (y b))) by exact A1. clear A1.
  (* second round: row 1 first *)
  assert (IDX2 : forall r t, (r < 2)%nat -> (t < 512)%nat -> indexLastDim 2 2 2 (gidx blockSize r t) = Some (if (t <? 2)%nat then Z.of_nat (2 * r + t) else -1)).
  { intros r t Hr Ht. rewrite GI by lia. unfold indexLastDim. cbn [Z.eqb]. change (Z.of_nat 2 * Z.of_nat blockSize) with 1024. change (1024 mod 2 ^ 32 / 2) with 512. cbn [Z.eqb].
    assert (D : (Z.of_nat r * 512 + Z.of_nat t) / 512 = Z.of_nat r) by (symmetry; apply (Z.div_unique_pos _ _ _ (Z.of_nat t)); lia).
    assert (M : (Z.of_nat r * 512 + Z.of_nat t) mod 512 = Z.of_nat t) by (symmetry; apply (Z.mod_unique_pos _ _ (Z.of_nat r)); lia).
    rewrite D, M. destruct (Z.ltb_spec (Z.of_nat t) 2), (Nat.ltb_spec t 2); try lia; f_equal; lia. }
  assert (TWO : forall f : nat -> V, fold_right op e (map (fun t => if (t <? 2)%nat then f t else e) (seq 0 512)) = op (f 0%nat) (op (f 1%nat) e)).
  { intros f. rewrite (fold_valid op e Hc Ha He f 2 512 ltac:(lia)). reflexivity. }
  apply (block_order _ [1; 0]%nat); [cbn [grid kReduceMerge]; apply perm_swap|]. cbn [in_turn].
  eapply sometimes_mono.
  { apply (one_merge indexLastDim m1 tmp tmp 2 2 2 1 (fun t => if (t <? 2)%nat then Z.of_nat (2 * 1 + t) else -1) (fun t => if (t <? 2)%nat then y (2 + t)%nat else e)).
    - lia.
    - intros t Ht. apply IDX2; lia.
    - intros t Ht. destruct (Nat.ltb_spec t 2); [|reflexivity]. destruct (Z.leb_spec 0 (Z.of_nat (2 * 1 + t))); [|lia]. apply A1'. lia.
    - intros t Ht H0 X. apply (f_equal snd) in X. cbn [snd] in X. destruct (Nat.ltb_spec t 2); lia.
    - rewrite A1' by lia. discriminate. }
  intros m2 [A2 U2]. rewrite TWO in A2. set (w := op (y (2 + 0)%nat) (op (y (2 + 1)%nat) e)) in *.
  eapply sometimes_mono.
  { apply (one_merge indexLastDim m2 tmp tmp 2 2 2 0 (fun t => if (t <? 2)%nat then Z.of_nat (2 * 0 + t) else -1) (fun t => if (t <? 2)%nat then (if (t =? 0)%nat then y 0%nat else w) else e)).
    - lia.
    - intros t Ht. apply IDX2; lia.
    - intros t Ht. destruct (Nat.ltb_spec t 2); [|reflexivity]. destruct (Z.leb_spec 0 (Z.of_nat (2 * 0 + t))); [|lia].
      destruct (Nat.eqb_spec t 0) as [->|Nt].
      + rewrite U2; [apply A1'; lia|]. intros X. apply (f_equal snd) in X. discriminate.
      + assert (t = 1)%nat as -> by lia. exact A2.
    - intros t Ht H0 X. apply (f_equal snd) in X. cbn [snd] in X. destruct (Nat.ltb_spec t 2); lia.
    - rewrite U2; [rewrite A1' by lia; discriminate|]. intros X. apply (f_equal snd) in X. discriminate. }
  intros m3 [A3 U3]. rewrite (TWO (fun t => if (t =? 0)%nat then y 0%nat else w)) in A3. cbn [Nat.eqb] in A3.
  assert (WE : op w e = w) by (unfold w; change (op (y (2 + 0)%nat) (op (y (2 + 1)%nat) e)) with (fold_right op e [y (2 + 0)%nat; y (2 + 1)%nat]); apply (fold_e op e Ha He)).
  rewrite WE in A3.
  assert (EY0 : y 0%nat = fold_right op e (map x (seq 0 512))).
  { unfold y. f_equal. apply map_ext_in. intros t Ht. apply in_seq in Ht. unfold v. change (0 mod 2)%nat with 0%nat. change (0 / 2)%nat with 0%nat. cbn [Nat.mul Nat.add]. destruct (Nat.ltb_spec t n); [reflexivity|lia]. }
  assert (EW : w = fold_right op e (map (fun j => x (n + j)%nat) (seq 0 n))).
  { rewrite <- (chunk_fold op e Hc Ha He (fun j => x (n + j)%nat) n 2) by lia. change (seq 0 2) with [0; 1]%nat. cbn [map]. cbn [fold_right].
    assert (Y : forall r, (r < 2)%nat -> y (2 + r)%nat = fold_right op e (map (fun t => if (r * 512 + t <? n)%nat then x (n + (r * 512 + t))%nat else e) (seq 0 512))).
    { intros r Hr. unfold y. f_equal. apply map_ext. intros t. unfold v.
      assert (((2 + r) mod 2 = r /\ (2 + r) / 2 = 1)%nat) as [-> ->] by (destruct r as [|[|]]; [split; reflexivity..|lia]). rewrite Nat.mul_1_l. reflexivity. }
    unfold w. rewrite !Y by lia. reflexivity. }
  rewrite EY0, EW in A3. change (Z.of_nat 0) with 0 in A3.
  eapply sometimes_mono.
  { apply always_some. apply (copy_device op e Hc Ha m3 out tmp 2 (fun i => if (i =? 0)%nat then op (fold_right op e (map x (seq 0 512))) (fold_right op e (map (fun j => x (n + j)%nat) (seq 0 n))) else w) N2).
    - intros i Hi. destruct (Nat.eqb_spec i 0) as [->|Ni]; [exact A3|]. assert (i = 1)%nat as -> by lia. rewrite U3; [exact A2|]. intros X. apply (f_equal snd) in X. discriminate.
    - intros i Hi. rewrite U3 by (intros X; apply (f_equal fst) in X; cbn [fst] in X; congruence). rewrite U2 by (intros X; apply (f_equal fst) in X; cbn [fst] in X; congruence).
      rewrite U1; [apply HO, Hi|]. intros b _ X. apply (f_equal fst) in X. cbn [fst] in X. contradiction. }
  intros m5 [A5 U5]. apply (A5 0%nat). lia.
Qed.
End Races.
