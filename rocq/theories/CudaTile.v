(* The tiled transpose of a matrix: a tile of each block goes through shared
   memory, with a barrier between. *)
From Coq Require Import List Arith ZArith Bool Lia Permutation.
From Verif Require Import ShapeModel ShapeSpec ShapeProofs TensorModel TensorSpec TensorLemmas
  GpuModel GpuSpec GpuProofs CudaModel CudaSpec GpuLemmas CudaProofs CudaItems CudaFillProofs
  CudaMoveModel CudaMoveProofs CudaMoveProofs2 CudaMoveProofs5.
Import ListNotations.
Local Open Scope nat_scope.

(* One barrier that every thread reaches. *)
Theorem two_phases : forall V (l : launch V) m (L1 : nat -> nat -> lane) (k : nat -> nat -> thr V) (S : nat -> addr -> cell V) (L2 : nat -> nat -> lane) (Q : (addr -> cell V) -> Prop),
  accepted l ->
  (forall b t, b < grid l -> t < bdim l ->
     solo (code l b t) m (fun a => if shar l a then Some None else None) [] [] [] [] = Some (L1 b t) /\ lp (L1 b t) = Sync (k b t)) ->
  (forall b, b < grid l -> sfree (bdim l) (L1 b)) ->
  (forall b, b < grid l -> merged (bdim l) (fun a => if shar l a then Some None else None) (L1 b) (S b)) ->
  (forall b t, b < grid l -> t < bdim l ->
     solo (k b t) (lg (L1 b t)) (S b) (gr (L1 b t)) (gw (L1 b t)) [] [] = Some (L2 b t) /\ lp (L2 b t) = Done) ->
  (forall b, b < grid l -> sfree (bdim l) (L2 b)) ->
  gfree (grid l) (bdim l) L2 ->
  (forall m', gmerged (grid l) (bdim l) m L2 m' -> Q m') ->
  always l m Q.
Proof.
  intros V l m L1 k S L2 Q ACC H1 F1 M1 H2 F2 G2 HQ. apply (race_free l m L2); auto. split; [|exact G2].
  intros b Hb. apply (be_sync _ _ _ (L1 b) (S b) (fun t => release (S b) (L1 b t))).
  - intros w Hw. apply we_stop. intros t [_ Ht]. destruct (H1 b t Hb Ht) as [E D]. split; [exact E|]. rewrite D. exact I.
  - apply F1, Hb.
  - exists 0. destruct ACC as (_ & _ & HB). split; [lia|]. rewrite (proj2 (H1 b 0 Hb ltac:(lia))). exact I.
  - apply M1, Hb.
  - intros t Ht. reflexivity.
  - apply be_done.
    + intros w Hw. apply we_stop. intros t [_ Ht]. destruct (H2 b t Hb Ht) as [E D]. split; [|rewrite D; exact I].
      unfold run, release. cbn [lp lg ls gr gw sr sw]. rewrite (proj2 (H1 b t Hb Ht)). cbn [released]. exact E.
    + apply F2, Hb.
    + intros t Ht. apply (H2 b t Hb Ht).
Qed.

Section Tile.
Context {V : Type}.
Variables (W H : nat) (F : list nat -> V) (out inp : nat) (m : addr -> cell V).
Hypothesis HZ : (0 < Z.of_nat (H * W) <= 2 ^ 32)%Z.
Hypothesis HH : (Z.of_nat H <= 65535 * 32)%Z.
Hypothesis HF : has m inp [H; W] F.
Hypothesis HR : room m out (H * W).
Hypothesis N : out <> inp.

Let nx := Z.to_nat ((Z.of_nat W + 31) / 32).
Let ny := Z.to_nat ((Z.of_nat H + 31) / 32).

Lemma tile_grid : 0 < nx /\ 0 < ny /\ W <= 32 * nx /\ H <= 32 * ny /\ (32 * Z.of_nat nx <= 2 ^ 32)%Z /\ (Z.of_nat ny <= 65535)%Z /\
  cudaTranspose2d (V := V) out inp (Z.of_nat W) (Z.of_nat H)
  = mkLaunch (nx * ny) 1024 (fun a => (fst a =? 0)%nat && (0 <=? snd a)%Z && (snd a <? 32 * 33)%Z)
      (fun b t => transposeTile out inp (Z.of_nat W) (Z.of_nat H) (b mod nx) ((b / nx) mod ny) (t mod 32) (t / 32)) /\
  (Z.of_nat (nx * ny) <= 2 ^ 31 - 1)%Z.
Proof.
  assert (HW0 : (0 < Z.of_nat W <= 2 ^ 32)%Z) by nia. assert (HH0 : (0 < Z.of_nat H <= 2 ^ 32)%Z) by nia.
  destruct (ceil_ok 32 W ltac:(lia) HW0 ltac:(lia)) as (X1 & X2 & X3 & X4).
  destruct (ceil_ok 32 H ltac:(lia) HH0 ltac:(lia)) as (Y1 & Y2 & Y3 & Y4).
  change (32 - 1)%Z with 31%Z in *. unfold nx, ny.
  set (cx := ((Z.of_nat W + 31) / 32)%Z) in *. set (cy := ((Z.of_nat H + 31) / 32)%Z) in *.
  assert (B1 : (32 * cx <= 2 ^ 32)%Z) by lia.
  assert (B2 : (cy <= 65535)%Z) by lia.
  assert (B3 : (cx * cy <= 2 ^ 31 - 1)%Z).
  { assert (EZ : (Z.of_nat H * Z.of_nat W <= 2 ^ 32)%Z) by lia.
    assert (1024 * (cx * cy) <= 32 * (Z.of_nat H * Z.of_nat W) + 992)%Z by nia. lia. }
  do 6 (split; [lia|]). split.
  - unfold cudaTranspose2d, launch3. fold cx cy. rewrite X1, Y1.
    assert (OK : ((cx <=? 2 ^ 31 - 1) && (cy <=? 65535) && (1 <=? 65535))%Z = true) by (rewrite !andb_true_iff, !Z.leb_le; lia).
    rewrite OK. change (Z.to_nat 1) with 1. rewrite Nat.mul_1_r. reflexivity.
  - rewrite Nat2Z.inj_mul, !Z2Nat.id by lia. lia.
Qed.

(* The element that thread (tx, ty) of block (bx, by) loads and the one it
   stores: rows and columns of the source. *)
Let bx b := b mod nx.
Let by_ b := (b / nx) mod ny.
Let row1 b t := by_ b * 32 + t / 32.
Let col1 b t := bx b * 32 + t mod 32.
Let row2 b t := by_ b * 32 + t mod 32.
Let col2 b t := bx b * 32 + t / 32.
Let slot1 t := (0, Z.of_nat (t / 32 * 33 + t mod 32)).
Let slot2 t := (0, Z.of_nat (t mod 32 * 33 + t / 32)).
Let src1 b t := (inp, Z.of_nat (row1 b t * W + col1 b t)).
Let dst2 b t := (out, Z.of_nat (col2 b t * H + row2 b t)).
Let in1 b t := (col1 b t <? W) && (row1 b t <? H).
Let in2 b t := (row2 b t <? H) && (col2 b t <? W).
Let s0 (a : addr) : cell V := if (fst a =? 0)%nat && (0 <=? snd a)%Z && (snd a <? 32 * 33)%Z then Some None else None.
Let last b t : thr V := if in2 b t then SLd (slot2 t) (fun v => St (dst2 b t) v Done) else Done.

Lemma tile_code : forall b t, b < nx * ny -> t < 1024 ->
  transposeTile out inp (Z.of_nat W) (Z.of_nat H) (b mod nx) ((b / nx) mod ny) (t mod 32) (t / 32)
  = if in1 b t then Ld (src1 b t) (fun v => SSt (slot1 t) v (Sync (last b t))) else Sync (last b t).
Proof.
  intros b t Hb Ht. destruct tile_grid as (G1 & G2 & G3 & G4 & G5 & G6 & _).
  assert (Bx : bx b < nx) by (apply Nat.mod_upper_bound; lia). assert (By : by_ b < ny) by (apply Nat.mod_upper_bound; lia).
  assert (Tx : t mod 32 < 32) by (apply Nat.mod_upper_bound; lia). assert (Ty : t / 32 < 32) by (apply Nat.div_lt_upper_bound; lia).
  unfold transposeTile. fold (bx b) (by_ b).
  replace ((Z.of_nat (bx b) * 32 + Z.of_nat (t mod 32)) mod 2 ^ 32)%Z with (Z.of_nat (col1 b t)) by (rewrite Z.mod_small; unfold col1; lia).
  replace ((Z.of_nat (by_ b) * 32 + Z.of_nat (t / 32)) mod 2 ^ 32)%Z with (Z.of_nat (row1 b t)) by (rewrite Z.mod_small; unfold row1; lia).
  replace ((Z.of_nat (by_ b) * 32 + Z.of_nat (t mod 32)) mod 2 ^ 32)%Z with (Z.of_nat (row2 b t)) by (rewrite Z.mod_small; unfold row2; lia).
  replace ((Z.of_nat (bx b) * 32 + Z.of_nat (t / 32)) mod 2 ^ 32)%Z with (Z.of_nat (col2 b t)) by (rewrite Z.mod_small; unfold col2; lia).
  cbv zeta.
  replace ((Z.of_nat (col1 b t) <? Z.of_nat W)%Z && (Z.of_nat (row1 b t) <? Z.of_nat H)%Z) with (in1 b t).
  2:{ unfold in1. lia. }
  replace ((Z.of_nat (row2 b t) <? Z.of_nat H)%Z && (Z.of_nat (col2 b t) <? Z.of_nat W)%Z) with (in2 b t).
  2:{ unfold in2. lia. }
  replace (Z.of_nat (col2 b t) * Z.of_nat H + Z.of_nat (row2 b t))%Z with (Z.of_nat (col2 b t * H + row2 b t)) by lia.
  replace (Z.of_nat (row1 b t) * Z.of_nat W + Z.of_nat (col1 b t))%Z with (Z.of_nat (row1 b t * W + col1 b t)) by lia.
  reflexivity.
Qed.

Lemma src_has : forall r c, r < H -> c < W -> m (inp, Z.of_nat (r * W + c)) = Some (Some (F [r; c])).
Proof.
  intros r c Hr Hc. assert (Hv : valid [H; W] [r; c]) by (repeat constructor; auto).
  pose proof (has_at _ m inp _ _ _ HF Hv) as E. rewrite !ravel_cons, !numel_cons, numel_nil, ravel_nil in E.
  rewrite <- E. do 2 f_equal. nia.
Qed.
Lemma dst_room : forall r c, r < H -> c < W -> m (out, Z.of_nat (c * H + r)) <> None.
Proof. intros r c Hr Hc. apply (room_at V m out _ _ HR). nia. Qed.

Let L1 b t : lane := if in1 b t
  then mkLane m (upd s0 (slot1 t) (Some (Some (F [row1 b t; col1 b t])))) (Sync (last b t)) [src1 b t] [] [] [slot1 t]
  else mkLane m s0 (Sync (last b t)) [] [] [] [].
Let S1 b (a : addr) : cell V :=
  let i := Z.to_nat (snd a) in
  if (fst a =? 0)%nat && (0 <=? snd a)%Z && (snd a <? 32 * 33)%Z && (i mod 33 <? 32) && (bx b * 32 + i mod 33 <? W) && (by_ b * 32 + i / 33 <? H)
  then Some (Some (F [by_ b * 32 + i / 33; bx b * 32 + i mod 33])) else s0 a.
Let L2 b t : lane := if in2 b t
  then mkLane (upd m (dst2 b t) (Some (Some (F [row2 b t; col2 b t])))) (S1 b) Done (gr (L1 b t)) [dst2 b t] [slot2 t] []
  else mkLane m (S1 b) Done (gr (L1 b t)) [] [] [].

Lemma tdiv : forall t, t < 1024 -> t / 32 < 32 /\ t mod 32 < 32 /\ t = t / 32 * 32 + t mod 32.
Proof.
  intros t Ht. split; [apply Nat.div_lt_upper_bound; lia|]. split; [apply Nat.mod_upper_bound; lia|].
  pose proof (Nat.div_mod t 32). lia.
Qed.
Lemma slot_in : forall r c, r < 32 -> c < 32 -> s0 (0, Z.of_nat (r * 33 + c)) = Some None /\ (r * 33 + c) / 33 = r /\ (r * 33 + c) mod 33 = c.
Proof.
  intros r c Hr Hc. split; [|split].
  - unfold s0. cbn [fst snd Nat.eqb andb]. destruct (Z.leb_spec 0 (Z.of_nat (r * 33 + c))); [|lia].
    destruct (Z.ltb_spec (Z.of_nat (r * 33 + c)) (32 * 33)); [reflexivity|lia].
  - rewrite Nat.div_add_l by lia. rewrite Nat.div_small by lia. lia.
  - rewrite Nat.add_comm, Nat.mod_add by lia. apply Nat.mod_small. lia.
Qed.

Lemma L1_ok : forall b t, b < nx * ny -> t < 1024 ->
  solo (if in1 b t then Ld (src1 b t) (fun v => SSt (slot1 t) v (Sync (last b t))) else Sync (last b t)) m s0 [] [] [] [] = Some (L1 b t)
  /\ lp (L1 b t) = Sync (last b t).
Proof.
  intros b t Hb Ht. unfold L1. destruct (in1 b t) eqn:E; [|split; reflexivity].
  apply andb_true_iff in E as [E1 E2]. apply Nat.ltb_lt in E1, E2. split; [|reflexivity].
  cbn [solo]. unfold src1 at 1. rewrite src_has by auto. destruct (tdiv t Ht) as (A & B & _).
  cbn [solo]. unfold slot1 at 1. rewrite (proj1 (slot_in _ _ A B)). reflexivity.
Qed.

Lemma sfree1 : forall b, sfree 1024 (L1 b).
Proof.
  intros b t t' a Ht Ht' Ne. unfold L1. destruct (in1 b t); cbn [sw sr]; [|intros []]. intros [<-|[]].
  destruct (in1 b t'); cbn [sw sr]; [|split; intros []]. split; [intros []|]. intros [E|[]]. assert (E0 := f_equal snd E). unfold slot1 in E0. cbn [snd] in E0. apply Nat2Z.inj in E0.
  destruct (tdiv t Ht) as (A1 & B1 & C1). destruct (tdiv t' Ht') as (A2 & B2 & C2).
  destruct (slot_in _ _ A1 B1) as (_ & D1 & M1). destruct (slot_in _ _ A2 B2) as (_ & D2 & M2).
  rewrite E0 in D2, M2. apply Ne. rewrite C1, C2. congruence.
Qed.

Lemma S1_ok : forall b, merged 1024 s0 (L1 b) (S1 b).
Proof.
  intros b a. unfold S1. destruct a as [p z]. cbn [fst snd]. set (i := Z.to_nat z).
  destruct ((p =? 0)%nat && (0 <=? z)%Z && (z <? 32 * 33)%Z && (i mod 33 <? 32) && (bx b * 32 + i mod 33 <? W) && (by_ b * 32 + i / 33 <? H)) eqn:E.
  - left. rewrite !andb_true_iff in E. destruct E as (((((E1 & E2) & E3) & E4) & E5) & E6).
    apply Nat.eqb_eq in E1. apply Z.leb_le in E2. apply Z.ltb_lt in E3. apply Nat.ltb_lt in E4.
    assert (Hi : i / 33 < 32) by (apply Nat.div_lt_upper_bound; [lia|]; unfold i; clear - E2 E3; lia).
    assert (T1 : (i / 33 * 32 + i mod 33) / 32 = i / 33) by (rewrite Nat.div_add_l by lia; rewrite (Nat.div_small (i mod 33)) by lia; lia).
    assert (T2 : (i / 33 * 32 + i mod 33) mod 32 = i mod 33) by (rewrite Nat.add_comm, Nat.mod_add by lia; apply Nat.mod_small; lia).
    assert (T3 : slot1 (i / 33 * 32 + i mod 33) = (p, z)).
    { unfold slot1. rewrite T1, T2, E1. f_equal. pose proof (Nat.div_mod i 33 ltac:(lia)). unfold i in *. lia. }
    exists (i / 33 * 32 + i mod 33). split; [lia|]. unfold L1, in1, row1, col1. rewrite T1, T2, E5, E6. cbn [andb sw ls].
    rewrite T3. split; [left; reflexivity|]. unfold upd. replace (addr_eqb (p, z) (p, z)) with true; [reflexivity|].
    unfold addr_eqb. cbn [fst snd]. rewrite Nat.eqb_refl, Z.eqb_refl. reflexivity.
  - right. split; [|reflexivity]. intros t Ht. unfold L1. destruct (in1 b t) eqn:Ei; cbn [sw]; [|intros []]. intros [Es|[]].
    assert (Ez : z = Z.of_nat (t / 32 * 33 + t mod 32)) by (symmetry; exact (f_equal snd Es)).
    assert (Ep : p = 0) by (symmetry; exact (f_equal fst Es)). subst p. destruct (tdiv t Ht) as (A & B & _). destruct (slot_in _ _ A B) as (_ & D & M).
    assert (Ei' : i = t / 32 * 33 + t mod 32) by (unfold i; lia). rewrite Ei', D, M in E.
    apply andb_true_iff in Ei as [Ei1 Ei2]. unfold row1, col1 in *. rewrite Ei1, Ei2 in E.
    replace (0 =? 0)%nat with true in E by reflexivity. rewrite (proj2 (Z.leb_le 0 z)) in E by lia.
    rewrite (proj2 (Z.ltb_lt z (32 * 33))) in E by lia. rewrite (proj2 (Nat.ltb_lt _ _) B) in E. discriminate.
Qed.

Lemma L2_ok : forall b t, b < nx * ny -> t < 1024 ->
  solo (last b t) (lg (L1 b t)) (S1 b) (gr (L1 b t)) (gw (L1 b t)) [] [] = Some (L2 b t) /\ lp (L2 b t) = Done.
Proof.
  intros b t Hb Ht.
  assert (E1 : lg (L1 b t) = m /\ gw (L1 b t) = []) by (unfold L1; destruct (in1 b t); auto).
  destruct E1 as [-> ->]. unfold last, L2. destruct (in2 b t) eqn:E; [|split; reflexivity]. split; [|reflexivity].
  apply andb_true_iff in E as [E1 E2].
  destruct (tdiv t Ht) as (A & B & _). destruct (slot_in _ _ B A) as (_ & D & M).
  assert (Es : S1 b (slot2 t) = Some (Some (F [row2 b t; col2 b t]))).
  { unfold S1, slot2. cbn [fst snd]. rewrite Nat2Z.id, D, M. unfold row2, col2 in *. rewrite E1, E2.
    rewrite (proj2 (Z.leb_le 0 _)) by lia. rewrite (proj2 (Z.ltb_lt _ (32 * 33))) by lia.
    rewrite (proj2 (Nat.ltb_lt _ 32) A). reflexivity. }
  cbn [solo]. rewrite Es. cbn [solo]. apply Nat.ltb_lt in E1, E2.
  destruct (m (dst2 b t)) eqn:Em; [reflexivity|]. exfalso. apply (dst_room _ _ E1 E2 Em).
Qed.

Lemma same_thread : forall b t b' t', b < nx * ny -> t < 1024 -> b' < nx * ny -> t' < 1024 ->
  row2 b t = row2 b' t' -> col2 b t = col2 b' t' -> (b, t) = (b', t').
Proof.
  intros b t b' t' Hb Ht Hb' Ht' E1 E2. destruct tile_grid as (G1 & G2 & _).
  destruct (tdiv t Ht) as (A1 & B1 & C1). destruct (tdiv t' Ht') as (A2 & B2 & C2). unfold row2, col2 in *.
  assert (X1 : by_ b = by_ b' /\ t mod 32 = t' mod 32) by lia. assert (X2 : bx b = bx b' /\ t / 32 = t' / 32) by lia.
  unfold bx, by_ in *.
  assert (D : forall b, b < nx * ny -> b / nx < ny) by (intros; apply Nat.div_lt_upper_bound; lia).
  rewrite !(Nat.mod_small _ ny) in X1 by auto. pose proof (Nat.div_mod b nx ltac:(lia)). pose proof (Nat.div_mod b' nx ltac:(lia)).
  f_equal; [|lia]. destruct X1 as [X1 _], X2 as [X2 _]. rewrite X1, X2 in *. lia.
Qed.

Lemma dst_same : forall r c r' c', r < H -> c < W -> r' < H -> c' < W -> c * H + r = c' * H + r' -> r = r' /\ c = c'.
Proof.
  intros r c r' c' Hr Hc Hr' Hc' E. assert (c = c'); [|subst; lia].
  destruct (Nat.lt_trichotomy c c') as [L|[L|L]]; auto; exfalso.
  - assert (S c * H <= c' * H) by (apply Nat.mul_le_mono_r; lia). lia.
  - assert (S c' * H <= c * H) by (apply Nat.mul_le_mono_r; lia). lia.
Qed.

Theorem tile_ok : computes (cudaTranspose2d out inp (Z.of_nat W) (Z.of_nat H)) m out [W; H] (fun idx => F (rev idx)).
Proof.
  destruct tile_grid as (G1 & G2 & G3 & G4 & G5 & G6 & -> & G7).
  assert (IN2 : forall b t, in2 b t = true -> row2 b t < H /\ col2 b t < W).
  { intros b t E. apply andb_true_iff in E as [E1 E2]. apply Nat.ltb_lt in E1, E2. auto. }
  apply (two_phases V _ m L1 last S1 L2).
  - split; [|split]; cbn [grid bdim]; [nia|exact G7|lia].
  - cbn [grid bdim code shar]. intros b t Hb Ht. rewrite tile_code by auto. apply L1_ok; auto.
  - intros b _. apply sfree1.
  - intros b _. apply S1_ok.
  - cbn [grid bdim]. intros b t Hb Ht. apply L2_ok; auto.
  - intros b _ t t' a _ _ _. unfold L2. destruct (in2 b t); cbn [sw]; intros [].
  - cbn [grid bdim]. intros b t b' t' a Hb Ht Hb' Ht' Ne. unfold L2. destruct (in2 b t) eqn:E; cbn [gw gr]; [|intros []].
    intros [<-|[]]. split.
    + assert (Q : ~ In (dst2 b t) (gr (L1 b' t'))).
      { unfold L1. destruct (in1 b' t'); cbn [gr]; [|intros []]. intros [Q|[]]. unfold src1, dst2 in Q. congruence. }
      destruct (in2 b' t'); exact Q.
    + destruct (in2 b' t') eqn:E'; cbn [gw]; [|intros []]. intros [Q|[]]. injection Q as Q. apply Ne.
      destruct (IN2 _ _ E), (IN2 _ _ E'). destruct (dst_same (row2 b' t') (col2 b' t') (row2 b t) (col2 b t)); auto; [lia|].
      apply same_thread; auto.
  - cbn [grid bdim]. intros m' M.
    assert (NE : numel [W; H] = H * W) by (rewrite !numel_cons, numel_nil; lia).
    assert (RV : forall c r, ravel [W; H] [c; r] = c * H + r) by (intros; rewrite !ravel_cons, !numel_cons, numel_nil, ravel_nil; nia).
    assert (V2 : forall idx, valid [W; H] idx -> exists c r, idx = [c; r] /\ c < W /\ r < H).
    { intros idx Hv. inversion Hv as [|c ? ? ? Hc Hv1]; subst. inversion Hv1 as [|r ? ? ? Hr Hv2]; subst. inversion Hv2; subst. exists c, r. auto. }
    apply placed.
    + rewrite NE. exact HR.
    + intros idx Hv. destruct (V2 idx Hv) as (c & r & -> & Hc & Hr). rewrite RV. cbn [rev app].
      set (b := r / 32 * nx + c / 32). set (t := c mod 32 * 32 + r mod 32).
      pose proof (Nat.mod_upper_bound c 32 ltac:(lia)). pose proof (Nat.mod_upper_bound r 32 ltac:(lia)).
      assert (Hx : c / 32 < nx) by (apply Nat.div_lt_upper_bound; lia).
      assert (Hy : r / 32 < ny) by (apply Nat.div_lt_upper_bound; lia).
      assert (Eb1 : bx b = c / 32) by (unfold bx, b; rewrite Nat.add_comm, Nat.mod_add by lia; apply Nat.mod_small; lia).
      assert (Eb2 : by_ b = r / 32).
      { unfold by_, b. rewrite Nat.div_add_l, (Nat.div_small (c / 32)), Nat.add_0_r by lia. apply Nat.mod_small; lia. }
      assert (Et1 : t / 32 = c mod 32) by (unfold t; rewrite Nat.div_add_l by lia; rewrite Nat.div_small by lia; lia).
      assert (Et2 : t mod 32 = r mod 32) by (unfold t; rewrite Nat.add_comm, Nat.mod_add by lia; apply Nat.mod_small; lia).
      assert (Er : row2 b t = r) by (unfold row2; rewrite Eb2, Et2; pose proof (Nat.div_mod r 32); lia).
      assert (Ec : col2 b t = c) by (unfold col2; rewrite Eb1, Et1; pose proof (Nat.div_mod c 32); lia).
      assert (Hb : b < nx * ny) by (unfold b; pose proof (block_lt nx ny 1 (c / 32) (r / 32) 0 Hx Hy); lia).
      assert (Ht : t < 1024) by (unfold t; lia).
      destruct (M (out, Z.of_nat (c * H + r))) as [(b' & t' & Hb' & Ht' & Hin & Em)|[No _]].
      * unfold L2 in Hin, Em. destruct (in2 b' t') eqn:E'; cbn [gw lg] in Hin, Em; [|destruct Hin]. destruct Hin as [Q|[]].
        injection Q as Q. destruct (IN2 _ _ E'). destruct (dst_same (row2 b' t') (col2 b' t') r c) as [<- <-]; auto; [lia|].
        rewrite Em. unfold upd, dst2. replace (addr_eqb _ _) with true; [reflexivity|].
        unfold addr_eqb. cbn [fst snd]. rewrite Nat.eqb_refl, Z.eqb_refl. reflexivity.
      * exfalso. apply (No b t Hb Ht). unfold L2. replace (in2 b t) with true.
        -- cbn [gw]. left. unfold dst2. rewrite Er, Ec. reflexivity.
        -- symmetry. unfold in2. rewrite Er, Ec. apply andb_true_iff. split; apply Nat.ltb_lt; auto.
    + intros a Ha. destruct (M a) as [(b & t & Hb & Ht & Hin & Em)|[_ E]]; [|exact E]. exfalso.
      unfold L2 in Hin. destruct (in2 b t) eqn:E; cbn [gw] in Hin; [|destruct Hin]. destruct Hin as [<-|[]].
      destruct (IN2 _ _ E) as [E1 E2]. apply (Ha [col2 b t; row2 b t]).
      * repeat constructor; auto.
      * rewrite RV. reflexivity.
Qed.
End Tile.
