(* tril, triu and transpose on CUDA tensors: grids of several dimensions and a
   tile in shared memory. *)
From Coq Require Import List Arith ZArith Bool Lia Permutation.
From Verif Require LineProofs SoftmaxProofs.
From Verif Require Import ShapeModel ShapeSpec ShapeProofs TensorModel TensorSpec TensorLemmas
  BcastModel BcastSpec BcastProofs BufModel BufProofs CutModel CutSpec PermModel PermSpec PermProofs PermProofs2
  IndexModel IndexSpec IndexProofs
  GpuModel GpuSpec GpuProofs CudaModel CudaSpec GpuLemmas CudaProofs GpuOrder CudaFillModel CudaItems CudaFillProofs
  CudaMoveModel CudaMoveProofs CudaMoveProofs2.
Import ListNotations.
Local Open Scope nat_scope.

Lemma placed : forall V (m m' : addr -> cell V) out sh F, room m out (numel sh) ->
  (forall idx, valid sh idx -> m' (out, Z.of_nat (ravel sh idx)) = Some (Some (F idx))) ->
  (forall a, (forall idx, valid sh idx -> a <> (out, Z.of_nat (ravel sh idx))) -> m' a = m a) ->
  has m' out sh F /\ same_but out m m'.
Proof.
  intros V m m' out sh F ROOM H1 H2.
  destruct (filled m m' out (numel sh) (fun i => F (offsetToIndices sh i)) ROOM) as [A B].
  - intros i Hi. rewrite <- H1 by (apply o2i_valid; lia). rewrite ravel_o2i by lia. rewrite Z2Nat.id by lia. reflexivity.
  - intros a Ha. apply H2. intros idx Hv. pose proof (ravel_lt sh idx Hv). apply Ha. lia.
  - split; [|exact B]. unfold has. rewrite <- (map_seq_indices sh F). exact A.
Qed.

(* ---- grids ---- *)

Lemma launch3_at : forall V nx ny bx by_ bz dx tx ty (c : nat -> nat -> nat -> nat -> nat -> thr V),
  bx < nx -> by_ < ny -> tx < dx ->
  let b := (bz * ny + by_) * nx + bx in
  let t := ty * dx + tx in
  c (b mod nx) ((b / nx) mod ny) (b / nx / ny) (t mod dx) (t / dx) = c bx by_ bz tx ty.
Proof.
  intros V nx ny bx by_ bz dx tx ty c Hx Hy Ht b t.
  assert (E1 : b / nx = bz * ny + by_) by (unfold b; rewrite Nat.div_add_l by lia; rewrite Nat.div_small by lia; lia).
  assert (E2 : b mod nx = bx) by (unfold b; rewrite Nat.add_comm, Nat.mod_add by lia; apply Nat.mod_small; lia).
  assert (E3 : (bz * ny + by_) / ny = bz) by (rewrite Nat.div_add_l by lia; rewrite Nat.div_small by lia; lia).
  assert (E4 : (bz * ny + by_) mod ny = by_) by (rewrite Nat.add_comm, Nat.mod_add by lia; apply Nat.mod_small; lia).
  assert (E5 : t / dx = ty) by (unfold t; rewrite Nat.div_add_l by lia; rewrite Nat.div_small by lia; lia).
  assert (E6 : t mod dx = tx) by (unfold t; rewrite Nat.add_comm, Nat.mod_add by lia; apply Nat.mod_small; lia).
  rewrite E2, E1, E3, E4, E5, E6. reflexivity.
Qed.

Lemma block_lt : forall nx ny nz bx by_ bz, bx < nx -> by_ < ny -> bz < nz -> (bz * ny + by_) * nx + bx < nx * ny * nz.
Proof.
  intros nx ny nz bx by_ bz Hx Hy Hz. assert (bz * ny + by_ < nz * ny) by nia.
  assert (S (bz * ny + by_) * nx <= nz * ny * nx) by (apply Nat.mul_le_mono_r; lia). lia.
Qed.

Lemma ceil_ok : forall k n, (0 < k)%Z -> (0 < Z.of_nat n <= 2 ^ 32)%Z -> k <> 1%Z ->
  let c := ((Z.of_nat n + (k - 1)) / k)%Z in
  ((c mod 2 ^ 32 = c) /\ 0 < c /\ k * (c - 1) < Z.of_nat n /\ Z.of_nat n <= k * c)%Z.
Proof.
  intros k n Hk Hn H1 c.
  pose proof (Z.div_mod (Z.of_nat n + (k - 1)) k ltac:(lia)) as D. fold c in D.
  pose proof (Z.mod_pos_bound (Z.of_nat n + (k - 1)) k Hk) as M.
  assert (0 < c)%Z by nia.
  assert (2 * (c - 1) <= k * (c - 1))%Z by nia.
  split; [apply Z.mod_small; lia|]. lia.
Qed.

(* ---- tril, triu ---- *)

Lemma triangle_ok : forall V (zero_ : V) lower bsh r c F diagonal self out m,
  (0 < Z.of_nat (numel (bsh ++ [r; c])) <= 2 ^ 32)%Z -> (Z.of_nat (numel bsh) <= 65535)%Z -> (Z.of_nat r <= 65535 * 16)%Z ->
  has m self (bsh ++ [r; c]) F -> room m out (numel (bsh ++ [r; c])) -> out <> self ->
  exists l, triangleCuda zero_ lower (mkD self (bsh ++ [r; c])) diagonal out = Ok (bsh ++ [r; c], l) /\
    computes l m out (bsh ++ [r; c]) (fun idx =>
      let i := Z.of_nat (nth (length bsh) idx 0) in let j := Z.of_nat (nth (length bsh + 1) idx 0) in
      if (if lower then j <=? i + diagonal else i + diagonal <=? j)%Z then F idx else zero_).
Proof.
  intros V zero_ lower bsh r c F diagonal self out m HZ HB HRows HF HR N.
  unfold triangleCuda. cbn [dshape dbuf]. rewrite !app_length. cbn [length].
  destruct (Nat.ltb_spec (length bsh + 2) 2); [lia|].
  replace (length bsh + 2 - 2) with (length bsh) by lia. replace (length bsh + 2 - 1) with (length bsh + 1) by lia.
  assert (E1 : nth (length bsh) (bsh ++ [r; c]) 0 = r) by (rewrite app_nth2, Nat.sub_diag by lia; reflexivity).
  assert (E2 : nth (length bsh + 1) (bsh ++ [r; c]) 0 = c) by (rewrite app_nth2 by lia; replace (length bsh + 1 - length bsh) with 1 by lia; reflexivity).
  assert (E3 : firstn (length bsh) (bsh ++ [r; c]) = bsh) by (rewrite firstn_app, Nat.sub_diag, firstn_all; cbn; apply app_nil_r).
  rewrite E1, E2, E3. change (fold_left Nat.mul bsh 1) with (numel bsh).
  eexists. split; [reflexivity|].
  assert (EN : numel (bsh ++ [r; c]) = numel bsh * (r * c)) by (rewrite numel_app, !numel_cons, numel_nil; lia).
  set (nb := numel bsh) in *. set (sh := bsh ++ [r; c]) in *.
  assert (Hr : 0 < r) by nia. assert (Hc : 0 < c) by nia. assert (Hnb : 0 < nb) by nia.
  assert (Hc' : (0 < Z.of_nat c <= 2 ^ 32)%Z) by nia. assert (Hr' : (0 < Z.of_nat r <= 2 ^ 32)%Z) by lia.
  destruct (ceil_ok 16 c ltac:(lia) Hc' ltac:(lia)) as (X1 & X2 & X3 & X4).
  destruct (ceil_ok 16 r ltac:(lia) Hr' ltac:(lia)) as (Y1 & Y2 & Y3 & Y4).
  change (16 - 1)%Z with 15%Z in *.
  set (nx := ((Z.of_nat c + 15) / 16)%Z) in *. set (ny := ((Z.of_nat r + 15) / 16)%Z) in *.
  assert (Z1 : (Z.of_nat nb mod 2 ^ 32 = Z.of_nat nb)%Z) by (apply Z.mod_small; lia).
  rewrite X1, Y1, Z1.
  assert (OK : ((nx <=? 2 ^ 31 - 1) && (ny <=? 65535) && (Z.of_nat nb <=? 65535))%Z = true).
  { rewrite !andb_true_iff, !Z.leb_le. lia. }
  assert (EZ : (Z.of_nat nb * (Z.of_nat r * Z.of_nat c) <= 2 ^ 32)%Z) by nia.
  assert (GB : (nx * ny * Z.of_nat nb <= 2 ^ 31 - 1)%Z).
  { assert (256 * (nx * ny) <= 16 * (Z.of_nat r * Z.of_nat c) + 240)%Z by nia.
    assert (256 * (nx * ny * Z.of_nat nb) <= 16 * (Z.of_nat nb * (Z.of_nat r * Z.of_nat c)) + 240 * Z.of_nat nb)%Z by nia. lia. }
  set (l := launch3 nx ny (Z.of_nat nb) 16 16 (fun _ => false) (triangleAt zero_ lower out self (Z.of_nat nb) (Z.of_nat r) (Z.of_nat c) diagonal)).
  assert (GR : grid l = Z.to_nat nx * Z.to_nat ny * nb) by (unfold l, launch3; cbn [grid]; rewrite OK, Nat2Z.id; reflexivity).
  assert (BD : bdim l = 256) by reflexivity.
  set (Fs := fun idx : list nat => let i := Z.of_nat (nth (length bsh) idx 0) in let j := Z.of_nat (nth (length bsh + 1) idx 0) in
      if (if lower then j <=? i + diagonal else i + diagonal <=? j)%Z then F idx else zero_).
  (* one element *)
  assert (PL : forall b i j, valid bsh b -> i < r -> j < c -> forall bx by_ tx ty,
    bx * 16 + tx = j -> by_ * 16 + ty = i -> exists R,
    plan (triangleAt zero_ lower out self (Z.of_nat nb) (Z.of_nat r) (Z.of_nat c) diagonal bx by_ (ravel bsh b) tx ty) m
      = Some (R, [((out, Z.of_nat (ravel sh (b ++ [i; j]))), Fs (b ++ [i; j]))]) /\ forall a, In a R -> fst a <> out).
  { intros b i j Hb Hi Hj bx by_ tx ty Ej Ei. pose proof (valid_length _ _ Hb) as Lb. pose proof (ravel_lt _ _ Hb) as Rb. fold nb in Rb.
    assert (Hv : valid sh (b ++ [i; j])) by (apply valid_app; auto; split; auto; repeat constructor; auto).
    unfold triangleAt.
    replace ((Z.of_nat by_ * 16 + Z.of_nat ty) mod 2 ^ 32)%Z with (Z.of_nat i) by (rewrite Z.mod_small; lia).
    replace ((Z.of_nat bx * 16 + Z.of_nat tx) mod 2 ^ 32)%Z with (Z.of_nat j) by (rewrite Z.mod_small; lia).
    destruct (Z.ltb_spec (Z.of_nat (ravel bsh b)) (Z.of_nat nb)); [|lia].
    destruct (Z.ltb_spec (Z.of_nat i) (Z.of_nat r)); [|lia]. destruct (Z.ltb_spec (Z.of_nat j) (Z.of_nat c)); [|lia]. cbn [andb].
    replace (Z.of_nat (ravel bsh b) * (Z.of_nat r * Z.of_nat c) + Z.of_nat i * Z.of_nat c + Z.of_nat j)%Z with (Z.of_nat (ravel sh (b ++ [i; j]))).
    2:{ unfold sh. rewrite ravel_app by exact Lb. rewrite !ravel_cons, !numel_cons, numel_nil, ravel_nil. nia. }
    assert (EF : Fs (b ++ [i; j]) = if (if lower then Z.of_nat j <=? Z.of_nat i + diagonal else Z.of_nat i + diagonal <=? Z.of_nat j)%Z then F (b ++ [i; j]) else zero_).
    { unfold Fs. rewrite !app_nth2 by lia. replace (length bsh - length b) with 0 by lia. replace (length bsh + 1 - length b) with 1 by lia. reflexivity. }
    rewrite EF. destruct (if lower then _ else _).
    - exists [(self, Z.of_nat (ravel sh (b ++ [i; j])))]. split.
      + apply (plan_ld _ _ _ (F (b ++ [i; j]))); [apply has_at; auto|]. apply plan_st; [apply room_ravel; auto|reflexivity].
      + intros a [<-|[]]. cbn. congruence.
    - exists []. split; [|intros a []]. apply plan_st; [apply room_ravel; auto|reflexivity]. }
  apply covers; auto.
  - split; [|split]; rewrite ?GR, ?BD; [|rewrite !Nat2Z.inj_mul, !Z2Nat.id by lia; lia|lia].
    assert (0 < Z.to_nat nx) by lia. assert (0 < Z.to_nat ny) by lia. nia.
  - intros b t Hb Ht. rewrite GR in Hb. rewrite BD in Ht. unfold l, launch3. cbn [code].
    set (bx := b mod Z.to_nat nx). set (by_ := (b / Z.to_nat nx) mod Z.to_nat ny). set (bz := b / Z.to_nat nx / Z.to_nat ny).
    set (tx := t mod 16). set (ty := t / 16).
    assert (Hbx : bx < Z.to_nat nx) by (apply Nat.mod_upper_bound; lia).
    assert (Hby : by_ < Z.to_nat ny) by (apply Nat.mod_upper_bound; lia).
    assert (Hbz : bz < nb).
    { unfold bz. rewrite Nat.div_div by lia. apply Nat.div_lt_upper_bound; [nia|]. exact Hb. }
    assert (Htx : tx < 16) by (apply Nat.mod_upper_bound; lia).
    assert (Hty : ty < 16) by (apply Nat.div_lt_upper_bound; lia).
    destruct (Nat.ltb_spec (by_ * 16 + ty) r) as [Hi|Hi]; [destruct (Nat.ltb_spec (bx * 16 + tx) c) as [Hj|Hj]|].
    + destruct (PL (offsetToIndices bsh bz) (by_ * 16 + ty) (bx * 16 + tx)) with (bx := bx) (by_ := by_) (tx := tx) (ty := ty) as (R & E & HRd); auto.
      * apply o2i_valid. exact Hbz.
      * rewrite ravel_o2i in E by exact Hbz. exists R. eexists. split; [exact E|]. split; [exact HRd|].
        intros a v [e|[]]. injection e as <- <-. eexists. split; [|split; reflexivity].
        apply valid_app; [apply (valid_length bsh), o2i_valid, Hbz|]. split; [apply o2i_valid, Hbz|]. repeat constructor; auto.
    + exists [], []. split; [|split; intros ? *; intros []]. unfold triangleAt.
      replace ((Z.of_nat bx * 16 + Z.of_nat tx) mod 2 ^ 32 <? Z.of_nat c)%Z with false; [rewrite andb_false_r; reflexivity|].
      symmetry. apply Z.ltb_ge. rewrite Z.mod_small; lia.
    + exists [], []. split; [|split; intros ? *; intros []]. unfold triangleAt.
      replace ((Z.of_nat by_ * 16 + Z.of_nat ty) mod 2 ^ 32 <? Z.of_nat r)%Z with false; [rewrite andb_false_r; reflexivity|].
      symmetry. apply Z.ltb_ge. rewrite Z.mod_small; lia.
  - intros idx Hv. destruct (valid_mid bsh r [c] idx Hv) as (b & i & jl & -> & Lb & Hb & Hi & Hjl).
    assert (EJ : exists j, jl = [j] /\ j < c) by (inversion Hjl as [|j ? jr ? Hj Hn]; inversion Hn; exists j; auto).
    destruct EJ as (j & -> & Hj).
    pose proof (ravel_lt _ _ Hb) as Rb. fold nb in Rb.
    exists ((ravel bsh b * Z.to_nat ny + i / 16) * Z.to_nat nx + j / 16), ((i mod 16) * 16 + j mod 16).
    assert (Hx : j / 16 < Z.to_nat nx) by (apply Nat.div_lt_upper_bound; lia).
    assert (Hy : i / 16 < Z.to_nat ny) by (apply Nat.div_lt_upper_bound; lia).
    pose proof (Nat.mod_upper_bound j 16 ltac:(lia)). pose proof (Nat.mod_upper_bound i 16 ltac:(lia)).
    split; [rewrite GR; apply block_lt; auto|]. split; [rewrite BD; lia|].
    intros R W E. unfold l, launch3 in E. cbn [code] in E.
    rewrite (launch3_at V (Z.to_nat nx) (Z.to_nat ny)) in E by auto.
    destruct (PL b i j Hb Hi Hj (j / 16) (i / 16) (j mod 16) (i mod 16)) as (R' & E' & _).
    + pose proof (Nat.div_mod j 16). lia.
    + pose proof (Nat.div_mod i 16). lia.
    + rewrite E' in E. injection E as _ <-. left. reflexivity.
Qed.
