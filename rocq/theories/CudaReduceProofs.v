(* One block of kReduceMerge. *)
From Coq Require Import List Arith ZArith Bool Lia Permutation.
From Verif Require Import GpuModel GpuSpec GpuProofs GpuLemmas GpuWarp CudaModel CudaReduceModel.
Import ListNotations.
Local Open Scope nat_scope.

Notation offs32 := [16; 8; 4; 2; 1].

Section Block.
Context {V : Type} (op : V -> V -> V) (e : V).
Hypothesis Hc : forall a b, op a b = op b a.
Hypothesis Ha : forall a b c, op a (op b c) = op (op a b) c.
Hypothesis He : op e e = e.

Lemma warps_of : forall (f : nat -> V) W,
  fold_right op e (map (fun w => fold_right op e (map f (seq (32 * w) 32))) (seq 0 W)) = fold_right op e (map f (seq 0 (32 * W))).
Proof.
  intros f W. induction W as [|W IH]; [reflexivity|].
  rewrite seq_S, map_app, (fold_app op e Hc Ha He), IH. cbn [map fold_right plus].
  replace (32 * S W) with (32 * W + 32) by lia. rewrite seq_app, map_app, (fold_app op e Hc Ha He). cbn [plus].
  f_equal. apply (fold_e op e Ha He).
Qed.

(* shuffles within full warps, then partial results of W < 32 warps *)
Lemma two_levels : forall (f : nat -> V) W, 0 < W < 32 ->
  shuf op offs32 (fun t => if t <? W then shuf op offs32 f (32 * t) else e) 0 = fold_right op e (map f (seq 0 (32 * W))).
Proof.
  intros f W HW. change (shuf op offs32 (fun t => if t <? W then shuf op offs32 f (32 * t) else e) 0)
    with (shuf op offs32 (fun t => if t <? W then shuf op offs32 f (32 * t) else e) (32 * 0)).
  rewrite (warp_whole op e Hc Ha He 0).
  2:{ destruct (Nat.ltb_spec (32 * 0 + 31) W); [lia|exact He]. }
  change (32 * 0) with 0. rewrite <- warps_of.
  replace 32 with (W + (32 - W)) at 1 by lia. rewrite seq_app, map_app, (fold_app op e Hc Ha He).
  replace (map (fun t => if t <? W then shuf op offs32 f (32 * t) else e) (seq (0 + W) (32 - W)))
    with (map (fun _ : nat => e) (seq W (32 - W))).
  2:{ apply map_ext_in. intros t Ht. apply in_seq in Ht. destruct (Nat.ltb_spec t W); [lia|reflexivity]. }
  rewrite (fold_pads op e He), (fold_e op e Ha He).
  replace (map (fun t => if t <? W then shuf op offs32 f (32 * t) else e) (seq 0 W))
    with (map (fun w => shuf op offs32 f (32 * w)) (seq 0 W)).
  2:{ apply map_ext_in. intros t Ht. apply in_seq in Ht. destruct (Nat.ltb_spec t W); [reflexivity|lia]. }
  assert (G : forall l, l <> [] -> fold_right op e (map (fun w => shuf op offs32 f (32 * w)) l) =
              fold_right op e (map (fun w => fold_right op e (map f (seq (32 * w) 32))) l)).
  { induction l as [|w l IH]; [congruence|]. intros _. cbn [map fold_right].
    assert (E : fold_right op e (map (fun w => shuf op offs32 f (32 * w)) l) = fold_right op e (map (fun w => fold_right op e (map f (seq (32 * w) 32))) l)).
    { destruct l; [reflexivity|]. apply IH. discriminate. }
    rewrite E. rewrite <- (warp_all op e Hc Ha He), <- Ha, (Hc e), (fold_e op e Ha He). reflexivity. }
  apply G. destruct W; [lia|discriminate].
Qed.

(* the second half of mergeThread *)
Definition second (W : nat) (o : addr) (t : nat) : thr V :=
  if t <? 32 then
    if t <? W then SLd (0, Z.of_nat t) (fun val => warpReduce op val (fun val => if t =? 0 then St o val Done else Done))
    else warpReduce op e (fun val => if t =? 0 then St o val Done else Done)
  else Done.

Lemma merge_thread : forall W inp i o t, mergeThread op e (32 * W) inp i o t =
  let body val := warpReduce op val (fun val => if t mod 32 =? 0 then SSt (0, Z.of_nat (t / 32)) val (Sync (second W o t)) else Sync (second W o t)) in
  if (0 <=? i)%Z then Ld (inp, i) body else body e.
Proof. intros. unfold mergeThread, second. replace (32 * W / 32) with W; [reflexivity|]. rewrite Nat.mul_comm. symmetry. apply Nat.div_mul. lia. Qed.

Lemma in_warp : forall W w t, inw (32 * W) w t -> w < W /\ 32 * w <= t < 32 * w + 32.
Proof. intros W w t [E Ht]. pose proof (Nat.div_mod t 32). pose proof (Nat.mod_upper_bound t 32). lia. Qed.

Theorem block_merge : forall (l : launch V) m inp (inI : nat -> nat -> Z) (outA : nat -> addr) (val : nat -> nat -> V) W,
  bdim l = 32 * W -> 0 < W < 32 -> accepted l -> (forall a, shar l a = shared32 1 a) ->
  (forall b t, b < grid l -> t < bdim l -> code l b t = mergeThread op e (32 * W) inp (inI b t) (outA b) t) ->
  (forall b t, b < grid l -> t < bdim l -> if (0 <=? inI b t)%Z then m (inp, inI b t) = Some (Some (val b t)) else val b t = e) ->
  (forall b, b < grid l -> m (outA b) <> None) ->
  (forall b b', b < grid l -> b' < grid l -> outA b = outA b' -> b = b') ->
  (forall b b' t, b < grid l -> b' < grid l -> t < bdim l -> (0 <= inI b' t)%Z -> outA b = (inp, inI b' t) -> b' = b /\ t = 0) ->
  always l m (fun m' => (forall b, b < grid l -> m' (outA b) = Some (Some (fold_right op e (map (val b) (seq 0 (32 * W))))))
                     /\ (forall a, (forall b, b < grid l -> a <> outA b) -> m' a = m a)).
Proof.
  intros l m inp inI outA val W BD HW ACC SH CODE VAL OUT INJ RACE.
  set (S0 := fun a => if shar l a then Some (@None V) else None).
  set (X := fun b w => shuf op offs32 (val b) (32 * w)).
  set (rds := fun b t => if (0 <=? inI b t)%Z then [(inp, inI b t)] else []).
  set (L1 := fun b t => mkLane m (if t mod 32 =? 0 then upd S0 (0, Z.of_nat (t / 32)) (Some (Some (X b (t / 32)))) else S0)
                          (Sync (second W (outA b) t)) (rds b t) [] [] (if t mod 32 =? 0 then [(0, Z.of_nat (t / 32))] else [])).
  set (S1 := fun b (a : addr) => if ((fst a =? 0)%nat && (0 <=? snd a)%Z && (snd a <? Z.of_nat W)%Z) then Some (Some (X b (Z.to_nat (snd a)))) else S0 a).
  set (v2 := fun b t => if t <? W then X b t else e).
  set (Y := fun b => shuf op offs32 (v2 b) 0).
  set (L3 := fun b t => if t =? 0 then mkLane (upd m (outA b) (Some (Some (Y b)))) (S1 b) Done (rds b t) [outA b] [(0, 0%Z)] []
                        else mkLane m (S1 b) Done (rds b t) [] (if t <? W then [(0, Z.of_nat t)] else []) []).
  assert (EY : forall b, Y b = fold_right op e (map (val b) (seq 0 (32 * W)))) by (intros b; apply two_levels, HW).
  assert (S0ok : forall z, (0 <= z < 32)%Z -> S0 (0, z) = Some None).
  { intros z Hz. unfold S0. rewrite SH. unfold shared32. cbn [fst snd].
    destruct (Z.leb_spec 0 z); [|lia]. destruct (Z.ltb_spec z 32); [reflexivity|lia]. }
  assert (P1 : forall b w, b < grid l -> 32 * w < bdim l -> weval (bdim l) w (lane0 l m b) (L1 b)).
  { intros b w Hb Hw. rewrite BD in *.
    apply weval_run with (L' := fun t => mkLane m S0 (warpReduce op (val b t) (fun val =>
      if t mod 32 =? 0 then SSt (0, Z.of_nat (t / 32)) val (Sync (second W (outA b) t)) else Sync (second W (outA b) t))) (rds b t) [] [] []).
    { intros t Ht. unfold run, lane0. cbn [lp lg ls gr gw sr sw]. rewrite CODE by (auto; apply Ht).
      rewrite merge_thread. cbv zeta. pose proof (VAL b t Hb ltac:(apply Ht)) as E. unfold rds.
      destruct (0 <=? inI b t)%Z; [|rewrite E; reflexivity]. cbn [solo]. rewrite E. reflexivity. }
    eapply weval_shuffles; [|intros t Ht; reflexivity|].
    { destruct (Nat.le_gt_cases (32 * w + 32) (32 * W)); [assumption|]. exfalso. assert (w < W) by lia. lia. }
    apply we_stop. intros t Ht. destruct (in_warp W w t Ht) as [Hw' Ht']. unfold run, withp. cbn [lp lg ls gr gw sr sw].
    unfold L1. destruct (Nat.eqb_spec (t mod 32) 0) as [E|E].
    - cbn [solo]. assert (Hd : t / 32 = w) by apply Ht. rewrite S0ok by lia. split; [|exact I].
      assert (t = 32 * w) by (pose proof (Nat.div_mod t 32); lia). subst t. rewrite Hd. reflexivity.
    - cbn [solo]. split; [reflexivity|exact I]. }
  assert (P2 : forall b w, b < grid l -> 32 * w < bdim l -> weval (bdim l) w (fun t => release (S1 b) (L1 b t)) (L3 b)).
  { intros b w Hb Hw. rewrite BD in *. destruct w as [|w].
    - apply weval_run with (L' := fun t => mkLane m (S1 b) (warpReduce op (v2 b t) (fun val => if t =? 0 then St (outA b) val Done else Done))
                                             (rds b t) [] (if t <? W then [(0, Z.of_nat t)] else []) []).
      { intros t Ht. destruct (in_warp W 0 t Ht) as [_ Ht']. unfold run, release. unfold L1. cbn [lp lg ls gr gw sr sw released].
        unfold second, v2. destruct (Nat.ltb_spec t 32); [|lia]. destruct (Nat.ltb_spec t W); [|reflexivity].
        cbn [solo]. unfold S1 at 1. cbn [fst snd Nat.eqb]. destruct (Z.leb_spec 0 (Z.of_nat t)); [|lia].
        destruct (Z.ltb_spec (Z.of_nat t) (Z.of_nat W)); [|lia]. cbn [andb]. rewrite Nat2Z.id. reflexivity. }
      eapply weval_shuffles; [lia|intros t Ht; reflexivity|].
      apply we_stop. intros t Ht. unfold run, withp. cbn [lp lg ls gr gw sr sw]. unfold L3.
      destruct (Nat.eqb_spec t 0) as [->|N].
      + cbn [solo]. destruct (m (outA b)) eqn:E; [|exfalso; apply (OUT b Hb E)]. split; [|exact I].
        destruct (Nat.ltb_spec 0 W); [reflexivity|lia].
      + cbn [solo]. split; [reflexivity|exact I].
    - apply we_stop. intros t Ht. destruct (in_warp W (S w) t Ht) as [_ Ht']. unfold run, release, L1, L3. cbn [lp lg ls gr gw sr sw released].
      unfold second. destruct (Nat.ltb_spec t 32); [lia|]. destruct (Nat.eqb_spec t 0); [lia|]. destruct (Nat.ltb_spec t W); [lia|].
      cbn [solo]. split; [reflexivity|exact I]. }
  assert (GF : gfree (grid l) (bdim l) L3).
  { intros b t b' t' a Hb Ht Hb' Ht' N Hw. unfold L3 in Hw. destruct (Nat.eqb_spec t 0) as [->|_]; cbn [gw] in Hw; [|destruct Hw].
    destruct Hw as [<-|[]]. split.
    - intros Hr. assert (Hr' : In (outA b) (rds b' t')) by (unfold L3 in Hr; destruct (t' =? 0); exact Hr).
      unfold rds in Hr'. destruct (Z.leb_spec 0 (inI b' t')); [|destruct Hr']. destruct Hr' as [E|[]].
      destruct (RACE b b' t' Hb Hb' Ht' H (eq_sym E)) as [-> ->]. apply N. reflexivity.
    - intros Hr. unfold L3 in Hr. destruct (Nat.eqb_spec t' 0) as [->|_]; cbn [gw] in Hr; [|destruct Hr].
      destruct Hr as [E|[]]. apply INJ in E; auto. }
  apply (race_free l m L3 _ ACC).
  - split; [|exact GF]. intros b Hb.
    apply (be_sync _ _ _ (L1 b) (S1 b) (fun t => release (S1 b) (L1 b t))).
    + intros w Hw. apply P1; assumption.
    + intros t t' a Ht Ht' N Hin. unfold L1 in *. cbn [sr sw] in *. split; [intros []|].
      destruct (Nat.eqb_spec (t mod 32) 0) as [E|_]; [|destruct Hin]. destruct Hin as [<-|[]].
      destruct (Nat.eqb_spec (t' mod 32) 0) as [E'|_]; [|intros []]. intros [X'|[]]. apply (f_equal snd) in X'. cbn [snd] in X'. apply Nat2Z.inj in X'.
      pose proof (Nat.div_mod t 32). pose proof (Nat.div_mod t' 32). lia.
    + exists 0. rewrite BD. split; [lia|]. exact I.
    + intros a. unfold S1. destruct ((fst a =? 0)%nat && (0 <=? snd a)%Z && (snd a <? Z.of_nat W)%Z) eqn:E.
      * left. destruct a as [p z]. cbn [fst snd] in E. apply andb_prop in E as [E E3]. apply andb_prop in E as [E1 E2].
        apply Nat.eqb_eq in E1. apply Z.leb_le in E2. apply Z.ltb_lt in E3. subst p. exists (32 * Z.to_nat z).
        assert (D : 32 * Z.to_nat z / 32 = Z.to_nat z) by (rewrite Nat.mul_comm; apply Nat.div_mul; lia).
        assert (M : (32 * Z.to_nat z) mod 32 = 0) by (rewrite Nat.mul_comm; apply Nat.mod_mul; lia).
        split; [lia|]. unfold L1. cbn [sw ls]. rewrite D, M. cbn [Nat.eqb]. split; [left; f_equal; lia|].
        replace (0, Z.of_nat (Z.to_nat z)) with (0, z) by (f_equal; lia). rewrite upd_same. reflexivity.
      * right. split; [|reflexivity]. intros t Ht Hin. unfold L1 in Hin. cbn [sw] in Hin.
        destruct (Nat.eqb_spec (t mod 32) 0) as [M|_]; [|destruct Hin]. destruct Hin as [<-|[]]. cbn [fst snd] in E.
        pose proof (Nat.div_mod t 32). assert (t / 32 < W) by lia.
        cbn [Nat.eqb] in E. destruct (Z.leb_spec 0 (Z.of_nat (t / 32))); [|lia]. destruct (Z.ltb_spec (Z.of_nat (t / 32)) (Z.of_nat W)); [discriminate|lia].
    + intros t Ht. reflexivity.
    + apply be_done.
      * intros w Hw. apply P2; assumption.
      * intros t t' a Ht Ht' N Hin. unfold L3 in Hin. destruct (t =? 0); destruct Hin.
      * intros t Ht. unfold L3. destruct (t =? 0); reflexivity.
  - intros m' Hm. split.
    + intros b Hb. destruct (Hm (outA b)) as [(b' & t & Hb' & Ht & Hin & E)|[N _]].
      * unfold L3 in Hin, E. destruct (Nat.eqb_spec t 0) as [->|_]; cbn [gw lg] in *; [|destruct Hin].
        destruct Hin as [X'|[]]. apply INJ in X'; auto. subst b'. rewrite E, upd_same, EY. reflexivity.
      * exfalso. apply (N b 0 Hb); [rewrite BD; lia|]. left. reflexivity.
    + intros a Hna. destruct (Hm a) as [(b & t & Hb & Ht & Hin & E)|[_ E]]; [|exact E].
      unfold L3 in Hin. destruct (t =? 0); cbn [gw] in Hin; [|destruct Hin]. destruct Hin as [<-|[]]. exfalso. apply (Hna b Hb). reflexivity.
Qed.
End Block.
