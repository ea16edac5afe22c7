(* One block of kReduceIdxMerge. *)
From Coq Require Import List Arith ZArith Bool Lia Permutation.
From Verif Require Import ReduceSpec GpuModel GpuSpec GpuProofs GpuLemmas GpuWarp CudaModel CudaMoveModel CudaReduceModel CudaReduceProofs CudaExtremeModel.
Import ListNotations.
Local Open Scope nat_scope.

Section Idx.
Context {A : Type} (lt : A -> A -> bool) (e : A).

Lemma weval_shufflesIdx : forall BD offs w (L : nat -> lane) f k L3,
  32 * w + 32 <= BD ->
  (forall t, inw BD w t -> lp (L t) = shufflesIdx lt offs (f t) (k t)) ->
  weval BD w (fun t => withp (L t) (k t (shuf (keepOf lt) offs f t))) L3 ->
  weval BD w L L3.
Proof.
  intros BD offs. induction offs as [|d r IH]; intros w L f k L3 HW HL H.
  - apply weval_run with (L' := fun t => withp (L t) (k t (f t))); [|exact H].
    intros t Ht. unfold run, withp. cbn [lp lg ls gr gw sr sw]. rewrite (HL t Ht). reflexivity.
  - set (P2 := fun t => Shfl (Ix (snd (f t))) d (fun o => match o with Ix oi => shufflesIdx lt r (keepOf lt (f t) (fst (f (src t d)), oi)) (k t) | El _ => Trap end)).
    apply (we_shfl BD w L L (fun t => withp (L t) (P2 t)) L3 HW).
    + intros t Ht. pose proof (HL t Ht) as E. cbn [shufflesIdx] in E. unfold run. destruct (L t) as [g s P r1 r2 r3 r4].
      cbn [lp lg ls gr gw sr sw] in *. subst P. unfold shflBoth. cbn [solo]. split; [reflexivity|exact I].
    + intros t Ht. unfold shuffled. rewrite (HL t Ht). cbn [shufflesIdx]. unfold shflBoth. rewrite (HL (src t d) (src_in BD w t d HW Ht)). reflexivity.
    + apply (we_shfl BD w _ (fun t => withp (L t) (P2 t)) (fun t => withp (L t) (shufflesIdx lt r (keepOf lt (f t) (f (src t d))) (k t))) L3 HW).
      * intros t Ht. unfold run, withp, P2. cbn [lp lg ls gr gw sr sw solo]. split; [reflexivity|exact I].
      * intros t Ht. unfold shuffled, withp, P2. cbn [lp]. destruct (f (src t d)) as [x i]. reflexivity.
      * apply (IH w _ (fun t => keepOf lt (f t) (f (src t d))) k); [exact HW|reflexivity|]. exact H.
Qed.

(* what a block of W full warps leaves *)
Definition twice (W : nat) (f : nat -> A * Z) : A * Z :=
  shuf (keepOf lt) offs32 (fun t => if t <? W then shuf (keepOf lt) offs32 f (32 * t) else (e, (-1)%Z)) 0.

Definition secondIdx (W : nat) (oV oI : addr) (t : nat) : thr (word A) :=
  let fin r := if t =? 0 then St oI (Ix (snd r)) (St oV (El (fst r)) Done) else Done in
  if t <? 32 then
    if t <? W then SLd (0, Z.of_nat t) (fun w => match w with
          | El val => SLd (1, Z.of_nat t) (fun w => match w with Ix idx => warpReduceIdx lt (val, idx) fin | El _ => Trap end)
          | Ix _ => Trap
          end)
    else warpReduceIdx lt (e, (-1)%Z) fin
  else Done.

Definition firstIdx (W : nat) (oV oI : addr) (t : nat) (mine : A * Z) : thr (word A) :=
  warpReduceIdx lt mine (fun r =>
    if t mod 32 =? 0 then SSt (0, Z.of_nat (t / 32)) (El (fst r)) (SSt (1, Z.of_nat (t / 32)) (Ix (snd r)) (Sync (secondIdx W oV oI t)))
    else Sync (secondIdx W oV oI t)).

Lemma merge_idx_thread : forall W inV inI i j oV oI t, mergeIdxThread lt e (32 * W) inV inI i j oV oI t =
  if (0 <=? i)%Z
  then ldEl (inV, i) (fun val => match inI with Some p => ldIx (p, i) (fun idx => firstIdx W oV oI t (val, idx)) | None => firstIdx W oV oI t (val, j) end)
  else firstIdx W oV oI t (e, (-1)%Z).
Proof. intros. unfold mergeIdxThread, firstIdx, secondIdx. replace (32 * W / 32) with W; [reflexivity|]. rewrite Nat.mul_comm. symmetry. apply Nat.div_mul. lia. Qed.

Theorem block_idx : forall (l : launch (word A)) m inV inI (inIdx outIdx : nat -> nat -> Z) oV oI (val : nat -> nat -> A * Z) W,
  bdim l = 32 * W -> 0 < W < 32 -> accepted l -> (forall a, shar l a = shared32 2 a) ->
  (forall b t, b < grid l -> t < bdim l -> code l b t = mergeIdxThread lt e (32 * W) inV inI (inIdx b t) (outIdx b t) (oV, Z.of_nat b) (oI, Z.of_nat b) t) ->
  (forall b t, b < grid l -> t < bdim l ->
     if (0 <=? inIdx b t)%Z then m (inV, inIdx b t) = Some (Some (El (fst (val b t)))) /\
       match inI with Some p => m (p, inIdx b t) = Some (Some (Ix (snd (val b t)))) | None => snd (val b t) = outIdx b t end
     else val b t = (e, (-1)%Z)) ->
  (forall b, b < grid l -> m (oV, Z.of_nat b) <> None /\ m (oI, Z.of_nat b) <> None) -> oV <> oI ->
  (forall b b' t p, b < grid l -> b' < grid l -> t < bdim l -> inIdx b' t = Z.of_nat b -> p = inV \/ inI = Some p -> p = oV \/ p = oI -> b' = b /\ t = 0) ->
  always l m (fun m' =>
    (forall b, b < grid l -> m' (oV, Z.of_nat b) = Some (Some (El (fst (twice W (val b))))) /\ m' (oI, Z.of_nat b) = Some (Some (Ix (snd (twice W (val b)))))) /\
    (forall a, (forall b, b < grid l -> a <> (oV, Z.of_nat b) /\ a <> (oI, Z.of_nat b)) -> m' a = m a)).
Proof.
  intros l m inV inI inIdx outIdx oV oI val W BD HW ACC SH CODE VAL OUT NE RACE.
  set (S0 := fun a => if shar l a then Some (@None (word A)) else None).
  set (X := fun b w => shuf (keepOf lt) offs32 (val b) (32 * w)).
  set (rds := fun b t => if (0 <=? inIdx b t)%Z then match inI with Some p => [(p, inIdx b t); (inV, inIdx b t)] | None => [(inV, inIdx b t)] end else []).
  set (aV := fun b => (oV, Z.of_nat b) : addr). set (aI := fun b => (oI, Z.of_nat b) : addr).
  set (L1 := fun b t => mkLane m (if t mod 32 =? 0 then upd (upd S0 (0, Z.of_nat (t / 32)) (Some (Some (El (fst (X b (t / 32))))))) (1, Z.of_nat (t / 32)) (Some (Some (Ix (snd (X b (t / 32)))))) else S0)
                          (Sync (secondIdx W (aV b) (aI b) t)) (rds b t) [] [] (if t mod 32 =? 0 then [(1, Z.of_nat (t / 32)); (0, Z.of_nat (t / 32))] else [])).
  set (S1 := fun b (a : addr) => if ((0 <=? snd a)%Z && (snd a <? Z.of_nat W)%Z) then
                match fst a with
                | 0 => Some (Some (El (fst (X b (Z.to_nat (snd a))))))
                | 1 => Some (Some (Ix (snd (X b (Z.to_nat (snd a))))))
                | _ => S0 a end else S0 a).
  set (v2 := fun b t => if t <? W then X b t else (e, (-1)%Z)).
  set (Y := fun b => shuf (keepOf lt) offs32 (v2 b) 0).
  set (L3 := fun b t => if t =? 0 then mkLane (upd (upd m (aI b) (Some (Some (Ix (snd (Y b)))))) (aV b) (Some (Some (El (fst (Y b)))))) (S1 b) Done (rds b t) [aV b; aI b] [(1, 0%Z); (0, 0%Z)] []
                        else mkLane m (S1 b) Done (rds b t) [] (if t <? W then [(1, Z.of_nat t); (0, Z.of_nat t)] else []) []).
  assert (EY : forall b, Y b = twice W (val b)) by reflexivity.
  assert (S0ok : forall q z, q < 2 -> (0 <= z < 32)%Z -> S0 (q, z) = Some None).
  { intros q z Hq Hz. unfold S0. rewrite SH. unfold shared32. cbn [fst snd]. destruct (Nat.ltb_spec q 2); [|lia].
    destruct (Z.leb_spec 0 z); [|lia]. destruct (Z.ltb_spec z 32); [reflexivity|lia]. }
  assert (P1 : forall b w, b < grid l -> 32 * w < bdim l -> weval (bdim l) w (lane0 l m b) (L1 b)).
  { intros b w Hb Hw. rewrite BD in *.
    apply weval_run with (L' := fun t => mkLane m S0 (firstIdx W (aV b) (aI b) t (val b t)) (rds b t) [] [] []).
    { intros t Ht. unfold run, lane0. cbn [lp lg ls gr gw sr sw]. rewrite CODE by (auto; apply Ht).
      rewrite merge_idx_thread. pose proof (VAL b t Hb ltac:(apply Ht)) as E. unfold rds.
      destruct (0 <=? inIdx b t)%Z; [|rewrite E; reflexivity]. destruct E as [E1 E2]. unfold ldEl. cbn [solo]. rewrite E1.
      destruct inI as [p|].
      - unfold ldIx. cbn [solo]. rewrite E2. rewrite <- surjective_pairing. reflexivity.
      - rewrite <- E2, <- surjective_pairing. reflexivity. }
    eapply weval_shufflesIdx; [|intros t Ht; reflexivity|].
    { destruct (Nat.le_gt_cases (32 * w + 32) (32 * W)); [assumption|]. exfalso. assert (w < W) by lia. lia. }
    apply we_stop. intros t Ht. destruct (in_warp W w t Ht) as [Hw' Ht']. unfold run, withp. cbn [lp lg ls gr gw sr sw].
    unfold L1. destruct (Nat.eqb_spec (t mod 32) 0) as [E|E].
    - cbn [solo]. assert (Hd : t / 32 = w) by apply Ht. rewrite S0ok by lia. cbn [solo]. rewrite upd_other by congruence. rewrite S0ok by lia. split; [|exact I].
      assert (t = 32 * w) by (pose proof (Nat.div_mod t 32); lia). subst t. rewrite Hd. reflexivity.
    - cbn [solo]. split; [reflexivity|exact I]. }
  assert (P2 : forall b w, b < grid l -> 32 * w < bdim l -> weval (bdim l) w (fun t => release (S1 b) (L1 b t)) (L3 b)).
  { intros b w Hb Hw. rewrite BD in *. destruct w as [|w].
    - apply weval_run with (L' := fun t => mkLane m (S1 b) (warpReduceIdx lt (v2 b t) (fun r => if t =? 0 then St (aI b) (Ix (snd r)) (St (aV b) (El (fst r)) Done) else Done))
                                             (rds b t) [] (if t <? W then [(1, Z.of_nat t); (0, Z.of_nat t)] else []) []).
      { intros t Ht. destruct (in_warp W 0 t Ht) as [_ Ht']. unfold run, release. unfold L1. cbn [lp lg ls gr gw sr sw released].
        unfold secondIdx, v2. destruct (Nat.ltb_spec t 32); [|lia]. destruct (Nat.ltb_spec t W); [|reflexivity].
        assert (ES : forall q, q < 2 -> S1 b (q, Z.of_nat t) = match q with 0 => Some (Some (El (fst (X b t)))) | _ => Some (Some (Ix (snd (X b t)))) end).
        { intros q Hq. unfold S1. cbn [fst snd]. destruct (Z.leb_spec 0 (Z.of_nat t)); [|lia]. destruct (Z.ltb_spec (Z.of_nat t) (Z.of_nat W)); [|lia]. cbn [andb]. rewrite Nat2Z.id.
          destruct q as [|[|q]]; [reflexivity|reflexivity|lia]. }
        cbn [solo]. rewrite (ES 0) by lia. cbn [solo]. rewrite (ES 1) by lia. rewrite <- surjective_pairing. reflexivity. }
      eapply weval_shufflesIdx; [lia|intros t Ht; reflexivity|].
      apply we_stop. intros t Ht. unfold run, withp. cbn [lp lg ls gr gw sr sw]. unfold L3.
      destruct (Nat.eqb_spec t 0) as [->|N].
      + destruct (OUT b Hb) as [OV OI]. cbn [solo]. unfold aI at 1. destruct (m (oI, Z.of_nat b)) eqn:E; [|congruence]. cbn [solo]. rewrite upd_other by (unfold aI, aV; congruence).
        unfold aV at 1. destruct (m (oV, Z.of_nat b)) eqn:E'; [|congruence]. split; [|exact I].
        destruct (Nat.ltb_spec 0 W); [reflexivity|lia].
      + cbn [solo]. split; [reflexivity|exact I].
    - apply we_stop. intros t Ht. destruct (in_warp W (S w) t Ht) as [_ Ht']. unfold run, release, L1, L3. cbn [lp lg ls gr gw sr sw released].
      unfold secondIdx. destruct (Nat.ltb_spec t 32); [lia|]. destruct (Nat.eqb_spec t 0); [lia|]. destruct (Nat.ltb_spec t W); [lia|].
      cbn [solo]. split; [reflexivity|exact I]. }
  assert (GF : gfree (grid l) (bdim l) L3).
  { intros b t b' t' a Hb Ht Hb' Ht' N Hw. unfold L3 in Hw. destruct (Nat.eqb_spec t 0) as [->|_]; cbn [gw] in Hw; [|destruct Hw].
    assert (Hp : (fst a = oV \/ fst a = oI) /\ snd a = Z.of_nat b) by (destruct Hw as [<-|[<-|[]]]; cbn; auto). split.
    - intros Hr. assert (Hr' : In a (rds b' t')) by (unfold L3 in Hr; destruct (t' =? 0); exact Hr).
      assert (Hq : inIdx b' t' = snd a /\ (fst a = inV \/ inI = Some (fst a))).
      { unfold rds in Hr'. destruct (Z.leb_spec 0 (inIdx b' t')); [|destruct Hr']. destruct inI; [destruct Hr' as [<-|[<-|[]]]|destruct Hr' as [<-|[]]]; cbn; auto. }
      destruct Hp as [Hp1 Hp2]. destruct Hq as [Hq1 Hq2]. destruct (RACE b b' t' (fst a) Hb Hb' Ht' (eq_trans Hq1 Hp2) Hq2 Hp1) as [-> ->]. apply N. reflexivity.
    - intros Hr. unfold L3 in Hr. destruct (Nat.eqb_spec t' 0) as [->|_]; cbn [gw] in Hr; [|destruct Hr].
      assert (snd a = Z.of_nat b') by (destruct Hr as [<-|[<-|[]]]; reflexivity). assert (b = b') by (destruct Hp; lia). congruence. }
  apply (race_free l m L3 _ ACC).
  - split; [|exact GF]. intros b Hb.
    apply (be_sync _ _ _ (L1 b) (S1 b) (fun t => release (S1 b) (L1 b t))).
    + intros w Hw. apply P1; assumption.
    + intros t t' a Ht Ht' N Hin. unfold L1 in *. cbn [sr sw] in *. split; [intros []|].
      destruct (Nat.eqb_spec (t mod 32) 0) as [E|_]; [|destruct Hin].
      destruct (Nat.eqb_spec (t' mod 32) 0) as [E'|_]; [|intros []]. intros Hin'.
      assert (snd a = Z.of_nat (t / 32)) by (destruct Hin as [<-|[<-|[]]]; reflexivity). assert (snd a = Z.of_nat (t' / 32)) by (destruct Hin' as [<-|[<-|[]]]; reflexivity).
      pose proof (Nat.div_mod t 32). pose proof (Nat.div_mod t' 32). lia.
    + exists 0. rewrite BD. split; [lia|]. exact I.
    + intros [q z]. unfold S1. cbn [fst snd].
      assert (ALL : (0 <= z < Z.of_nat W)%Z -> 32 * Z.to_nat z < bdim l /\ (32 * Z.to_nat z) mod 32 = 0 /\ 32 * Z.to_nat z / 32 = Z.to_nat z /\ Z.of_nat (Z.to_nat z) = z).
      { intros Hz. split; [lia|]. split; [rewrite Nat.mul_comm; apply Nat.mod_mul; lia|]. split; [rewrite Nat.mul_comm; apply Nat.div_mul; lia|lia]. }
      assert (NO : (q < 2 -> ~ (0 <= z < Z.of_nat W)%Z) -> forall t, t < bdim l -> ~ In (q, z) (sw (L1 b t))).
      { intros Hz t Ht Hin. unfold L1 in Hin. cbn [sw] in Hin. destruct (Nat.eqb_spec (t mod 32) 0) as [M|_]; [|destruct Hin].
        pose proof (Nat.div_mod t 32). assert (t / 32 < W) by lia. destruct Hin as [E|[E|[]]]; assert (Eq := f_equal fst E); assert (Ez := f_equal snd E); cbn [fst snd] in Eq, Ez; refine (Hz _ _); lia. }
      destruct (Z.leb_spec 0 z) as [Hz1|Hz1]; [destruct (Z.ltb_spec z (Z.of_nat W)) as [Hz2|Hz2]|]; cbn [andb].
      * destruct q as [|[|q]].
        -- left. destruct (ALL ltac:(lia)) as (B1 & B2 & B3 & B4). exists (32 * Z.to_nat z). split; [lia|]. unfold L1. cbn [sw ls]. rewrite B2, B3, B4. cbn [Nat.eqb]. split; [right; left; reflexivity|].
           rewrite upd_other by congruence. rewrite upd_same. reflexivity.
        -- left. destruct (ALL ltac:(lia)) as (B1 & B2 & B3 & B4). exists (32 * Z.to_nat z). split; [lia|]. unfold L1. cbn [sw ls]. rewrite B2, B3, B4. cbn [Nat.eqb]. split; [left; reflexivity|].
           rewrite upd_same. reflexivity.
        -- right. split; [apply NO; lia|reflexivity].
      * right. split; [apply NO; lia|reflexivity].
      * right. split; [apply NO; lia|reflexivity].
    + intros t Ht. reflexivity.
    + apply be_done.
      * intros w Hw. apply P2; assumption.
      * intros t t' a Ht Ht' N Hin. unfold L3 in Hin. destruct (t =? 0); destruct Hin.
      * intros t Ht. unfold L3. destruct (t =? 0); reflexivity.
  - intros m' Hm.
    assert (HV : forall b a, b < grid l -> In a [aV b; aI b] -> m' a = lg (L3 b 0) a).
    { intros b a Hb Ha. destruct (Hm a) as [(b' & t & Hb' & Ht & Hin & E)|[N _]].
      - unfold L3 in Hin. destruct (Nat.eqb_spec t 0) as [->|_]; cbn [gw] in Hin; [|destruct Hin].
        assert (b' = b); [|subst b'; exact E]. assert (snd a = Z.of_nat b) by (destruct Ha as [<-|[<-|[]]]; reflexivity). assert (snd a = Z.of_nat b') by (destruct Hin as [<-|[<-|[]]]; reflexivity). lia.
      - exfalso. apply (N b 0 Hb); [rewrite BD; lia|]. exact Ha. }
    split.
    + intros b Hb. split.
      * rewrite (HV b) by (auto; left; reflexivity). unfold L3. cbn [Nat.eqb lg]. unfold aV. rewrite upd_same, EY. reflexivity.
      * rewrite (HV b) by (auto; right; left; reflexivity). unfold L3. cbn [Nat.eqb lg]. unfold aV, aI. rewrite upd_other by congruence. rewrite upd_same, EY. reflexivity.
    + intros a Hna. destruct (Hm a) as [(b & t & Hb & Ht & Hin & E)|[_ E]]; [|exact E].
      unfold L3 in Hin. destruct (t =? 0); cbn [gw] in Hin; [|destruct Hin]. destruct (Hna b Hb) as [N1 N2]. destruct Hin as [<-|[<-|[]]]; [destruct (N1 eq_refl)|destruct (N2 eq_refl)].
Qed.
End Idx.
