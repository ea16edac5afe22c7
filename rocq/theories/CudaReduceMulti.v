(* The tree of kReduceMultiDimSum, and where its blocks store. *)
From Coq Require Import List Arith ZArith Bool Lia Permutation FunctionalExtensionality.
From Verif Require Import ShapeModel ShapeSpec ShapeProofs TensorModel TensorSpec TensorLemmas BcastModel BcastSpec BcastProofs2 BufModel CutSpec ReduceModel ReduceSpec ReduceProofs
  GpuModel GpuSpec GpuProofs GpuLemmas GpuOrder
  CudaModel CudaSpec CudaProofs CudaItems CudaFillModel CudaFillProofs CudaMoveModel CudaReduceModel CudaReduceSpec GpuWarp.
Import ListNotations.

Section Tree.
Context {K : cring}.

Definition fold_half (s : nat) (f : nat -> K) (i : nat) : K := if i <? s then add (f i) (f (i + s)) else f i.
Fixpoint halved (ss : list nat) (f : nat -> K) : nat -> K :=
  match ss with [] => f | s :: r => halved r (fold_half s f) end.

Lemma half_sum : forall s f, sum (fold_half s f) (seq 0 s) = sum f (seq 0 (s + s)).
Proof.
  intros s f. rewrite seq_app, sum_app. cbn [Nat.add].
  rewrite (sum_ext (fold_half s f) (fun i => add (f i) (f (i + s)))).
  2:{ intros i Hi. apply in_seq in Hi. unfold fold_half. destruct (Nat.ltb_spec i s); [reflexivity|lia]. }
  rewrite sum_add. f_equal. replace (seq s s) with (map (fun i => i + s) (seq 0 s)); [rewrite sum_map; reflexivity|].
  rewrite (map_ext _ (fun i => s + i)) by (intros; lia). rewrite map_add_seq. f_equal. lia.
Qed.

Lemma halved_all : forall f, halved [256; 128; 64; 32; 16; 8; 4; 2; 1] f 0 = sum f (seq 0 512).
Proof.
  intros f. cbn [halved]. set (f1 := fold_half 256 f). set (f2 := fold_half 128 f1). set (f3 := fold_half 64 f2). set (f4 := fold_half 32 f3).
  set (f5 := fold_half 16 f4). set (f6 := fold_half 8 f5). set (f7 := fold_half 4 f6). set (f8 := fold_half 2 f7).
  change 512 with (256 + 256). rewrite <- half_sum. fold f1. change 256 with (128 + 128). rewrite <- half_sum. fold f2. change 128 with (64 + 64). rewrite <- half_sum. fold f3.
  change 64 with (32 + 32). rewrite <- half_sum. fold f4. change 32 with (16 + 16). rewrite <- half_sum. fold f5. change 16 with (8 + 8). rewrite <- half_sum. fold f6.
  change 8 with (4 + 4). rewrite <- half_sum. fold f7. change 4 with (2 + 2). rewrite <- half_sum. fold f8. change 2 with (1 + 1). rewrite <- half_sum.
  change (seq 0 1) with [0]. rewrite sum_cons, sum_nil, add_0_r. reflexivity.
Qed.

Definition sdata (f : nat -> K) : addr -> cell K := fun a => if sharedBlock a then Some (Some (f (Z.to_nat (snd a)))) else None.

Lemma sdata_at : forall f i, i < 512 -> sdata f (0, Z.of_nat i) = Some (Some (f i)).
Proof.
  intros f i Hi. unfold sdata, sharedBlock. cbn [fst snd Nat.eqb andb]. change (Z.of_nat blockSize) with 512%Z.
  destruct (Z.leb_spec 0 (Z.of_nat i)); [|lia]. destruct (Z.ltb_spec (Z.of_nat i) 512); [|lia]. cbn [andb]. rewrite Nat2Z.id. reflexivity.
Qed.

Lemma shared_in : forall a, sharedBlock a = true -> exists i, i < 512 /\ a = (0, Z.of_nat i).
Proof.
  intros [p z] H. unfold sharedBlock in H. cbn [fst snd] in H. change (Z.of_nat blockSize) with 512%Z in H. apply andb_prop in H as [H H3]. apply andb_prop in H as [H1 H2].
  apply Nat.eqb_eq in H1. apply Z.leb_le in H2. apply Z.ltb_lt in H3. subst p. exists (Z.to_nat z). split; [lia|]. f_equal. lia.
Qed.

Lemma shared_ok : forall i, i < 512 -> sharedBlock (0, Z.of_nat i) = true.
Proof.
  intros i Hi. unfold sharedBlock. cbn [fst snd Nat.eqb andb]. change (Z.of_nat blockSize) with 512%Z.
  destruct (Z.leb_spec 0 (Z.of_nat i)); [|lia]. destruct (Z.ltb_spec (Z.of_nat i) 512); [reflexivity|lia].
Qed.

Lemma tree_block : forall (m : addr -> cell K) o (rds : nat -> list addr) ss f (L : nat -> lane),
  m o <> None -> (forall s, In s ss -> s <= 256) ->
  (forall t, t < 512 -> L t = mkLane m (sdata f) (halve ss t (if t =? 0 then SLd (0, 0%Z) (fun v => St o v Done) else Done)) (rds t) [] [] []) ->
  exists L3, beval 512 (sdata f) L L3 /\ forall t, t < 512 -> gr (L3 t) = rds t /\ gw (L3 t) = (if t =? 0 then [o] else []) /\
    (t = 0 -> lg (L3 t) = upd m o (Some (Some (halved ss f 0)))).
Proof.
  intros m o rds ss. induction ss as [|s ss IH]; intros f L HO HS HL.
  - set (L3 := fun t => if t =? 0 then mkLane (upd m o (Some (Some (f 0)))) (sdata f) Done (rds t) [o] [(0, 0%Z)] [] else mkLane m (sdata f) (@Done K) (rds t) [] [] []).
    exists L3. split.
    + apply be_done.
      * intros w Hw. apply we_stop. intros t [_ Ht]. unfold run. rewrite (HL t Ht). cbn [lp lg ls gr gw sr sw halve]. unfold L3. destruct (Nat.eqb_spec t 0) as [->|N].
        -- cbn [solo]. change (0, 0%Z) with (0, Z.of_nat 0). rewrite (sdata_at f 0) by lia. destruct (m o) eqn:E; [|congruence]. split; [reflexivity|exact I].
        -- split; [reflexivity|exact I].
      * intros t t' a _ _ _ Hin. unfold L3 in Hin. destruct (t =? 0); destruct Hin.
      * intros t _. unfold L3. destruct (t =? 0); reflexivity.
    + intros t Ht. unfold L3. destruct (Nat.eqb_spec t 0) as [->|N]; cbn [gr gw lg]; auto. split; [reflexivity|]. split; [reflexivity|]. intros ->. congruence.
  - assert (Hs : s <= 256) by (apply HS; left; reflexivity). cbn [halved].
    set (fin := fun t => if t =? 0 then SLd (0, 0%Z) (fun v => St o v (@Done K)) else Done).
    destruct (IH (fold_half s f) (fun t => mkLane m (sdata (fold_half s f)) (halve ss t (fin t)) (rds t) [] [] [])) as (L3 & B & H3); auto.
    { intros s' Hin. apply HS. right. exact Hin. }
    exists L3. split; [|exact H3].
    set (L1 := fun t => if t <? s then mkLane m (upd (sdata f) (0, Z.of_nat t) (Some (Some (add (f t) (f (t + s)))))) (Sync (halve ss t (fin t))) (rds t) [] [(0, Z.of_nat (t + s)); (0, Z.of_nat t)] [(0, Z.of_nat t)]
                        else mkLane m (sdata f) (Sync (halve ss t (fin t))) (rds t) [] [] []).
    apply (be_sync _ _ _ L1 (sdata (fold_half s f)) (fun t => mkLane m (sdata (fold_half s f)) (halve ss t (fin t)) (rds t) [] [] [])).
    + intros w Hw. apply we_stop. intros t [_ Ht]. unfold run. rewrite (HL t Ht). cbn [lp lg ls gr gw sr sw halve]. fold (fin t). unfold L1. destruct (Nat.ltb_spec t s).
      * cbn [solo]. rewrite (sdata_at f t), (sdata_at f (t + s)) by lia. split; [reflexivity|exact I].
      * split; [reflexivity|exact I].
    + intros t t' a Ht Ht' N Hin. unfold L1 in *. destruct (Nat.ltb_spec t s); [|destruct Hin]. cbn [sw] in Hin. destruct Hin as [<-|[]].
      assert (X : forall i, (0, Z.of_nat i) = (0, Z.of_nat t) -> i = t) by (intros i E; apply (f_equal snd) in E; cbn [snd] in E; lia).
      destruct (Nat.ltb_spec t' s); cbn [sr sw]; [|split; intros []]. split.
      * intros [E|[E|[]]]; apply X in E; lia.
      * intros [E|[]]. apply X in E. lia.
    + exists 0. split; [lia|]. unfold L1. destruct (0 <? s); exact I.
    + intros a. destruct (sharedBlock a) eqn:Ea.
      * destruct (shared_in a Ea) as (i & Hi & ->). rewrite sdata_at by exact Hi. unfold fold_half. destruct (Nat.ltb_spec i s) as [L0|L0].
        -- left. exists i. split; [exact Hi|]. unfold L1. destruct (Nat.ltb_spec i s); [|lia]. cbn [sw ls]. split; [left; reflexivity|]. rewrite upd_same. reflexivity.
        -- right. split; [|symmetry; apply sdata_at, Hi]. intros t Ht Hin. unfold L1 in Hin. destruct (Nat.ltb_spec t s); [|destruct Hin]. cbn [sw] in Hin. destruct Hin as [E|[]].
           apply (f_equal snd) in E. cbn [snd] in E. lia.
      * right. split; [|unfold sdata; rewrite Ea; reflexivity]. intros t Ht Hin. unfold L1 in Hin. destruct (Nat.ltb_spec t s); [|destruct Hin]. cbn [sw] in Hin. destruct Hin as [<-|[]].
        rewrite shared_ok in Ea by lia. discriminate.
    + intros t Ht. unfold L1, release. destruct (t <? s); reflexivity.
    + exact B.
Qed.

(* the loads of a thread *)
Lemma loads_solo : forall it p idx r acc k m s R (x : Z -> K),
  (forall j, (0 <= j < Z.of_nat it)%Z -> m (p, idx (r + j * 512)%Z) = Some (Some (x (r + j * 512)%Z))) ->
  exists v R', solo (sumLoads it p idx r acc k) m s R [] [] [] = solo (k v) m s R' [] [] [] /\
    v = add acc (sum x (map (fun j => (r + Z.of_nat j * 512)%Z) (seq 0 it))) /\ forall a, In a R' -> fst a = p \/ In a R.
Proof.
  induction it as [|it IH]; intros p idx r acc k m s R x H; cbn [sumLoads].
  - exists acc, R. split; [reflexivity|]. split; [cbn; rewrite add_0_r; reflexivity|auto].
  - cbn [solo]. pose proof (H 0%Z ltac:(lia)) as H0. replace (r + 0 * 512)%Z with r in H0 by lia. rewrite H0.
    destruct (IH p idx (r + Z.of_nat blockSize)%Z (add acc (x r)) k m s ((p, idx r) :: R) x) as (v & R' & E & Ev & HR).
    + intros j Hj. change (Z.of_nat blockSize) with 512%Z. replace (r + 512 + j * 512)%Z with (r + (j + 1) * 512)%Z by lia. apply H. lia.
    + exists v, R'. split; [exact E|]. split.
      * rewrite Ev. cbn [seq map]. rewrite sum_cons. rewrite <- seq_shift, map_map. replace (r + Z.of_nat 0 * 512)%Z with r by lia.
        rewrite <- add_assoc. do 2 f_equal. apply f_equal. apply map_ext. intros j. change (Z.of_nat blockSize) with 512%Z. lia.
      * intros a Hin. destruct (HR a Hin) as [Ea|[Ea|Ea]]; auto. left. rewrite <- Ea. reflexivity.
Qed.

(* what block b leaves in its element, out being large enough *)
Definition blockSum (x : Z -> K) (cnt : Z) : K :=
  sum (fun t => sum x (map (fun j => (Z.of_nat t + Z.of_nat j * 512)%Z) (seq 0 (Z.to_nat ((cnt - Z.of_nat t + 511) / 512))))) (seq 0 512).

Theorem multi_sum : forall out p sh ax cnt g m (x : nat -> Z -> K), accepted (kReduceMultiDimSum (K := K) out (mkD p sh) ax cnt (Z.of_nat g) g) ->
  out <> p -> (forall b, b < g -> m (out, Z.of_nat b) <> None) ->
  (forall b r, b < g -> (0 <= r < cnt)%Z -> m (p, multiIndex sh ax (Z.of_nat b) r) = Some (Some (x b r))) ->
  always (kReduceMultiDimSum out (mkD p sh) ax cnt (Z.of_nat g) g) m (fun m' =>
    (forall b, b < g -> m' (out, Z.of_nat b) = Some (Some (blockSum (x b) cnt))) /\
    forall a, (forall b, b < g -> a <> (out, Z.of_nat b)) -> m' a = m a).
Proof.
  intros out p sh ax cnt g m x ACC N HO HX. set (l := kReduceMultiDimSum out (mkD p sh) ax cnt (Z.of_nat g) g) in *.
  set (S0 := fun a => if shar l a then Some (@None K) else None).
  set (it := fun t => Z.to_nat ((cnt - Z.of_nat t + 511) / 512)).
  set (y := fun b t => sum (x b) (map (fun j => (Z.of_nat t + Z.of_nat j * 512)%Z) (seq 0 (it t)))).
  set (fin := fun b t => if t =? 0 then SLd (0, 0%Z) (fun v => St (out, Z.of_nat b) v (@Done K)) else Done).
  set (ss := [256; 128; 64; 32; 16; 8; 4; 2; 1]).
  set (next := fun b t => Sync (halve ss t (fin b t))).
  assert (FIRST : forall b t, b < g -> t < 512 -> exists R, run (lane0 l m b t) = Some (mkLane m (upd S0 (0, Z.of_nat t) (Some (Some (y b t)))) (next b t) R [] [] [(0, Z.of_nat t)])
             /\ forall a, In a R -> fst a = p).
  { intros b t Hb Ht. unfold run, lane0. cbn [lp lg ls gr gw sr sw]. cbn [code kReduceMultiDimSum l dbuf dshape]. unfold l at 1. cbn [code kReduceMultiDimSum dbuf dshape].
    rewrite Z.geb_leb. destruct (Z.leb_spec (Z.of_nat g) (Z.of_nat b)); [lia|].
    destruct (loads_solo (it t) p (multiIndex sh ax (Z.of_nat b)) (Z.of_nat t) zero
      (fun localSum => SSt (0, Z.of_nat t) localSum (next b t)) m S0 [] (x b)) as (v & R & E & Ev & HR).
    - intros j Hj. apply HX; [exact Hb|]. unfold it in Hj. pose proof (Z.div_mod (cnt - Z.of_nat t + 511) 512 ltac:(lia)). pose proof (Z.mod_pos_bound (cnt - Z.of_nat t + 511) 512 ltac:(lia)).
      destruct (Z.le_gt_cases ((cnt - Z.of_nat t + 511) / 512) 0) as [Q|Q]; lia.
    - exists R. split; [|intros a Hin; destruct (HR a Hin) as [|[]]; auto]. etransitivity; [exact E|]. cbn [solo].
      unfold S0 at 1. change (shar l (0, Z.of_nat t)) with (sharedBlock (0, Z.of_nat t)). rewrite shared_ok by exact Ht.
      rewrite Ev, add_0_l. fold (y b t). reflexivity. }
  assert (PICK : exists Rd : nat -> nat -> list addr, forall b t, b < g -> t < 512 ->
            run (lane0 l m b t) = Some (mkLane m (upd S0 (0, Z.of_nat t) (Some (Some (y b t)))) (next b t) (Rd b t) [] [] [(0, Z.of_nat t)]) /\ forall a, In a (Rd b t) -> fst a = p).
  { exists (fun b t => match run (lane0 l m b t) with Some L => gr L | None => [] end). intros b t Hb Ht. destruct (FIRST b t Hb Ht) as (R & E & H). rewrite E. cbn [gr]. auto. }
  destruct PICK as (Rd & HRd).
  assert (BL : forall b, b < g -> exists L3, beval 512 S0 (lane0 l m b) L3 /\ forall t, t < 512 -> gr (L3 t) = Rd b t /\ gw (L3 t) = (if t =? 0 then [(out, Z.of_nat b)] else []) /\
    (t = 0 -> lg (L3 t) = upd m (out, Z.of_nat b) (Some (Some (blockSum (x b) cnt))))).
  { intros b Hb. set (L2 := fun t => mkLane m (sdata (y b)) (halve ss t (fin b t)) (Rd b t) [] [] []).
    destruct (tree_block m (out, Z.of_nat b) (Rd b) ss (y b) L2) as (L3 & B3 & H3).
    - apply HO, Hb.
    - intros s Hs. unfold ss in Hs. repeat (destruct Hs as [<-|Hs]; [lia|]). destruct Hs.
    - intros t Ht. reflexivity.
    - exists L3. split.
      + set (L1 := fun t => mkLane m (upd S0 (0, Z.of_nat t) (Some (Some (y b t)))) (next b t) (Rd b t) [] [] [(0, Z.of_nat t)]).
        apply (be_sync _ _ _ L1 (sdata (y b)) L2).
        * intros w Hw. apply we_stop. intros t [_ Ht]. destruct (HRd b t Hb Ht) as [E _]. split; [exact E|exact I].
        * intros t t' a Ht Ht' Nt Hin. unfold L1 in *. cbn [sr sw] in *. split; [intros []|]. destruct Hin as [<-|[]]. intros [E|[]]. apply (f_equal snd) in E. cbn [snd] in E. lia.
        * exists 0. split; [lia|exact I].
        * intros a. destruct (sharedBlock a) eqn:Ea.
          -- left. destruct (shared_in a Ea) as (i & Hi & ->). exists i. split; [exact Hi|]. unfold L1. cbn [sw ls]. split; [left; reflexivity|]. rewrite upd_same. apply sdata_at, Hi.
          -- right. split; [|unfold S0; change (shar l a) with (sharedBlock a); rewrite Ea; unfold sdata; rewrite ?Ea; reflexivity]. intros t Ht Hin. unfold L1 in Hin. cbn [sw] in Hin. destruct Hin as [<-|[]].
             rewrite shared_ok in Ea by exact Ht. discriminate.
        * intros t Ht. reflexivity.
        * exact B3.
      + intros t Ht. destruct (H3 t Ht) as (A & B & C). split; [exact A|]. split; [exact B|]. intros Et. rewrite (C Et). unfold ss. rewrite halved_all. reflexivity. }
  assert (PICK3 : exists L3 : nat -> nat -> lane, forall b, b < g -> beval 512 S0 (lane0 l m b) (L3 b) /\ forall t, t < 512 -> gr (L3 b t) = Rd b t /\ gw (L3 b t) = (if t =? 0 then [(out, Z.of_nat b)] else []) /\
    (t = 0 -> lg (L3 b t) = upd m (out, Z.of_nat b) (Some (Some (blockSum (x b) cnt))))).
  { assert (G : forall n, n <= g -> exists L3 : nat -> nat -> lane, forall b, b < n -> beval 512 S0 (lane0 l m b) (L3 b) /\ forall t, t < 512 -> gr (L3 b t) = Rd b t /\ gw (L3 b t) = (if t =? 0 then [(out, Z.of_nat b)] else []) /\
      (t = 0 -> lg (L3 b t) = upd m (out, Z.of_nat b) (Some (Some (blockSum (x b) cnt))))).
    { induction n as [|n IHn]; intros Hn.
      - exists (fun _ _ => lane0 l m 0 0). intros b Hb. lia.
      - destruct (IHn ltac:(lia)) as (LL & HLL). destruct (BL n ltac:(lia)) as (L3 & HL3). exists (fun b => if b =? n then L3 else LL b). intros b Hb.
        destruct (Nat.eqb_spec b n) as [->|Nb]; [exact HL3|]. apply HLL. lia. }
    apply (G g). lia. }
  destruct PICK3 as (L3 & HL3).
  apply (race_free l m L3 _ ACC).
  - split; [intros b Hb; apply (HL3 b Hb)|].
    intros b t b' t' a Hb Ht Hb' Ht' Nb Hin. change (grid l) with g in Hb, Hb'. change (bdim l) with 512 in Ht, Ht'.
    destruct (proj2 (HL3 b Hb) t Ht) as (_ & W & _). rewrite W in Hin. destruct (Nat.eqb_spec t 0) as [->|_]; [|destruct Hin]. destruct Hin as [<-|[]].
    destruct (proj2 (HL3 b' Hb') t' Ht') as (R' & W' & _). rewrite R', W'. split.
    + intros Hin. apply (proj2 (HRd b' t' Hb' Ht')) in Hin. cbn [fst] in Hin. contradiction.
    + destruct (Nat.eqb_spec t' 0) as [->|_]; [|intros []]. intros [E|[]]. apply (f_equal snd) in E. cbn [snd] in E. apply Nb. f_equal. lia.
  - intros m' Hm. split.
    + intros b Hb. destruct (Hm (out, Z.of_nat b)) as [(b' & t & Hb' & Ht & Hin & E)|[Nw _]].
      * change (grid l) with g in Hb'. change (bdim l) with 512 in Ht. destruct (proj2 (HL3 b' Hb') t Ht) as (_ & W & G). rewrite W in Hin. destruct (Nat.eqb_spec t 0) as [->|_]; [|destruct Hin]. destruct Hin as [X|[]].
        apply (f_equal snd) in X. cbn [snd] in X. assert (b' = b) as -> by lia. rewrite E, (G eq_refl), upd_same. reflexivity.
      * exfalso. apply (Nw b 0 Hb); [change (bdim l) with 512; lia|]. rewrite (proj1 (proj2 (proj2 (HL3 b Hb) 0 ltac:(lia)))). left. reflexivity.
    + intros a Hna. destruct (Hm a) as [(b & t & Hb & Ht & Hin & E)|[_ E]]; [|exact E].
      change (grid l) with g in Hb. change (bdim l) with 512 in Ht. destruct (proj2 (HL3 b Hb) t Ht) as (_ & W & _). rewrite W in Hin. destruct (Nat.eqb_spec t 0) as [->|_]; [|destruct Hin]. destruct Hin as [<-|[]].
      exfalso. apply (Hna b Hb). reflexivity.
Qed.
End Tree.

(* ---- where the blocks beyond the result store ---- *)

Lemma multi_in : forall sh ax o r, length ax = length sh -> Forall (fun d => 0 < d) sh -> (0 <= o)%Z -> (0 <= r)%Z ->
  (0 <= multiIndex sh ax o r < Z.of_nat (numel sh))%Z.
Proof.
  intros sh ax o r HL HP Ho Hr. unfold multiIndex.
  set (step := fun (p : nat * nat * bool) (acc : Z * Z * Z) => _).
  assert (G : forall sh ax, length ax = length sh -> Forall (fun d => 0 < d) sh ->
    let '(o', q, i) := fold_right step (o, r, 0%Z) (combine (combine sh (strides sh)) ax) in (0 <= o' /\ 0 <= q /\ 0 <= i < Z.of_nat (numel sh))%Z).
  { clear sh ax HL HP. induction sh as [|d sh IH]; intros [|x ax] HL HP; try discriminate.
    - cbn [combine fold_right]. rewrite numel_nil. lia.
    - inversion HP as [|? ? Hd HP']; subst. cbn [length] in HL. specialize (IH ax ltac:(lia) HP'). rewrite strides_cons. cbn [combine fold_right].
      destruct (fold_right step (o, r, 0%Z) (combine (combine sh (strides sh)) ax)) as [[o' q] i]. destruct IH as (H1 & H2 & H3). rewrite numel_cons.
      assert (B : forall z, (0 <= z)%Z -> (0 <= i + z mod Z.of_nat d * Z.of_nat (numel sh) < Z.of_nat (d * numel sh))%Z).
      { intros z Hz. pose proof (Z.mod_pos_bound z (Z.of_nat d) ltac:(lia)). rewrite Nat2Z.inj_mul. nia. }
      assert (D : forall z, (0 <= z)%Z -> (0 <= z / Z.of_nat d)%Z) by (intros z Hz; apply Z.div_pos; lia).
      unfold step. destruct x; auto. }
  specialize (G sh ax HL HP). destruct (fold_right step (o, r, 0%Z) (combine (combine sh (strides sh)) ax)) as [[o' q] i]. cbn [snd]. apply G.
Qed.

Theorem multi_crash : forall {K : cring} out p sh ax cnt n (F : list nat -> K) m, length ax = length sh -> Forall (fun d => 0 < d) sh ->
  n < numel sh -> (Z.of_nat (numel sh) <= 2 ^ 31 - 1)%Z -> out <> p -> has m p sh F -> room m out n ->
  may_crash (kReduceMultiDimSum out (mkD p sh) ax cnt (Z.of_nat (numel sh)) (numel sh)) m.
Proof.
  intros K out p sh ax cnt n F m HL HP Hn HG N HF HR.
  set (X := fun a : addr => ((fst a =? out)%nat && (Z.of_nat n <=? snd a) && (snd a <? Z.of_nat (numel sh)))%Z).
  set (M := fun a => if X a then Some None else m a).
  assert (XI : forall q i, X (q, i) = true <-> q = out /\ (Z.of_nat n <= i < Z.of_nat (numel sh))%Z).
  { intros q i. unfold X. cbn [fst snd]. rewrite !andb_true_iff, Nat.eqb_eq, Z.leb_le, Z.ltb_lt. tauto. }
  assert (E : m = without X M).
  { apply functional_extensionality. intros [q i]. unfold without, M. destruct (X (q, i)) eqn:EX; [|reflexivity]. apply XI in EX as [-> Hi]. apply HR. lia. }
  rewrite E. apply (shrunk_crash _ M X (out, Z.of_nat n) (blockSum (fun r => F (offsetToIndices sh (Z.to_nat (multiIndex sh ax (Z.of_nat n) r)))) cnt)).
  - apply always_some. eapply always_mono.
    + apply (multi_sum out p sh ax cnt (numel sh) M (fun b r => F (offsetToIndices sh (Z.to_nat (multiIndex sh ax (Z.of_nat b) r))))).
      * split; [|split]; cbn [grid bdim kReduceMultiDimSum]; [lia|exact HG|unfold blockSize; lia].
      * exact N.
      * intros b Hb. unfold M. destruct (X (out, Z.of_nat b)) eqn:EX; [discriminate|]. intros Q. apply HR in Q. apply Bool.not_true_iff_false in EX. apply EX, XI. lia.
      * intros b r Hb Hr. unfold M. pose proof (multi_in sh ax (Z.of_nat b) r HL HP ltac:(lia) ltac:(lia)) as HI.
        destruct (X (p, multiIndex sh ax (Z.of_nat b) r)) eqn:EX; [apply XI in EX as [-> _]; congruence|]. apply (has_ix K m p sh F); assumption.
    + intros m' [A _]. apply (A n Hn).
  - apply XI. lia.
  - unfold M. assert (X (out, Z.of_nat n) = true) as -> by (apply XI; lia). reflexivity.
Qed.

Theorem sum_dims_crash : forall {K : cring} p sh dims ax keep (F : list nat -> K) m out tmp tr,
  axes_named (length sh) dims ax -> 2 <= length dims -> Forall (fun d => 0 < d) sh ->
  numel (reduced_shape ax keep sh) < numel sh -> (Z.of_nat (numel sh) <= 2 ^ 31 - 1)%Z -> out <> p -> has m p sh F -> room m out (numel (reduced_shape ax keep sh)) ->
  exists l1 l2, sumDimsCuda (mkD p sh) dims keep out tmp tr = Ok (reduced_shape ax keep sh, Some [l1; l2]) /\ always l1 m (fun m' => may_crash l2 m').
Proof.
  intros K p sh dims ax keep F m out tmp tr HA HD HP Hn HG N HF HR. set (rsh := reduced_shape ax keep sh) in *.
  destruct sh as [|d0 sh']; [exfalso; destruct HA as (_ & HA & _); destruct dims as [|d1 dims]; [cbn in HD; lia|]; destruct (HA d1 (or_introl eq_refl)) as (k & Hk & _); cbn in Hk; lia|].
  destruct dims as [|d1 [|d2 dims]]; [cbn in HD; lia|cbn in HD; lia|].
  set (sh := d0 :: sh') in *. set (dd := d1 :: d2 :: dims) in *.
  assert (R0 : 0 < numel rsh).
  { unfold rsh, reduced_shape. assert (G : forall l : list (nat * bool), Forall (fun p => 0 < fst p) l -> 0 < numel (flat_map (fun p => if snd p : bool then if keep then [1] else [] else [fst p]) l)).
    { clear. induction l as [|[d x] l IH]; intros H; [cbn [flat_map]; rewrite numel_nil; lia|]. inversion H; subst. cbn [flat_map fst snd]. rewrite numel_app. specialize (IH H3). cbn [fst] in H2. destruct x; [destruct keep|]; rewrite ?numel_cons, ?numel_nil; nia. }
    apply G. rewrite Forall_forall in HP |- *. intros [d x] Hin. apply in_combine_l in Hin. apply HP, Hin. }
  eexists. eexists. split.
  - unfold sumDimsCuda. cbn [dshape]. fold sh. unfold sh at 1. cbv iota. unfold dd at 1. cbv iota. fold dd. rewrite (marks_named _ _ _ HA). reflexivity.
  - change (getReduceShape sh ax keep) with rsh. rewrite fillCuda_is. eapply always_mono.
    + apply (computes_of K _ m out rsh (fun _ => zero) HR). apply (fill_range K zero out m 0 (Z.of_nat (numel rsh))); [lia|].
      intros i Hi. apply (room_at K m out _ _ HR). lia.
    + intros m1 [H1 S1]. rewrite Z.mod_small, Nat2Z.id by lia. apply (multi_crash out p sh ax _ (numel rsh) F m1); auto.
      * apply HA.
      * intros i. rewrite (S1 p) by congruence. apply HF.
      * apply has_room in H1. exact H1.
Qed.
