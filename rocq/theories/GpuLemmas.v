(* Using the race-freedom theorem. *)
From Coq Require Import List Arith ZArith Bool Lia.
From Verif Require Import GpuModel GpuSpec GpuProofs CudaModel.
Import ListNotations.

Section Lemmas.
Context {V : Type}.

Lemma always_mono : forall (l : launch V) m (Q Q' : (addr -> cell V) -> Prop),
  always l m Q -> (forall m', Q m' -> Q' m') -> always l m Q'.
Proof.
  intros l m Q Q' (A & B & C) H. split; [exact A|]. split; [exact B|].
  intros s R. destruct (C s R) as (C1 & C2 & C3). auto.
Qed.

Lemma reach_trans : forall (l : launch V) a b c, reach l a b -> reach l b c -> reach l a c.
Proof. intros l a b c H1 H2. induction H2; [exact H1|]. eapply reach_step; eauto. Qed.

Lemma always_some : forall (l : launch V) m Q, always l m Q -> sometimes l m Q.
Proof.
  intros l m Q (A & B & C). unfold sometimes.
  assert (H : forall s, Acc (fun s' s => step l s s') s -> reach l (start l m) s ->
              exists s', reach l (start l m) s' /\ finished l s' /\ Q (mem s')).
  { intros s Hs. induction Hs as [s _ IH]. intros R. destruct (C s R) as (_ & [F|(s' & St)] & C3).
    - exists s. auto.
    - apply (IH s' St). eapply reach_step; eauto. }
  apply (H _ B). constructor.
Qed.

(* A kernel whose threads neither wait nor share. *)
Theorem straight : forall (l : launch V) m (L : nat -> nat -> lane) (Q : (addr -> cell V) -> Prop),
  accepted l ->
  (forall b t, b < grid l -> t < bdim l ->
     solo (code l b t) m (fun a => if shar l a then Some None else None) [] [] [] [] = Some (L b t) /\
     lp (L b t) = Done /\ sw (L b t) = []) ->
  gfree (grid l) (bdim l) L ->
  (forall m', gmerged (grid l) (bdim l) m L m' -> Q m') ->
  always l m Q.
Proof.
  intros l m L Q HA HS HF HQ. apply (race_free l m L); auto. split; [|exact HF].
  intros b Hb. apply be_done.
  - intros w Hw. apply we_stop. intros t [_ Ht]. destruct (HS b t Hb Ht) as (E & D & _).
    split; [exact E|]. rewrite D. exact I.
  - intros t t' a Ht Ht' N. destruct (HS b t Hb Ht) as (_ & _ & E). rewrite E. intros [].
  - intros t Ht. apply (HS b t Hb Ht).
Qed.

Lemma solo_loads : forall (addrs : list addr) (vs : list V) k g s r w r' w',
  Forall2 (fun a v => g a = Some (Some v)) addrs vs ->
  solo (loads addrs k) g s r w r' w' = solo (k vs) g s (rev addrs ++ r) w r' w'.
Proof.
  induction addrs as [|a addrs IH]; intros vs k g s r w r' w' H; inversion H as [|? v ? vs' E H']; subst.
  - reflexivity.
  - cbn [loads solo]. rewrite E. rewrite (IH vs') by exact H'. cbn [rev].
    rewrite <- app_assoc. reflexivity.
Qed.

(* ---- one-dimensional kernels ---- *)
Open Scope Z_scope.

Lemma grid_ok : forall n, 0 < n <= 2 ^ 32 ->
  gridSize (Z.of_nat blockSize) n 1 = (n + 511) / 512 /\ 0 < (n + 511) / 512 <= 2 ^ 23.
Proof.
  intros n Hn. change (Z.of_nat blockSize) with 512. unfold gridSize.
  assert (B : 0 < (n + 511) / 512 <= 2 ^ 23).
  { split.
    - apply Z.div_str_pos. lia.
    - apply Z.lt_succ_r. apply Z.div_lt_upper_bound; [lia|]. change (2 ^ 32) with (512 * 2 ^ 23) in Hn. lia. }
  split; [|exact B].
  replace (n + 512 * 1 - 1) with (n + 511) by lia. replace (512 * 1) with 512 by lia.
  rewrite (Z.mod_small (n + 511)) by (change (2 ^ 64) with (2 ^ 32 * 2 ^ 32); lia).
  apply Z.mod_small. change (2 ^ 32) with (512 * 2 ^ 23). lia.
Qed.

Lemma gidx_ok : forall n b t, 0 < n <= 2 ^ 32 -> (b < Z.to_nat (gridSize (Z.of_nat blockSize) n 1))%nat ->
  (t < blockSize)%nat -> gidx blockSize b t = Z.of_nat b * 512 + Z.of_nat t.
Proof.
  intros n b t Hn Hb Ht. destruct (grid_ok n Hn) as [E B]. rewrite E in Hb.
  unfold gidx. change (Z.of_nat blockSize) with 512.
  assert (Ht' : Z.of_nat t < 512) by (change 512 with (Z.of_nat blockSize); lia).
  apply Z.mod_small. change (2 ^ 32) with (512 * 2 ^ 23). lia.
Qed.

(* A launch of that form. *)
Definition is1d (l : launch V) (n : Z) (P : Z -> thr V) : Prop :=
  grid l = Z.to_nat (gridSize (Z.of_nat blockSize) n 1) /\ bdim l = blockSize /\ shar l = (fun _ => false) /\
  forall b t, code l b t = if gidx blockSize b t <? n then P (gidx blockSize b t) else Done.

Lemma kernel1d_is : forall n P, is1d (kernel1d n P) n P.
Proof. intros. repeat split. Qed.

Definition idle (m : addr -> cell V) : lane := mkLane m (fun _ => None) Done [] [] [] [].

Theorem linear : forall l n (P : Z -> thr V) m (L : Z -> lane) (Q : (addr -> cell V) -> Prop),
  is1d l n P -> 0 < n <= 2 ^ 32 ->
  (forall i, 0 <= i < n ->
     solo (P i) m (fun _ => None) [] [] [] [] = Some (L i) /\ lp (L i) = Done /\ sw (L i) = []) ->
  (forall i j a, 0 <= i < n -> 0 <= j < n -> i <> j ->
     In a (gw (L i)) -> ~ In a (gr (L j)) /\ ~ In a (gw (L j))) ->
  (forall m' : addr -> cell V,
     (forall a, (exists i, 0 <= i < n /\ In a (gw (L i)) /\ m' a = lg (L i) a) \/
                ((forall i, 0 <= i < n -> ~ In a (gw (L i))) /\ m' a = m a)) -> Q m') ->
  always l m Q.
Proof.
  intros l n P m L Q (K1 & K2 & K3 & K4) Hn HS HF HQ. destruct (grid_ok n Hn) as [E B].
  set (L' := fun b t : nat => if gidx blockSize b t <? n then L (gidx blockSize b t) else idle m).
  assert (G0 : forall b t, 0 <= gidx blockSize b t) by (intros; apply Z.mod_pos_bound; lia).
  assert (Inj : forall b t b' t', (b < grid l)%nat -> (t < blockSize)%nat ->
            (b' < grid l)%nat -> (t' < blockSize)%nat ->
            gidx blockSize b t = gidx blockSize b' t' -> (b, t) = (b', t')).
  { intros b t b' t' Hb Ht Hb' Ht' Eq. rewrite K1 in Hb, Hb'.
    rewrite (gidx_ok n), (gidx_ok n) in Eq by assumption.
    assert (Z.of_nat t < 512) by (change 512 with (Z.of_nat blockSize); lia).
    assert (Z.of_nat t' < 512) by (change 512 with (Z.of_nat blockSize); lia).
    assert (b = b') by nia. subst b'. f_equal. lia. }
  apply (straight _ _ L').
  - split; [|split]; rewrite ?K1, ?K2.
    + lia.
    + rewrite E. rewrite Z2Nat.id by lia. change (2 ^ 31 - 1) with (255 * 2 ^ 23 + (2 ^ 23 - 1)). lia.
    + unfold blockSize. lia.
  - intros b t Hb Ht. rewrite K4, K3. rewrite K2 in Ht. unfold L'.
    destruct (Z.ltb_spec (gidx blockSize b t) n) as [Hi|Hi].
    + apply HS. auto.
    + auto.
  - intros b t b' t' a Hb Ht Hb' Ht' N Hw. rewrite K2 in Ht, Ht'. unfold L' in *.
    destruct (Z.ltb_spec (gidx blockSize b t) n) as [Hi|Hi]; [|destruct Hw].
    destruct (Z.ltb_spec (gidx blockSize b' t') n) as [Hi'|Hi']; [|cbn; tauto].
    apply (HF (gidx blockSize b t)); auto.
  - intros m' Hm. apply HQ. intros a. destruct (Hm a) as [(b & t & Hb & Ht & Hw & Ea)|[Hn' Ea]].
    + unfold L' in Hw, Ea. destruct (Z.ltb_spec (gidx blockSize b t) n) as [Hi|Hi]; [|destruct Hw].
      left. exists (gidx blockSize b t). auto.
    + right. split; [|exact Ea]. intros i Hi Hw.
      assert (Hb : (Z.to_nat (i / 512) < grid l)%nat).
      { rewrite K1, E. assert (i / 512 < (n + 511) / 512); [|pose proof (Z.div_pos i 512); lia].
        replace (n + 511) with (n - 1 + 1 * 512) by lia. rewrite Z.div_add by lia.
        assert (i / 512 <= (n - 1) / 512) by (apply Z.div_le_mono; lia). lia. }
      assert (Ht : (Z.to_nat (i mod 512) < blockSize)%nat).
      { pose proof (Z.mod_pos_bound i 512). assert (Z.of_nat blockSize = 512) by reflexivity. lia. }
      assert (Ei : gidx blockSize (Z.to_nat (i / 512)) (Z.to_nat (i mod 512)) = i).
      { rewrite K1 in Hb. rewrite (gidx_ok n) by assumption. pose proof (Z.mod_pos_bound i 512). pose proof (Z.div_pos i 512).
        rewrite !Z2Nat.id by lia. pose proof (Z.div_mod i 512). lia. }
      rewrite <- K2 in Ht. apply (Hn' _ _ Hb Ht). unfold L'. rewrite Ei. destruct (Z.ltb_spec i n); [exact Hw|lia].
Qed.

(* Every item stores one element of one buffer and loads none that another
   item stores. *)
Theorem scatter : forall l n (P : Z -> thr V) m out (pos : Z -> Z) (r : Z -> V) (rs : Z -> list addr),
  is1d l n P -> 0 < n <= 2 ^ 32 ->
  (forall i, 0 <= i < n -> exists L, solo (P i) m (fun _ => None) [] [] [] [] = Some L /\ lp L = Done /\ sw L = [] /\
     gr L = rs i /\ gw L = [(out, pos i)] /\ lg L = upd m (out, pos i) (Some (Some (r i)))) ->
  (forall i j, 0 <= i < n -> 0 <= j < n -> i <> j -> pos i <> pos j /\ ~ In (out, pos i) (rs j)) ->
  always l m (fun m' =>
    (forall i, 0 <= i < n -> m' (out, pos i) = Some (Some (r i))) /\
    (forall a, (forall i, 0 <= i < n -> a <> (out, pos i)) -> m' a = m a)).
Proof.
  intros l n P m out pos r rs K Hn HS HF.
  set (L := fun i => mkLane (upd m (out, pos i) (Some (Some (r i)))) (fun _ => None) (@Done V) (rs i) [(out, pos i)] [] []).
  set (LL := fun i => match solo (P i) m (fun _ => None) [] [] [] [] with Some x => x | None => L i end).
  assert (HL : forall i, 0 <= i < n -> solo (P i) m (fun _ => None) [] [] [] [] = Some (LL i) /\ lp (LL i) = Done /\
             sw (LL i) = [] /\ gr (LL i) = rs i /\ gw (LL i) = [(out, pos i)] /\
             lg (LL i) = upd m (out, pos i) (Some (Some (r i)))).
  { intros i Hi. destruct (HS i Hi) as (x & E & H). unfold LL. rewrite E. auto. }
  apply (linear l n P m LL); auto.
  - intros i Hi. destruct (HL i Hi) as (A & B & C & _). auto.
  - intros i j a Hi Hj N Hw. destruct (HL i Hi) as (_ & _ & _ & _ & W & _).
    destruct (HL j Hj) as (_ & _ & _ & R & W' & _). rewrite W in Hw. rewrite R, W'.
    destruct Hw as [<-|[]]. destruct (HF i j Hi Hj N) as [F1 F2]. split; [exact F2|].
    intros [e|[]]. injection e as e. auto.
  - intros m' Hm. split.
    + intros i Hi. destruct (Hm (out, pos i)) as [(j & Hj & Hw & E)|[Hn' E]].
      * destruct (HL j Hj) as (_ & _ & _ & _ & W & G). rewrite W in Hw. destruct Hw as [e|[]].
        injection e as e. rewrite E, G, e. destruct (Z.eq_dec j i) as [->|N].
        -- apply upd_same.
        -- destruct (HF j i Hj Hi N). congruence.
      * exfalso. apply (Hn' i Hi). destruct (HL i Hi) as (_ & _ & _ & _ & W & _). rewrite W. left. reflexivity.
    + intros a Ha. destruct (Hm a) as [(j & Hj & Hw & E)|[Hn' E]]; [|exact E].
      destruct (HL j Hj) as (_ & _ & _ & _ & W & G). rewrite W in Hw. destruct Hw as [e|[]].
      exfalso. apply (Ha j Hj). auto.
Qed.

(* Loads, then one store. *)
Lemma solo_gather : forall (addrs : list addr) (vs : list V) k g s a v,
  Forall2 (fun a v => g a = Some (Some v)) addrs vs -> k vs = St a v Done -> g a <> None ->
  exists L, solo (loads addrs k) g s [] [] [] [] = Some L /\ lp L = Done /\ sw L = [] /\
    gr L = rev addrs /\ gw L = [a] /\ lg L = upd g a (Some (Some v)).
Proof.
  intros addrs vs k g s a v H E N. rewrite (solo_loads _ vs) by exact H. rewrite E. cbn [solo].
  destruct (g a) as [o|]; [|contradiction]. eexists. rewrite app_nil_r. cbn. repeat split.
Qed.

Lemma holds_at : forall (m : addr -> cell V) p xs i x, holds m p xs -> nth_error xs i = Some x ->
  m (p, Z.of_nat i) = Some (Some x).
Proof.
  intros m p xs i x H E. rewrite (H (Z.of_nat i)). destruct (Z.ltb_spec (Z.of_nat i) 0); [lia|].
  rewrite Nat2Z.id, E. reflexivity.
Qed.

Lemma holds_room : forall (m : addr -> cell V) p xs, holds m p xs -> room m p (length xs).
Proof.
  intros m p xs H i. rewrite (H i). destruct (Z.ltb_spec i 0); [split; [lia|reflexivity]|].
  destruct (nth_error xs (Z.to_nat i)) as [x|] eqn:E.
  - split; [discriminate|]. intros N. exfalso. apply N. assert (Z.to_nat i < length xs)%nat by (apply nth_error_Some; congruence). lia.
  - split; [|reflexivity]. intros _ R. apply nth_error_None in E. lia.
Qed.

(* what a scatter over a whole buffer leaves *)
Lemma filled : forall (m m' : addr -> cell V) out n (r : nat -> V), room m out n ->
  (forall i, 0 <= i < Z.of_nat n -> m' (out, i) = Some (Some (r (Z.to_nat i)))) ->
  (forall a, (forall i, 0 <= i < Z.of_nat n -> a <> (out, i)) -> m' a = m a) ->
  holds m' out (map r (seq 0 n)) /\ same_but out m m'.
Proof.
  intros m m' out n r R H1 H2. split.
  - intros i. destruct (Z.ltb_spec i 0) as [Hi|Hi].
    + rewrite H2 by (intros j Hj; congruence || (intros e; injection e as e; lia)). apply R. lia.
    + rewrite nth_error_map. destruct (Z.ltb_spec i (Z.of_nat n)) as [Hn|Hn].
      * rewrite H1 by lia. rewrite (nth_error_nth' (seq 0 n) O) by (rewrite seq_length; lia).
        rewrite seq_nth by lia. reflexivity.
      * rewrite (proj2 (nth_error_None _ _)) by (rewrite seq_length; lia). cbn.
        rewrite H2 by (intros j Hj e; injection e as e; lia). apply R. lia.
  - intros q i N. apply H2. intros j Hj e. injection e as e _. contradiction.
Qed.
End Lemmas.
