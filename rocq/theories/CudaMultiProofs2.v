(* Without replacement: the part of the workspace a block uses is as good as shared memory. *)
From Coq Require Import List Arith ZArith Bool Lia.
From Flocq Require Import IEEE754.BinarySingleNaN IEEE754.Binary IEEE754.Bits.
From Verif Require Import ShapeModel TensorModel BcastModel BufModel MultiModel GpuModel GpuSpec GpuProofs GpuLemmas GpuOrder GpuLines GpuOwn CudaModel CudaItems CudaFillModel CudaMoveModel CudaExtremeModel CudaLineModel CudaMultiModel CudaMultiProofs.
Import ListNotations.
Local Open Scope nat_scope.

(* what was read of shared memory does not matter *)
Lemma solo_log {V} : forall (P : thr V) g S r wl c1 c2 d L1, solo P g S r wl c1 d = Some L1 -> exists L2, solo P g S r wl c2 d = Some L2 /\ lp L2 = lp L1 /\ gr L2 = gr L1 /\ gw L2 = gw L1 /\ lg L2 = lg L1.
Proof.
  induction P as [|a k IH|a v k IH|a k IH|a v k IH|k IH|v q k IH|]; intros g S r wl c1 c2 d L1 E; cbn [solo] in *; try (injection E as <-; eexists; split; [reflexivity|auto]); try discriminate.
  - destruct (g a) as [[v|]|]; try discriminate. eauto.
  - destruct (g a); try discriminate. eauto.
  - destruct (S a) as [[v|]|]; try discriminate. eauto.
  - destruct (S a); try discriminate. eauto.
Qed.

Section No.
Context (draw : Z -> Z -> Z -> nat -> f32) (m : addr -> cell W32) (prob out tmp batch n K : nat) (W : nat -> nat -> f32) (seed seq_ : Z).
Hypothesis PROB : forall b i, b < batch -> i < n -> m (prob, Z.of_nat (b * n + i)) = Some (Some (El (W b i))).
Hypothesis ROOM : forall z, (0 <= z < Z.of_nat (batch * n))%Z -> m (tmp, z) <> None.
Hypothesis ROOMO : forall z, (0 <= z < Z.of_nat (batch * K))%Z -> m (out, z) <> None.
Hypothesis NPT : prob <> tmp.
Hypothesis NOT : out <> tmp.
Hypothesis NPO : prob <> out.
Hypothesis HN : 0 < n.

Notation pv := (priv tmp n).
Notation cellOf b i := (tmp, Z.of_nat (b * n + i) - Z.of_nat (b * n))%Z.

Lemma cellOf_eq b i : cellOf b i = (tmp, Z.of_nat i).
Proof. f_equal. lia. Qed.
(* what thread 0 reads of the workspace *)
Definition sh_is (S : addr -> cell W32) (w : nat -> f32) : Prop := forall i, i < n -> S (tmp, Z.of_nat i) = Some (Some (El (w i))).

Lemma solo_ld b i k S w g r wl c d : sh_is S w -> i < n ->
  solo (pv b (ldEl (tmp, Z.of_nat (b * n + i)) k)) g S r wl c d = solo (pv b (k (w i))) g S r wl ((tmp, Z.of_nat i) :: c) d.
Proof. intros HS Hi. unfold ldEl. cbn [priv fst snd]. rewrite Nat.eqb_refl, cellOf_eq. cbn [solo]. rewrite (HS i Hi). reflexivity. Qed.

Lemma solo_total b S w g r wl d k : sh_is S w -> forall c, exists c', solo (pv b (totalOf tmp (b * n) n k)) g S r wl c d = solo (pv b (k (totalF w n))) g S r wl c' d.
Proof.
  intros HS. unfold totalOf, totalF.
  enough (G : forall len s acc c, s + len <= n -> exists c', solo (pv b (each (seq s len) (fun i total k => ldEl (tmp, Z.of_nat (b * n + i)) (fun x => k (b32_plus mode_NE total x))) acc k)) g S r wl c d
    = solo (pv b (k (fold_left (fun acc i => b32_plus mode_NE acc (w i)) (seq s len) acc))) g S r wl c' d) by (intros c; apply (G n 0 f0 c); lia).
  induction len as [|len IH]; intros s acc c H; cbn [seq each fold_left]; [eauto|].
  rewrite (solo_ld b s _ S w) by (assumption || lia). apply IH. lia.
Qed.

Lemma solo_find b S w g r wl d k x : sh_is S w -> forall rest i acc c, i + rest <= n -> exists c', solo (pv b (findFirst rest tmp (b * n) i x acc k)) g S r wl c d
    = solo (pv b (k (findF rest w i x acc))) g S r wl c' d.
Proof.
  intros HS. induction rest as [|rest IH]; intros i acc c H; cbn [findFirst findF]; [eauto|].
  rewrite (solo_ld b i _ S w) by (assumption || lia). cbv zeta. destruct (fge _ x); [eauto|]. apply IH. lia.
Qed.

Definition sampleBody (b s drawn : nat) (k : nat -> thr W32) : thr W32 :=
  totalOf tmp (b * n) n (fun total =>
    let outputIdx := Z.of_nat (b * K + s) in
    if flt f0 total then
      let r := b32_mult mode_NE (draw seed (Z.of_nat b) seq_ drawn) total in
      findFirst n tmp (b * n) 0 r f0 (fun selectedIdx =>
        St (out, outputIdx) (Ix (Z.of_nat selectedIdx))
        (St (tmp, Z.of_nat (b * n + selectedIdx)) (El f0) (k (drawn + 1))))
    else St (out, outputIdx) (Ix 0%Z) (k drawn)).

Lemma sh_clear S w sel : sh_is S w -> sh_is (upd S (tmp, Z.of_nat sel) (Some (Some (El f0)))) (clearF w sel).
Proof.
  intros HS i Hi. unfold clearF. destruct (Nat.eqb_spec i sel) as [->|N]; [apply upd_same|]. rewrite upd_other; [apply HS, Hi|]. intros E. injection E as E. lia.
Qed.

Lemma solo_samples b : b < batch -> forall len s S w drawn g r wl c d, s + len <= K -> sh_is S w ->
  (forall j, s <= j < s + len -> g (out, Z.of_nat (b * K + j)) <> None) ->
  exists L, solo (pv b (each (seq s len) (sampleBody b) drawn (fun _ => Done))) g S r wl c d = Some L /\ lp L = Done /\ gr L = r /\
    (forall a, In a (gw L) <-> In a wl \/ exists j, j < len /\ a = (out, Z.of_nat (b * K + (s + j)))) /\
    (forall j, j < len -> lg L (out, Z.of_nat (b * K + (s + j))) = Some (Some (Ix (Z.of_nat (nth j (noF len w n (draw seed (Z.of_nat b) seq_) drawn) 0))))) /\
    (forall a, (forall j, j < len -> a <> (out, Z.of_nat (b * K + (s + j)))) -> lg L a = g a).
Proof.
  intros Hb. induction len as [|len IH]; intros s S w drawn g r wl c d HK HS HG.
  - cbn [seq each priv solo]. eexists. split; [reflexivity|]. cbn [lp gr gw lg]. split; [reflexivity|]. split; [reflexivity|]. split; [intros a; split; [auto|intros [|(j & Hj & _)]; [auto|lia]]|]. split; [intros; lia|reflexivity].
  - cbn [seq each]. unfold sampleBody at 1. cbv beta.
    destruct (solo_total b S w g r wl d (fun total =>
      let outputIdx := Z.of_nat (b * K + s) in
      if flt f0 total then
        let r := b32_mult mode_NE (draw seed (Z.of_nat b) seq_ drawn) total in
        findFirst n tmp (b * n) 0 r f0 (fun selectedIdx =>
          St (out, outputIdx) (Ix (Z.of_nat selectedIdx))
          (St (tmp, Z.of_nat (b * n + selectedIdx)) (El f0) (each (seq (Datatypes.S s) len) (sampleBody b) (drawn + 1) (fun _ => Done))))
      else St (out, outputIdx) (Ix 0%Z) (each (seq (Datatypes.S s) len) (sampleBody b) drawn (fun _ => Done))) HS c) as [c' E1].
    cbv zeta in E1. rewrite E1. clear E1. cbv zeta. cbn [noF]. cbv zeta.
    assert (GO : exists x, g (out, Z.of_nat (b * K + s)) = Some x) by (specialize (HG s ltac:(lia)); destruct (g (out, Z.of_nat (b * K + s))); [eauto|contradiction]).
    destruct GO as [x0 GO].
    (* what is left after one more store at b * K + s *)
    assert (REST : forall (v : nat) S' w' drawn' d', sh_is S' w' -> exists L,
      solo (pv b (each (seq (Datatypes.S s) len) (sampleBody b) drawn' (fun _ => Done))) (upd g (out, Z.of_nat (b * K + s)) (Some (Some (Ix (Z.of_nat v))))) S' r ((out, Z.of_nat (b * K + s)) :: wl) c' d' = Some L /\ lp L = Done /\ gr L = r /\
      (forall a, In a (gw L) <-> In a wl \/ exists j, j < Datatypes.S len /\ a = (out, Z.of_nat (b * K + (s + j)))) /\
      (forall j, j < Datatypes.S len -> lg L (out, Z.of_nat (b * K + (s + j))) = Some (Some (Ix (Z.of_nat (nth j (v :: noF len w' n (draw seed (Z.of_nat b) seq_) drawn') 0))))) /\
      (forall a, (forall j, j < Datatypes.S len -> a <> (out, Z.of_nat (b * K + (s + j)))) -> lg L a = g a)).
    { intros v S' w' drawn' d' HS'.
      destruct (IH (Datatypes.S s) S' w' drawn' (upd g (out, Z.of_nat (b * K + s)) (Some (Some (Ix (Z.of_nat v))))) r ((out, Z.of_nat (b * K + s)) :: wl) c' d' ltac:(lia) HS') as (L & E & H1 & H2 & H3 & H4 & H5).
      { intros j Hj. rewrite upd_other; [apply HG; lia|]. intros X. injection X as X. lia. }
      exists L. split; [exact E|]. split; [exact H1|]. split; [exact H2|]. split; [|split].
      - intros a. rewrite H3. split.
        + intros [[<-|Hin]|(j & Hj & ->)]; [right; exists 0; split; [lia|f_equal; lia]|auto|right; exists (Datatypes.S j); split; [lia|f_equal; lia]].
        + intros [Hin|(j & Hj & ->)]; [left; right; exact Hin|]. destruct j as [|j]; [left; left; f_equal; lia|right; exists j; split; [lia|f_equal; lia]].
      - intros [|j] Hj; cbn [nth].
        + rewrite Nat.add_0_r. rewrite H5; [apply upd_same|]. intros j Hj' X. injection X as X. lia.
        + replace (s + Datatypes.S j) with (Datatypes.S s + j) by lia. apply H4. lia.
      - intros a Ha. rewrite H5; [apply upd_other; intros <-; apply (Ha 0); [lia|f_equal; lia]|]. intros j Hj. replace (Datatypes.S s + j) with (s + Datatypes.S j) by lia. apply Ha. lia. }
    destruct (flt f0 (totalF w n)).
    + set (rr := b32_mult mode_NE (draw seed (Z.of_nat b) seq_ drawn) (totalF w n)).
      destruct (solo_find b S w g r wl d (fun selectedIdx =>
          St (out, Z.of_nat (b * K + s)) (Ix (Z.of_nat selectedIdx))
          (St (tmp, Z.of_nat (b * n + selectedIdx)) (El f0) (each (seq (Datatypes.S s) len) (sampleBody b) (drawn + 1) (fun _ => Done)))) rr HS n 0 f0 c' ltac:(lia)) as [c2 E2].
      rewrite E2. clear E2. set (sel := findF n w 0 rr f0). assert (Hsel : sel < n) by (apply findF_lt; lia).
      cbn [priv fst snd]. destruct (Nat.eqb_spec out tmp) as [|_]; [contradiction|]. rewrite Nat.eqb_refl, cellOf_eq. cbn [solo]. rewrite GO, (HS sel Hsel).
      specialize (REST sel (upd S (tmp, Z.of_nat sel) (Some (Some (El f0)))) (clearF w sel) (drawn + 1) ((tmp, Z.of_nat sel) :: d) (sh_clear S w sel HS)).
      destruct REST as (L & E & H). 
      destruct (solo_log _ _ _ _ _ _ c2 _ _ E) as (L2 & E2 & F1 & F2 & F3 & F4). exists L2. split; [exact E2|]. rewrite F1, F2, F3, F4. exact H.
    + cbn [priv fst snd]. destruct (Nat.eqb_spec out tmp) as [|_]; [contradiction|]. cbn [solo]. rewrite GO. change 0%Z with (Z.of_nat 0). apply REST. exact HS.
Qed.

(* the first part: thread t copies its share *)
Lemma solo_copy b Q : b < batch -> forall is, NoDup is -> (forall i, In i is -> i < n) -> forall S r c d, (forall i, i < n -> S (tmp, Z.of_nat i) <> None) ->
  exists S' r' d', solo (pv b (each is (fun i (_ : unit) k => ldEl (prob, Z.of_nat (b * n + i)) (fun x => St (tmp, Z.of_nat (b * n + i)) (El x) (k tt))) tt (fun _ => Sync Q))) m S r [] c d
    = Some (mkLane m S' (Sync (pv b Q)) r' [] c d') /\ (forall a, In a r' -> In a r \/ fst a = prob) /\ (forall a, In a d' <-> In a d \/ exists i, In i is /\ a = (tmp, Z.of_nat i)) /\
    (forall i, In i is -> S' (tmp, Z.of_nat i) = Some (Some (El (W b i)))) /\ (forall a, (forall i, In i is -> a <> (tmp, Z.of_nat i)) -> S' a = S a).
Proof.
  intros Hb. induction is as [|i is IH]; intros ND HI S r c d HS.
  - cbn [each priv solo]. exists S, r, d. split; [reflexivity|]. split; [auto|]. split; [intros a; split; [auto|intros [|(i & [] & _)]; auto]|]. split; [intros i []|reflexivity].
  - inversion ND as [|? ? N1 N2]; subst. pose proof (HI i (or_introl eq_refl)) as Hi.
    destruct (IH N2 (fun j Hj => HI j (or_intror Hj)) (upd S (tmp, Z.of_nat i) (Some (Some (El (W b i))))) ((prob, Z.of_nat (b * n + i)) :: r) c ((tmp, Z.of_nat i) :: d)) as (S' & r' & d' & E & H1 & H2 & H3 & H4).
    { intros j Hj. unfold upd. destruct (addr_eqb (tmp, Z.of_nat i) (tmp, Z.of_nat j)); [discriminate|apply HS, Hj]. }
    exists S', r', d'. split; [|split; [|split; [|split]]].
    + cbn [each]. unfold ldEl at 1. cbn [priv fst snd]. destruct (Nat.eqb_spec prob tmp) as [|_]; [contradiction|]. cbn [solo]. rewrite (PROB b i Hb Hi). cbn [priv fst snd]. rewrite Nat.eqb_refl, cellOf_eq. cbn [solo].
      pose proof (HS i Hi) as N. destruct (S (tmp, Z.of_nat i)); [|contradiction]. exact E.
    + intros a Ha. apply H1 in Ha as [[<-|Ha]|Ha]; auto.
    + intros a. rewrite H2. split.
      * intros [[<-|Ha]|(j & Hj & ->)]; [right; exists i; split; [left; reflexivity|reflexivity]|auto|right; exists j; split; [right; exact Hj|reflexivity]].
      * intros [Ha|(j & [<-|Hj] & ->)]; [left; right; exact Ha|left; left; reflexivity|right; exists j; auto].
    + intros j [<-|Hj]; [|apply H3, Hj]. rewrite H4; [apply upd_same|]. intros j Hj X. injection X as X. assert (i = j) by lia. subst. contradiction.
    + intros a Ha. rewrite H4 by (intros j Hj; apply Ha; right; exact Hj). apply upd_other. intros <-. apply (Ha i); [left; reflexivity|reflexivity].
Qed.

Notation l := (kMultinomialNoReplacement draw prob out tmp batch n K seed seq_).
Notation l' := (privLaunch tmp n l).
Definition S0 (a : addr) : cell W32 := if area tmp n a then Some None else None.
Definition S1 (b : nat) (a : addr) : cell W32 := if area tmp n a then Some (Some (El (W b (Z.to_nat (snd a))))) else None.
Definition rest (b t : nat) : thr W32 := if t =? 0 then each (seq 0 K) (sampleBody b) 0 (fun _ => Done) else Done.

Lemma area_at i : area tmp n (tmp, Z.of_nat i) = (i <? n).
Proof.
  destruct (Nat.ltb_spec i n) as [H|H].
  - apply area_true. cbn. lia.
  - destruct (area tmp n (tmp, Z.of_nat i)) eqn:E; [|reflexivity]. apply area_true in E. cbn in E. lia.
Qed.

Lemma no_run : 0 < batch -> (Z.of_nat batch < 2 ^ 31)%Z -> always l m (fun m' =>
  (forall b s, b < batch -> s < K -> m' (out, Z.of_nat (b * K + s)) = Some (Some (Ix (Z.of_nat (nth s (noF K (W b) n (draw seed (Z.of_nat b) seq_) 0) 0))))) /\
  (forall a, fst a <> tmp -> (forall z, (0 <= z < Z.of_nat (batch * K))%Z -> a <> (out, z)) -> m' a = m a)).
Proof.
  intros HB1 HB2. set (Q' := fun m' : addr -> cell W32 =>
    (forall b s, b < batch -> s < K -> m' (out, Z.of_nat (b * K + s)) = Some (Some (Ix (Z.of_nat (nth s (noF K (W b) n (draw seed (Z.of_nat b) seq_) 0) 0))))) /\
    (forall a, fst a <> tmp -> (forall z, (0 <= z < Z.of_nat (batch * K))%Z -> a <> (out, z)) -> m' a = m a)).
  apply (own_part tmp n l m Q' Q').
  { exact ROOM. }
  2:{ intros m' m'' [A B] E. split; [intros b s Hb Hs; rewrite E by exact NOT; apply A; assumption|]. intros a Na Ha. rewrite E by exact Na. apply B; assumption. }
  assert (CP : forall b t, b < batch -> t < blockSize -> exists S' r' d', solo (pv b (code l b t)) m S0 [] [] [] [] = Some (mkLane m S' (Sync (pv b (rest b t))) r' [] [] d') /\ (forall a, In a r' -> fst a = prob) /\
    (forall a, In a d' <-> exists i, In i (strided n t blockSize n) /\ a = (tmp, Z.of_nat i)) /\ (forall i, In i (strided n t blockSize n) -> S' (tmp, Z.of_nat i) = Some (Some (El (W b i))))).
  { intros b t Hb Ht. destruct (solo_copy b (rest b t) Hb (strided n t blockSize n)) with (S := S0) (r := @nil addr) (c := @nil addr) (d := @nil addr) as (S' & r' & d' & E & H1 & H2 & H3 & _).
    - apply strided_nodup. unfold blockSize. lia.
    - intros i Hi. eapply strided_lt. exact Hi.
    - intros i Hi. unfold S0. rewrite area_at. destruct (Nat.ltb_spec i n); [discriminate|lia].
    - exists S', r', d'. split; [exact E|]. split; [intros a Ha; destruct (H1 a Ha) as [[]|]; assumption|]. split; [|exact H3]. intros a. rewrite H2. split; [intros [[]|]; assumption|auto]. }
  set (dummy := mkLane m S0 Done [] [] [] [] : @lane W32).
  set (L1 := fun b t => match solo (pv b (code l b t)) m S0 [] [] [] [] with Some L => L | None => dummy end).
  set (L2 := fun b t => release (S1 b) (L1 b t)).
  set (L3 := fun b t => match run (L2 b t) with Some L => L | None => dummy end).
  assert (T0 : forall b, b < batch -> exists r, solo (pv b (code l b 0)) m S0 [] [] [] [] = Some (L1 b 0) /\ (forall a, In a r -> fst a = prob) /\ run (L2 b 0) = Some (L3 b 0) /\ lp (L3 b 0) = Done /\ gr (L3 b 0) = r /\
     (forall a, In a (gw (L3 b 0)) <-> exists j, j < K /\ a = (out, Z.of_nat (b * K + j))) /\
     (forall j, j < K -> lg (L3 b 0) (out, Z.of_nat (b * K + j)) = Some (Some (Ix (Z.of_nat (nth j (noF K (W b) n (draw seed (Z.of_nat b) seq_) 0) 0))))) /\
     (forall a, (forall j, j < K -> a <> (out, Z.of_nat (b * K + j))) -> lg (L3 b 0) a = m a)).
  { intros b Hb. destruct (CP b 0 Hb ltac:(unfold blockSize; lia)) as (S' & r' & d' & E & H1 & _). exists r'. unfold L3, L2, L1. rewrite E. split; [reflexivity|]. split; [exact H1|].
    unfold release. cbn [lg lp gr gw released]. unfold run at 1 2. cbn [lp lg ls gr gw sr sw]. change (rest b 0) with (each (seq 0 K) (sampleBody b) 0 (fun _ => Done)).
    destruct (solo_samples b Hb K 0 (S1 b) (W b) 0 m r' [] [] []) as (L & EL & F1 & F2 & F3 & F4 & F5).
    - lia.
    - intros i Hi. unfold S1. rewrite area_at. destruct (Nat.ltb_spec i n); [|lia]. cbn [snd]. rewrite Nat2Z.id. reflexivity.
    - intros j Hj. apply ROOMO. nia.
    - rewrite EL. unfold run. cbn [lp lg ls gr gw sr sw]. rewrite EL. split; [reflexivity|]. split; [exact F1|]. split; [exact F2|]. split; [|split; [exact F4|exact F5]].
      intros a. rewrite F3. cbn [Nat.add]. split; [intros [[]|]; assumption|auto]. }
  assert (TN : forall b t, b < batch -> t < blockSize -> t <> 0 -> exists r, (forall a, In a r -> fst a = prob) /\ L3 b t = mkLane m (S1 b) Done r [] [] [] /\ run (L2 b t) = Some (L3 b t)).
  { intros b t Hb Ht N. destruct (CP b t Hb Ht) as (S' & r' & d' & E & H1 & _). exists r'. split; [exact H1|]. unfold L3, L2, L1. rewrite E. unfold release. cbn [lg lp gr gw released]. unfold run, rest. cbn [lp lg ls gr gw sr sw].
    destruct (Nat.eqb_spec t 0); [contradiction|]. cbn [priv solo]. auto. }
  assert (DISJ : forall b s b' s', b < batch -> s < K -> b' < batch -> s' < K -> b * K + s = b' * K + s' -> b = b' /\ s = s') by (intros b s b' s' H1 H2 H3 H4 E; assert (b = b') by nia; subst; lia).
  apply (race_free l' m L3).
  - split; [exact HB1|]. split; [cbn; lia|]. change (0 < blockSize <= 1024). unfold blockSize. lia.
  - split.
    + intros b Hb. change (b < batch) in Hb. change (bdim l') with blockSize. change (fun a => if shar l' a then Some None else None) with S0.
      apply (be_sync blockSize S0 _ (L1 b) (S1 b) (L2 b)).
      * intros u Hu. apply we_stop. intros t [_ Ht]. destruct (CP b t Hb Ht) as (S' & r' & d' & E & _). assert (X : run (lane0 l' m b t) = solo (pv b (code l b t)) m S0 [] [] [] []) by reflexivity. unfold L1. rewrite X, E. split; [reflexivity|exact I].
      * intros t t' a Ht Ht' N. destruct (CP b t Hb Ht) as (S' & r' & d' & E & _ & H2 & _). destruct (CP b t' Hb Ht') as (S'' & r'' & d'' & E' & _ & H2' & _). unfold L1. rewrite E, E'. cbn [sw sr]. rewrite H2. intros (i & Hi & ->). split; [intros []|].
        rewrite H2'. intros (j & Hj & X). injection X as X. assert (i = j) by lia. subst j. apply strided_mod in Hi; [|unfold blockSize; lia|exact Ht]. apply strided_mod in Hj; [|unfold blockSize; lia|exact Ht']. lia.
      * exists 0. split; [unfold blockSize; lia|]. destruct (CP b 0 Hb ltac:(unfold blockSize; lia)) as (S' & r' & d' & E & _). unfold L1. rewrite E. exact I.
      * intros a. unfold S1. destruct (area tmp n a) eqn:EA.
        -- left. apply area_true in EA as [EA1 EA2]. assert (exists i, i < n /\ a = (tmp, Z.of_nat i)) as (i & Hi & ->) by (exists (Z.to_nat (snd a)); split; [lia|destruct a as [p z]; cbn in EA1, EA2 |- *; rewrite EA1; f_equal; lia]). cbn [snd]. rewrite Nat2Z.id.
           exists (i mod blockSize). assert (Ht : i mod blockSize < blockSize) by (apply (Nat.mod_upper_bound i blockSize); discriminate). split; [exact Ht|].
           destruct (CP b _ Hb Ht) as (S' & r' & d' & E & _ & H2 & H3). unfold L1. rewrite E. cbn [sw ls]. assert (IN : In i (strided n (i mod blockSize) blockSize n)) by (apply (strided_mod n blockSize (i mod blockSize) i); [unfold blockSize; lia|exact Ht|auto]).
           split; [apply H2; exists i; auto|]. rewrite H3 by exact IN. reflexivity.
        -- right. split; [|unfold S0; rewrite EA; reflexivity]. intros t Ht. destruct (CP b t Hb Ht) as (S' & r' & d' & E & _ & H2 & _). unfold L1. rewrite E. cbn [sw]. rewrite H2. intros (i & Hi & ->). apply strided_lt in Hi. rewrite area_at in EA. destruct (Nat.ltb_spec i n); [discriminate|lia].
      * intros t Ht. reflexivity.
      * apply be_done.
        -- intros u Hu. apply we_stop. intros t [_ Ht]. destruct (Nat.eq_dec t 0) as [->|N].
           ++ destruct (T0 b Hb) as (r & _ & _ & E & D & _). split; [exact E|]. rewrite D. exact I.
           ++ destruct (TN b t Hb Ht N) as (r & _ & EL & E). split; [exact E|]. rewrite EL. exact I.
        -- intros t t' a Ht Ht' N Hin. destruct (Nat.eq_dec t 0) as [->|Nt].
           ++ assert (Nt' : t' <> 0) by congruence. destruct (TN b t' Hb Ht' Nt') as (r & _ & EL & _). rewrite EL. split; intros [].
           ++ destruct (TN b t Hb Ht Nt) as (r & _ & EL & _). rewrite EL in Hin. destruct Hin.
        -- intros t Ht. destruct (Nat.eq_dec t 0) as [->|N].
           ++ destruct (T0 b Hb) as (r & _ & _ & _ & D & _). exact D.
           ++ destruct (TN b t Hb Ht N) as (r & _ & EL & _). rewrite EL. reflexivity.
    + intros b t b' t' a Hb Ht Hb' Ht' N Hin. change (b < batch) in Hb. change (b' < batch) in Hb'. change (t < blockSize) in Ht. change (t' < blockSize) in Ht'.
      destruct (Nat.eq_dec t 0) as [->|Nt]; [|destruct (TN b t Hb Ht Nt) as (r & _ & EL & _); rewrite EL in Hin; destruct Hin].
      destruct (T0 b Hb) as (r & _ & _ & _ & _ & _ & G & _). apply G in Hin as (j & Hj & ->).
      destruct (Nat.eq_dec t' 0) as [->|Nt'].
      * destruct (T0 b' Hb') as (r2 & _ & P2 & _ & _ & R2 & G2 & _). rewrite R2. split; [intros X; apply P2 in X; cbn in X; congruence|]. intros X. apply G2 in X as (j' & Hj' & X). injection X as X.
        apply N. f_equal. apply (DISJ b j b' j'); try assumption. lia.
      * destruct (TN b' t' Hb' Ht' Nt') as (r2 & P2 & EL & _). rewrite EL. cbn [gr gw]. split; [intros X; apply P2 in X; cbn in X; congruence|intros []].
  - intros m' G. split.
    + intros b s Hb Hs. destruct (T0 b Hb) as (r & _ & _ & _ & _ & _ & G1 & G2 & _).
      destruct (G (out, Z.of_nat (b * K + s))) as [(b' & t' & Hb' & Ht' & Hin & E)|[Hn _]].
      * change (b' < batch) in Hb'. change (t' < blockSize) in Ht'. destruct (Nat.eq_dec t' 0) as [->|Nt']; [|destruct (TN b' t' Hb' Ht' Nt') as (r2 & _ & EL & _); rewrite EL in Hin; destruct Hin].
        destruct (T0 b' Hb') as (r2 & _ & _ & _ & _ & _ & G1' & _). apply G1' in Hin as (j' & Hj' & X). injection X as X. destruct (DISJ b s b' j') as [<- <-]; try assumption; [lia|]. rewrite E. apply G2, Hs.
      * exfalso. apply (Hn b 0 Hb); [change (0 < blockSize); unfold blockSize; lia|]. apply G1. exists s. auto.
    + intros a Na Ha. destruct (G a) as [(b' & t' & Hb' & Ht' & Hin & E)|[_ E]]; [|exact E]. exfalso.
      change (b' < batch) in Hb'. change (t' < blockSize) in Ht'. destruct (Nat.eq_dec t' 0) as [->|Nt']; [|destruct (TN b' t' Hb' Ht' Nt') as (r2 & _ & EL & _); rewrite EL in Hin; destruct Hin].
      destruct (T0 b' Hb') as (r2 & _ & _ & _ & _ & _ & G1' & _). apply G1' in Hin as (j' & Hj' & ->). apply (Ha (Z.of_nat (b' * K + j'))); [nia|reflexivity].
Qed.
End No.
