(* Reading and writing with tensors of indices on CUDA tensors. *)
From Coq Require Import List Arith ZArith Bool Lia Permutation.
From Verif Require Import ShapeModel ShapeSpec ShapeProofs TensorModel TensorSpec TensorLemmas
  BcastModel BcastSpec BcastProofs BufModel BufProofs CutModel CutSpec PermModel PermSpec PermProofs PermProofs2
  IndexModel IndexSpec IndexProofs AdvModel AdvSpec AdvProofs
  GpuModel GpuSpec GpuProofs CudaModel CudaSpec GpuLemmas CudaProofs GpuOrder CudaFillModel CudaItems CudaFillProofs
  CudaMoveModel CudaMoveProofs CudaMoveProofs2 CudaMoveProofs3.
Import ListNotations.
Local Open Scope nat_scope.

Lemma two_or_not : forall (T : Type) (sh : list nat) (inds : list dtensor) (two : nat -> nat -> dtensor -> dtensor -> T) (gen : T),
  (match sh, inds with [d0; d1], [i0; i1] => two d0 d1 i0 i1 | _, _ => gen end) = gen \/
  exists d0 d1 i0 i1, sh = [d0; d1] /\ inds = [i0; i1] /\
    (match sh, inds with [d0; d1], [i0; i1] => two d0 d1 i0 i1 | _, _ => gen end) = two d0 d1 i0 i1.
Proof.
  intros T [|d0 [|d1 [|d2 sh]]] [|i0 [|i1 [|i2 inds]]] two gen; auto. right. exists d0, d1, i0, i1. auto.
Qed.

Lemma f2_len : forall (T U : Type) (R : T -> U -> Prop) a b, Forall2 R a b -> length a = length b.
Proof. induction 1; cbn; auto. Qed.

Section Adv.
Context {A : Type}.
Variables (sh ish : list nat) (Is : list (list nat -> Z)) (P : list nat -> list nat) (bufs : list nat).
Variable (m : addr -> cell (word A)).
Hypothesis NP : names_positions sh ish Is P.
Hypothesis HI : Forall2 (fun b I => has m b ish (fun j => Ix (I j))) bufs Is.
Hypothesis HZ : (0 < Z.of_nat (numel ish) <= 2 ^ 32)%Z.

Let n := length Is.
Let rest := skipn n sh.
Let inds := map (fun b => mkD b ish) bufs.

Lemma adv_bufs : length bufs = n.
Proof using HI. apply (f2_len _ _ _ _ _ HI). Qed.

Lemma adv_loads : forall j, valid ish j ->
  Forall2 (fun p v => m (p, Z.of_nat (ravel ish j)) = Some (Some (Ix v))) bufs (map (fun I => I j) Is).
Proof using HI.
  intros j Hj. revert HI. clear - Hj. induction 1; constructor; auto. eapply has_at with (1 := H). exact Hj.
Qed.

Lemma adv_first : inds <> [] /\ length inds = n.
Proof using NP HI.
  pose proof adv_bufs as L. unfold inds. rewrite map_length. split; [|exact L]. destruct NP as (Hne & _).
  destruct bufs; [|discriminate]. destruct Is; [contradiction|discriminate L].
Qed.

(* what a thread does once it has its offset *)
Lemma adv_general : forall k j R W, valid ish j ->
  plan (k (Z.of_nat (ravel (firstn n sh) (P j) * numel rest))) m = Some (R, W) ->
  plan (subOffset (combine sh (strides sh)) (map dbuf inds) (Z.of_nat (ravel ish j)) 0 k) m
  = Some (map (fun p => (p, Z.of_nat (ravel ish j))) bufs ++ R, W).
Proof using NP HI.
  intros k j R W Hj HP. unfold inds. rewrite map_map. cbn [dbuf]. rewrite map_id.
  destruct (P_valid _ _ _ _ NP j Hj) as [LP _]. destruct NP as (_ & _ & HNC).
  apply (sub_ok A m _ k sh (map (fun I => I j) Is) (P j)); [apply HNC, Hj|apply adv_loads, Hj|].
  rewrite LP. exact HP.
Qed.

Lemma adv_two : forall d0 d1 i0 i1 k j R W, sh = [d0; d1] -> inds = [i0; i1] -> valid ish j ->
  plan (k (Z.of_nat (ravel (firstn n sh) (P j) * numel rest))) m = Some (R, W) ->
  rest = [] /\
  plan (offset2D d0 d1 (dbuf i0) (dbuf i1) (Z.of_nat (ravel ish j)) k) m
  = Some ((dbuf i0, Z.of_nat (ravel ish j)) :: (dbuf i1, Z.of_nat (ravel ish j)) :: R, W) /\
  (exists b0 b1, bufs = [b0; b1] /\ dbuf i0 = b0 /\ dbuf i1 = b1).
Proof using NP HI.
  intros d0 d1 i0 i1 k j R W Es Ei Hj HP.
  destruct adv_first as [_ Ln]. rewrite Ei in Ln. cbn in Ln.
  assert (Er : rest = []) by (unfold rest; rewrite <- Ln, Es; reflexivity). split; [exact Er|].
  pose proof (adv_loads j Hj) as HB. destruct (P_valid _ _ _ _ NP j Hj) as [LP _]. fold n in LP.
  destruct NP as (_ & _ & HNC). specialize (HNC j Hj).
  unfold inds in Ei. destruct bufs as [|b0 [|b1 [|]]]; try discriminate Ei. injection Ei as <- <-. cbn [dbuf].
  split; [|exists b0, b1; auto].
  unfold n in *. destruct Is as [|I0 [|I1 [|]]]; try discriminate Ln. cbn [map] in *.
  inversion HB as [|? ? ? ? H0 HB1]; subst. inversion HB1 as [|? ? ? ? H1 _]; subst.
  unfold offset2D. apply (plan_ldIx _ _ (I0 j)); [exact H0|]. apply (plan_ldIx _ _ (I1 j)); [exact H1|].
  destruct (P j) as [|p0 [|p1 [|]]] eqn:EP; try (cbn in LP; lia).
  destruct HNC as (_ & _ & HNC). pose proof (HNC 0 ltac:(cbn; lia)) as Q0. pose proof (HNC 1 ltac:(cbn; lia)) as Q1. cbn [nth] in Q0, Q1.
  apply dim_is_norm in Q0 as [_ Q0]. apply dim_is_norm in Q1 as [_ Q1]. cbv zeta.
  rewrite Q0, Q1. rewrite <- HP. do 2 f_equal. rewrite Er. cbn [length firstn]. rewrite !ravel_cons, numel_cons, numel_nil, ravel_nil. lia.
Qed.

Lemma rest_at : forall j k, valid ish j -> k < numel rest ->
  valid (ish ++ rest) (j ++ offsetToIndices rest k) /\ ravel (ish ++ rest) (j ++ offsetToIndices rest k) = ravel ish j * numel rest + k.
Proof.
  intros j k Hj Hk. pose proof (valid_length _ _ Hj). split.
  - apply valid_app; auto. split; auto. apply o2i_valid, Hk.
  - rewrite ravel_app by auto. rewrite ravel_o2i by exact Hk. reflexivity.
Qed.

Lemma rest_split : forall e, valid (ish ++ rest) e -> exists j k, valid ish j /\ k < numel rest /\ e = j ++ offsetToIndices rest k.
Proof.
  intros e He. pose proof (valid_length _ _ He) as L. rewrite app_length in L.
  rewrite <- (firstn_skipn (length ish) e) in He. apply valid_app in He as [H1 H2]; [|rewrite firstn_length; lia].
  exists (firstn (length ish) e), (ravel rest (skipn (length ish) e)). split; [exact H1|]. split; [apply ravel_lt, H2|].
  rewrite o2i_ravel by exact H2. symmetry. apply firstn_skipn.
Qed.

Lemma adv_ravel : forall j k, valid ish j -> k < numel rest ->
  Z.of_nat (ravel sh (P j ++ offsetToIndices rest k)) = (Z.of_nat (ravel (firstn n sh) (P j) * numel rest) + Z.of_nat k)%Z.
Proof using NP. intros j k Hj Hk. unfold rest, n in *. rewrite (source_ravel _ _ _ _ NP) by auto. lia. Qed.

Lemma adv_stride : nth (length inds - 1) (strides sh) 0 = numel rest.
Proof using NP HI.
  destruct adv_first as [H1 H2]. rewrite H2. apply stride_last.
  - unfold inds in *. destruct bufs; [contradiction|]. rewrite <- H2. cbn. lia.
  - destruct NP as (_ & H & _). exact H.
Qed.

(* reading *)
Theorem adv_read : forall (F : list nat -> A) self out,
  has m self sh (fun idx => El (F idx)) -> room m out (numel (ish ++ rest)) -> out <> self -> ~ In out bufs ->
  exists l, indexAdvanceCuda (mkD self sh) inds out = Ok (ish ++ rest, l) /\
    computes l m out (ish ++ rest) (fun idx => El (F (adv_source ish P idx))).
Proof using NP HI HZ.
  intros F self out HF HR N1 N2.
  destruct adv_first as [Hne Ln]. unfold indexAdvanceCuda. cbn [dshape dbuf].
  assert (E0 : exists r, inds = mkD (hd 0 bufs) ish :: r) by (unfold inds in *; destruct bufs; [contradiction|eexists; reflexivity]).
  destruct E0 as [r E0].
  assert (EL : length sh <? length inds = false) by (apply Nat.ltb_ge; rewrite Ln; destruct NP as (_ & H & _); exact H).
  pose proof adv_stride as ES.
  assert (EM : forall (T : Type) (x : T) f, match inds with [] => x | t0 :: _ => f t0 end = f (mkD (hd 0 bufs) ish)) by (intros; rewrite E0; reflexivity).
  rewrite EM. cbn [dshape]. rewrite EL, ES, Ln. fold rest. eexists. split; [reflexivity|].
  set (body := fun index => match sh, inds with
     | [d0; d1], [i0; i1] => offset2D d0 d1 (dbuf i0) (dbuf i1) index (fun z => Ld (self, z) (fun v => St (out, index) v Done))
     | _, _ => subOffset (combine sh (strides sh)) (map dbuf inds) index 0 (fun z => copyLoop (numel rest) (self, z) (out, Z.of_nat (numel rest) * index)%Z)
     end).
  assert (HP : forall j, valid ish j -> exists R, plan (body (Z.of_nat (ravel ish j))) m
     = Some (R, map (fun k => ((out, Z.of_nat (ravel (ish ++ rest) (j ++ offsetToIndices rest k))), El (F (P j ++ offsetToIndices rest k)))) (seq 0 (numel rest)))
     /\ forall a, In a R -> fst a <> out).
  { intros j Hj.
    assert (S1 : forall k, k < numel rest -> m (self, Z.of_nat (ravel (firstn n sh) (P j) * numel rest) + Z.of_nat k)%Z = Some (Some (El (F (P j ++ offsetToIndices rest k))))).
    { intros k Hk. rewrite <- adv_ravel by auto. apply has_at with (1 := HF). apply (source_valid _ _ _ _ NP); auto. apply o2i_valid, Hk. }
    assert (S2 : forall k, k < numel rest -> m (out, Z.of_nat (numel rest) * Z.of_nat (ravel ish j) + Z.of_nat k)%Z <> None).
    { intros k Hk. destruct (rest_at j k Hj Hk) as [V1 V2].
      replace (Z.of_nat (numel rest) * Z.of_nat (ravel ish j) + Z.of_nat k)%Z with (Z.of_nat (ravel (ish ++ rest) (j ++ offsetToIndices rest k))) by lia.
      apply room_ravel; auto. }
    assert (S3 : forall k, k < numel rest -> (out, Z.of_nat (numel rest) * Z.of_nat (ravel ish j) + Z.of_nat k)%Z = (out, Z.of_nat (ravel (ish ++ rest) (j ++ offsetToIndices rest k)))).
    { intros k Hk. destruct (rest_at j k Hj Hk) as [V1 V2]. f_equal. lia. }
    pose proof (copy_ok _ m (numel rest) (fun k => El (F (P j ++ offsetToIndices rest k))) self _ out _ S1 S2) as C.
    unfold body. edestruct (two_or_not (thr (word A)) sh inds) as [E|(d0 & d1 & i0 & i1 & Es & Ei & Em)].
    - rewrite E. eexists. split.
      + apply adv_general; [exact Hj|]. rewrite C. f_equal. f_equal. apply map_ext_in. intros k Hk. apply in_seq in Hk. rewrite S3 by lia. reflexivity.
      + intros a Ha. apply in_app_or in Ha as [Ha|Ha]; apply in_map_iff in Ha as (x & <- & Hx); cbn [fst]; [|congruence]. intros ->. contradiction.
    - rewrite Em. clear Em.
      destruct (adv_two d0 d1 i0 i1 (fun z => Ld (self, z) (fun v => St (out, Z.of_nat (ravel ish j)) v Done)) j
         [(self, Z.of_nat (ravel (firstn n sh) (P j) * numel rest))]
         (map (fun k => ((out, Z.of_nat (ravel (ish ++ rest) (j ++ offsetToIndices rest k))), El (F (P j ++ offsetToIndices rest k)))) (seq 0 (numel rest))) Es Ei Hj) as (Er & Ep & (b0 & b1 & Eb & <- & <-)).
      + assert (Er : numel rest = 1).
        { unfold rest. rewrite <- Ln, Ei, Es. reflexivity. }
        rewrite Er in *. cbn [seq map]. eapply plan_ld.
        * specialize (S1 0 ltac:(lia)). cbn [Z.of_nat] in S1. rewrite Z.add_0_r in S1. exact S1.
        * destruct (rest_at j 0 Hj ltac:(lia)) as [V1 V2].
          replace (ravel ish j) with (ravel (ish ++ rest) (j ++ offsetToIndices rest 0)) by lia.
          apply plan_st; [apply room_ravel; auto|reflexivity].
      + eexists. split; [exact Ep|]. rewrite Eb in N2. intros a [<-|[<-|[<-|[]]]] Ho; cbn [fst] in Ho; subst out.
        * apply N2. left. reflexivity.
        * apply N2. right. left. reflexivity.
        * contradiction. }
  pose proof (kernel1d_is (V := word A) (Z.of_nat (numel ish)) body) as K.
  change (computes (kernel1d (Z.of_nat (numel ish)) body) m out (ish ++ rest) (fun idx => El (F (adv_source ish P idx)))).
  apply covers.
  - eapply is1d_accepted; eauto.
  - exact HR.
  - intros b t Hb Ht. destruct (item_code _ _ _ b t K) as [->|(i & Hi & _ & ->)].
    + exists [], []. split; [reflexivity|]. split; intros ? *; intros [].
    + destruct (HP (offsetToIndices ish (Z.to_nat i))) as (R & E & H); [apply o2i_valid; lia|].
      rewrite ravel_o2i, Z2Nat.id in E by lia. exists R. eexists. split; [exact E|]. split; [exact H|].
      intros a v Hin. apply in_map_iff in Hin as (k & Ek & Hk). injection Ek as <- <-. apply in_seq in Hk.
      assert (Hj : valid ish (offsetToIndices ish (Z.to_nat i))) by (apply o2i_valid; lia).
      eexists. split; [apply (rest_at _ k Hj); lia|]. split; [reflexivity|].
      rewrite source_split by (apply (valid_length _ _ Hj)). reflexivity.
  - intros idx Hv. destruct (rest_split idx Hv) as (j & k & Hj & Hk & ->). pose proof (ravel_lt ish j Hj).
    destruct (item_thread _ _ _ (Z.of_nat (ravel ish j)) K HZ) as (b & t & Hb & Ht & _ & E); [lia|].
    exists b, t. split; [exact Hb|]. split; [exact Ht|]. intros R W EP. rewrite E in EP.
    destruct (HP j Hj) as (R' & EP' & _). rewrite EP' in EP. injection EP as _ <-.
    apply in_map_iff. exists k. split; [|apply in_seq; lia]. rewrite source_split by (apply (valid_length _ _ Hj)). reflexivity.
Qed.

(* writing *)
Lemma put_items : forall e, valid (ish ++ rest) e <-> exists i, (0 <= i < Z.of_nat (numel ish))%Z /\
  In e (map (fun k => offsetToIndices ish (Z.to_nat i) ++ offsetToIndices rest k) (seq 0 (numel rest))).
Proof.
  intros e. split.
  - intros He. destruct (rest_split e He) as (j & k & Hj & Hk & ->). pose proof (ravel_lt ish j Hj).
    exists (Z.of_nat (ravel ish j)). split; [lia|]. apply in_map_iff. exists k. rewrite Nat2Z.id, o2i_ravel by exact Hj.
    split; [reflexivity|]. apply in_seq. lia.
  - intros (i & Hi & Hin). apply in_map_iff in Hin as (k & <- & Hk). apply in_seq in Hk. apply rest_at; [apply o2i_valid; lia|lia].
Qed.

Lemma source_ok : forall e, valid (ish ++ rest) e -> valid sh (adv_source ish P e).
Proof using NP.
  intros e He. destruct (rest_split e He) as (j & k & Hj & Hk & ->). rewrite source_split by (apply (valid_length _ _ Hj)).
  apply (source_valid _ _ _ _ NP); auto. apply o2i_valid, Hk.
Qed.

Variables (F V : list nat -> A) (self val : nat) (vsh : list nat).
Hypothesis HF : has m self sh (fun idx => El (F idx)).
Hypothesis HV : vsh = [] /\ (forall e, valid (ish ++ rest) e -> m (val, 0%Z) = Some (Some (El (V e)))) \/
  vsh <> [] /\ numel vsh = numel (ish ++ rest) /\ has m val (ish ++ rest) (fun e => El (V e)).
Hypothesis N1 : self <> val.
Hypothesis N2 : ~ In self bufs.

Lemma put_launch : exists l body, indexPutAdvanceCuda (mkD self sh) inds (mkD val vsh) = Ok l /\
  is1d l (Z.of_nat (numel ish)) body /\
  forall i, (0 <= i < Z.of_nat (numel ish))%Z -> exists R,
    plan (body i) m = Some (R, map (fun e => ((self, Z.of_nat (ravel sh (adv_source ish P e))), El (V e)))
       (map (fun k => offsetToIndices ish (Z.to_nat i) ++ offsetToIndices rest k) (seq 0 (numel rest)))) /\
    forall a, In a R -> fst a <> self.
Proof using NP HI HZ HF HV N1 N2.
  destruct adv_first as [Hne Ln]. unfold indexPutAdvanceCuda. cbn [dshape dbuf].
  assert (E0 : exists r, inds = mkD (hd 0 bufs) ish :: r) by (unfold inds in *; destruct bufs; [contradiction|eexists; reflexivity]).
  destruct E0 as [r E0].
  assert (EL : length sh <? length inds = false) by (apply Nat.ltb_ge; rewrite Ln; destruct NP as (_ & H & _); exact H).
  pose proof adv_stride as ES.
  assert (EM : forall (T : Type) (x : T) f, match inds with [] => x | t0 :: _ => f t0 end = f (mkD (hd 0 bufs) ish)) by (intros; rewrite E0; reflexivity).
  rewrite EM. cbn [dshape]. rewrite EL, ES, isScalar_bare.
  set (src := fun index : Z => if vsh then (val, 0%Z) else (val, index)).
  (* the stores of one thread, from its offset *)
  assert (HD : forall j k, valid ish j -> k < numel rest ->
     m (self, Z.of_nat (ravel (firstn n sh) (P j) * numel rest) + Z.of_nat k)%Z <> None).
  { intros j k Hj Hk. rewrite <- adv_ravel by auto. apply room_ravel; [apply has_room in HF; exact HF|].
    apply (source_valid _ _ _ _ NP); auto. apply o2i_valid, Hk. }
  assert (HS : forall j k, valid ish j -> k < numel rest ->
     m (src (Z.of_nat (numel rest) * Z.of_nat (ravel ish j) + Z.of_nat k)%Z) = Some (Some (El (V (j ++ offsetToIndices rest k))))).
  { intros j k Hj Hk. destruct (rest_at j k Hj Hk) as [V1 V2]. unfold src.
    destruct HV as [[Ev H]|(Ev & En & H)].
    - rewrite Ev. apply H, V1.
    - destruct vsh; [contradiction|].
      replace (Z.of_nat (numel rest) * Z.of_nat (ravel ish j) + Z.of_nat k)%Z with (Z.of_nat (ravel (ish ++ rest) (j ++ offsetToIndices rest k))) by lia.
      apply has_at with (1 := H). exact V1. }
  assert (HW : forall j, valid ish j ->
     map (fun k => ((self, Z.of_nat (ravel (firstn n sh) (P j) * numel rest) + Z.of_nat k)%Z, El (V (j ++ offsetToIndices rest k)))) (seq 0 (numel rest))
     = map (fun e => ((self, Z.of_nat (ravel sh (adv_source ish P e))), El (V e))) (map (fun k => j ++ offsetToIndices rest k) (seq 0 (numel rest)))).
  { intros j Hj. rewrite map_map. apply map_ext_in. intros k Hk. apply in_seq in Hk.
    rewrite source_split by (apply (valid_length _ _ Hj)). rewrite adv_ravel by (auto; lia). reflexivity. }
  assert (EV : (if match vsh with [] => true | _ => false end then true else (numel vsh =? numel rest * numel ish)) = true).
  { destruct HV as [[-> _]|(Ev & En & _)]; [reflexivity|]. rewrite En, numel_app. destruct vsh; [contradiction|]. apply Nat.eqb_eq. lia. }
  edestruct (two_or_not (res (launch (word A))) sh inds) as [E|(d0 & d1 & i0 & i1 & Es & Ei & Em)].
  - rewrite E. clear E.
    set (body := fun index => subOffset (A := A) (combine sh (strides sh)) (map dbuf inds) index 0 (fun z =>
         if vsh then fillLoop (numel rest) (val, 0%Z) (self, z) else copyLoop (numel rest) (val, (Z.of_nat (numel rest) * index)%Z) (self, z))).
    exists (kernel1d (Z.of_nat (numel ish)) body), body. split; [|split; [apply kernel1d_is|]].
    + unfold body. destruct vsh; [reflexivity|]. rewrite EV. reflexivity.
    + intros i Hi. set (j := offsetToIndices ish (Z.to_nat i)).
      assert (Hj : valid ish j) by (apply o2i_valid; lia).
      assert (Ej : i = Z.of_nat (ravel ish j)) by (unfold j; rewrite ravel_o2i by lia; lia).
      rewrite <- HW by exact Hj. unfold body. rewrite Ej. destruct vsh as [|v0 vr] eqn:Ev.
      * exists (map (fun p => (p, Z.of_nat (ravel ish j))) bufs ++ repeat (val, 0%Z) (numel rest)). split.
        -- apply adv_general; [exact Hj|]. cbv beta.
           destruct (numel rest) as [|nr] eqn:Enr; [reflexivity|].
           rewrite (fill_ok _ m (S nr) (El (V (j ++ offsetToIndices rest 0)))).
           ++ f_equal. f_equal. apply map_ext_in. intros k Hk. apply in_seq in Hk. do 2 f_equal.
              pose proof (HS j k Hj ltac:(lia)) as Q1. pose proof (HS j 0 Hj ltac:(lia)) as Q2. unfold src in Q1, Q2. congruence.
           ++ apply (HS j 0 Hj). lia.
           ++ intros k Hk. apply HD; auto.
        -- intros a Ha. apply in_app_or in Ha as [Ha|Ha].
           ++ apply in_map_iff in Ha as (x & <- & Hx). cbn [fst]. intros ->. contradiction.
           ++ apply repeat_spec in Ha. subst a. cbn [fst]. congruence.
      * eexists. split.
        -- apply adv_general; [exact Hj|]. cbv beta. apply (copy_ok _ m (numel rest) (fun k => El (V (j ++ offsetToIndices rest k)))).
           ++ intros k Hk. apply (HS j k Hj Hk).
           ++ intros k Hk. apply HD; auto.
        -- intros a Ha. apply in_app_or in Ha as [Ha|Ha]; apply in_map_iff in Ha as (x & <- & Hx); cbn [fst]; [|congruence]. intros ->. contradiction.
  - assert (Er : rest = []) by (unfold rest; rewrite <- Ln, Ei, Es; reflexivity).
    assert (En1 : numel rest = 1) by (rewrite Er; reflexivity).
    set (body := fun index => offset2D (A := A) d0 d1 (dbuf i0) (dbuf i1) index (fun z => Ld (src index) (fun v => St (self, z) v Done))).
    exists (kernel1d (Z.of_nat (numel ish)) body), body. split; [|split; [apply kernel1d_is|]].
    + rewrite Em. unfold body, src. rewrite En1 in EV. rewrite Nat.mul_1_l in EV.
      destruct vsh; [reflexivity|]. rewrite EV. reflexivity.
    + intros i Hi. set (j := offsetToIndices ish (Z.to_nat i)).
      assert (Hj : valid ish j) by (apply o2i_valid; lia).
      assert (Ej : i = Z.of_nat (ravel ish j)) by (unfold j; rewrite ravel_o2i by lia; lia).
      rewrite <- HW by exact Hj. unfold body. rewrite Ej.
      destruct (adv_two d0 d1 i0 i1 (fun z => Ld (src (Z.of_nat (ravel ish j))) (fun v => St (self, z) v Done)) j
         [src (Z.of_nat (ravel ish j))]
         (map (fun k => ((self, Z.of_nat (ravel (firstn n sh) (P j) * numel rest) + Z.of_nat k)%Z, El (V (j ++ offsetToIndices rest k)))) (seq 0 (numel rest))) Es Ei Hj) as (_ & Ep & (b0 & b1 & Eb & <- & <-)).
      * rewrite En1. cbn [seq map Z.of_nat]. rewrite Z.add_0_r. pose proof (HS j 0 Hj ltac:(lia)) as Q. rewrite En1 in Q. cbn [Z.of_nat] in Q.
        eapply plan_ld; [etransitivity; [|exact Q]; f_equal; f_equal; lia|]. apply plan_st; [|reflexivity].
        pose proof (HD j 0 Hj ltac:(lia)) as Q2. cbn [Z.of_nat] in Q2. rewrite Z.add_0_r, En1 in Q2. exact Q2.
      * eexists. split; [exact Ep|]. rewrite Eb in N2. intros a [<-|[<-|[<-|[]]]] Ho; cbn [fst] in Ho.
        -- subst self. apply N2. left. reflexivity.
        -- subst self. apply N2. right. left. reflexivity.
        -- unfold src in Ho. destruct vsh; cbn [fst] in Ho; congruence.
Qed.
End Adv.
