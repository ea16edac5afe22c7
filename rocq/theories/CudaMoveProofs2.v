(* index_select, repeat_interleave, gather, tril and triu on CUDA tensors. *)
From Coq Require Import List Arith ZArith Bool Lia Permutation.
From Verif Require LineProofs SoftmaxProofs.
From Verif Require Import ShapeModel ShapeSpec ShapeProofs TensorModel TensorSpec TensorLemmas
  BcastModel BcastSpec BcastProofs BufModel BufProofs CutModel CutSpec PermModel PermSpec PermProofs PermProofs2
  IndexModel IndexSpec IndexProofs AdvModel AdvSpec AdvProofs
  GpuModel GpuSpec GpuProofs CudaModel CudaSpec GpuLemmas CudaProofs GpuOrder CudaFillModel CudaItems CudaFillProofs
  CudaMoveModel CudaMoveProofs.
Import ListNotations.
Local Open Scope nat_scope.

Lemma room_ravel : forall V (m : addr -> cell V) out sh idx, room m out (numel sh) -> valid sh idx ->
  m (out, Z.of_nat (ravel sh idx)) <> None.
Proof. intros V m out sh idx HR Hv. apply (room_at V m out _ _ HR). pose proof (ravel_lt sh idx Hv). lia. Qed.

Lemma plan_ldIx : forall A (a : addr) z (k : Z -> thr (word A)) m R W, m a = Some (Some (Ix z)) -> plan (k z) m = Some (R, W) ->
  plan (ldIx a k) m = Some (a :: R, W).
Proof. intros A a z k m R W E H. apply (plan_ld _ _ _ (Ix z)); auto. Qed.

Lemma dim_axis : forall r dim d, dim_is r dim d -> axis r dim = Some d.
Proof. intros r dim d H. apply axis_some. exact H. Qed.

Lemma indexSelect_ok : forall A sh dim d (F : list nat -> A) n I J self index out m,
  dim_is (length sh) dim d -> (forall k, k < n -> I [k] = Z.of_nat (J k) /\ J k < nth d sh 0) ->
  (0 < Z.of_nat (numel (set_nth sh d n)) <= 2 ^ 32)%Z ->
  has m self sh (fun idx => El (F idx)) -> has m index [n] (fun k => Ix (I k)) -> room m out (numel (set_nth sh d n)) ->
  out <> self -> out <> index ->
  exists l, indexSelectCuda (mkD self sh) dim (mkD index [n]) out = Ok (set_nth sh d n, Some l) /\
    computes l m out (set_nth sh d n) (fun idx => El (F (set_nth idx d (J (nth d idx 0))))).
Proof.
  intros A sh dim d F n I J self index out m HD HJ HZ HF HI HR N1 N2.
  unfold indexSelectCuda. cbn [dshape dbuf]. rewrite (dim_axis _ _ _ HD). cbn [length Nat.eqb negb].
  assert (En : numel [n] = n) by (rewrite numel_cons, numel_nil; lia). rewrite En.
  assert (Ld : d < length sh) by (destruct HD; auto).
  assert (n <> 0).
  { intros ->. assert (numel (set_nth sh d 0) = 0); [|lia]. rewrite (LineProofs.set_nth_split sh d 0 Ld).
    rewrite numel_app, numel_cons. lia. }
  destruct (Nat.eqb_spec n 0); [contradiction|].
  eexists. split; [reflexivity|]. eapply gathers_at; [apply kernel1d_is|exact HZ|exact HR|].
  intros idx Hv. cbv beta. rewrite coordsZ_ok by exact Hv. rewrite nth_mapZ.
  assert (Li : length idx = length sh) by (rewrite (valid_length _ _ Hv), set_nth_length; reflexivity).
  assert (Hk : nth d idx 0 < n).
  { apply valid_nth in Hv as [_ H']. rewrite set_nth_length in H'. specialize (H' d Ld). rewrite nth_set_nth, Nat.eqb_refl in H'.
    apply Nat.ltb_lt in Ld. rewrite Ld in H'. exact H'. }
  destruct (HJ _ Hk) as [E HJ'].
  assert (Hs : valid sh (set_nth idx d (J (nth d idx 0)))) by (eapply valid_set; eauto).
  exists [(index, Z.of_nat (nth d idx 0)); (self, Z.of_nat (ravel sh (set_nth idx d (J (nth d idx 0)))))]. split.
  - apply (plan_ldIx _ _ (I [nth d idx 0])).
    + assert (Vk : valid [n] [nth d idx 0]) by (repeat constructor; exact Hk).
      pose proof (has_at _ m index [n] _ _ HI Vk) as Q. rewrite ravel_cons, numel_nil, ravel_nil in Q.
      replace (nth d idx 0 * 1 + 0) with (nth d idx 0) in Q by lia. exact Q.
    + rewrite E, setZ_map, offsetAt_ravel by (rewrite Li; exact Ld).
      apply (plan_ld _ _ _ (El (F (set_nth idx d (J (nth d idx 0)))))); [apply has_at with (1 := HF); exact Hs|].
      apply plan_st; [|reflexivity]. apply room_ravel; auto.
  - intros a [<-|[<-|[]]]; cbn; congruence.
Qed.

(* gather *)
Lemma kCoord_ok : forall A sh ish dim d I J index (m : addr -> cell (word A)) idx k R W,
  dim_is (length sh) dim d -> length ish = length sh ->
  (forall idx, valid ish idx -> dim_is (nth d sh 0) (I idx) (J idx)) ->
  has m index ish (fun idx => Ix (I idx)) -> valid ish idx ->
  plan (k (Z.of_nat (ravel sh (set_nth idx d (J idx))))) m = Some (R, W) ->
  plan (kCoord sh ish d index (Z.of_nat (ravel ish idx)) k) m = Some ((index, Z.of_nat (ravel ish idx)) :: R, W).
Proof.
  intros A sh ish dim d I J index m idx k R W HD HL HJ HI Hv HP. unfold kCoord.
  apply (plan_ldIx _ _ (I idx)); [apply has_at with (1 := HI); exact Hv|].
  rewrite coordsZ_ok by exact Hv. cbv zeta. pose proof (proj1 (dim_is_norm _ _ _) (HJ idx Hv)) as [_ E]. rewrite E.
  rewrite setZ_map, offsetAt_ravel; [exact HP|]. rewrite (valid_length _ _ Hv), HL. destruct HD; auto.
Qed.

Lemma gather_ok : forall A sh dim d (F : list nat -> A) ish I J self index out m,
  dim_is (length sh) dim d -> length ish = length sh ->
  (forall k, k < length sh -> k <> d -> nth k ish 0 <= nth k sh 0) ->
  (forall idx, valid ish idx -> dim_is (nth d sh 0) (I idx) (J idx)) ->
  (0 < Z.of_nat (numel ish) <= 2 ^ 32)%Z ->
  has m self sh (fun idx => El (F idx)) -> has m index ish (fun k => Ix (I k)) -> room m out (numel ish) ->
  out <> self -> out <> index ->
  exists l, gatherCuda (mkD self sh) dim (mkD index ish) out = Ok (ish, l) /\
    computes l m out ish (fun idx => El (F (set_nth idx d (J idx)))).
Proof.
  intros A sh dim d F ish I J self index out m HD HL HS HJ HZ HF HI HR N1 N2.
  unfold gatherCuda, gatherScatter. cbn [dshape dbuf]. rewrite (dim_axis _ _ _ HD), HL, Nat.eqb_refl. cbn [negb rbind].
  eexists. split; [reflexivity|]. eapply gathers_at; [apply kernel1d_is|exact HZ|exact HR|].
  intros idx Hv. cbv beta.
  exists [(index, Z.of_nat (ravel ish idx)); (self, Z.of_nat (ravel sh (set_nth idx d (J idx))))]. split.
  - eapply kCoord_ok; eauto.
    apply (plan_ld _ _ _ (El (F (set_nth idx d (J idx))))).
    + apply has_at with (1 := HF). eapply valid_set_coord; eauto; [destruct HD; auto|]. destruct (HJ idx Hv); auto.
    + apply plan_st; [|reflexivity]. apply room_ravel; auto.
  - intros a [<-|[<-|[]]]; cbn; congruence.
Qed.

(* repeat_interleave *)
Lemma split_dim : forall (sh : list nat) d, d < length sh -> sh = firstn d sh ++ nth d sh 0 :: skipn (S d) sh /\ length (firstn d sh) = d.
Proof.
  intros sh d Hd. split; [|apply firstn_length_le; lia].
  rewrite <- (LineProofs.set_nth_split sh d (nth d sh 0) Hd). symmetry. apply SoftmaxProofs.set_nth_same.
Qed.
Lemma valid_mid : forall A x B idx, valid (A ++ x :: B) idx ->
  exists a i b, idx = a ++ i :: b /\ length a = length A /\ valid A a /\ i < x /\ valid B b.
Proof.
  intros A x B idx Hv. pose proof (valid_length _ _ Hv) as L. rewrite app_length in L. cbn [length] in L.
  rewrite <- (firstn_skipn (length A) idx) in Hv. apply valid_app in Hv as [H1 H2]; [|rewrite firstn_length; lia].
  inversion H2 as [|i d b sh' Hi Hb E1 E2]; subst.
  exists (firstn (length A) idx), i, b. rewrite E1, firstn_skipn. split; [reflexivity|]. split; [rewrite firstn_length; lia|]. auto.
Qed.

Lemma repeat_ok : forall V sh dim d (F : list nat -> V) r self out m,
  dim_is (length sh) dim d -> 0 < r ->
  (0 < Z.of_nat (numel (set_nth sh d (nth d sh 0%nat * r)%nat)) <= 2 ^ 32)%Z ->
  has m self sh F -> room m out (numel (set_nth sh d (nth d sh 0 * r))) -> out <> self ->
  exists l, repeatInterleaveCuda (mkD self sh) (Z.of_nat r) dim out = Ok (set_nth sh d (nth d sh 0 * r), l) /\
    computes l m out (set_nth sh d (nth d sh 0 * r)) (fun idx => F (set_nth idx d (nth d idx 0 / r))).
Proof.
  intros V sh dim d F r self out m HD Hr HZ HF HR N.
  unfold repeatInterleaveCuda. cbn [dshape dbuf]. rewrite (dim_axis _ _ _ HD).
  destruct (Z.leb_spec (Z.of_nat r) 0); [lia|]. rewrite Nat2Z.id.
  assert (Hd : d < length sh) by (destruct HD; auto).
  destruct (split_dim sh d Hd) as [E LA]. set (A := firstn d sh) in *. set (x := nth d sh 0) in *. set (B := skipn (S d) sh) in *.
  assert (ER : set_nth sh d (x * r) = A ++ x * r :: B) by (rewrite (LineProofs.set_nth_split sh d _ Hd); reflexivity).
  assert (EB : fold_left Nat.mul B 1 = numel B) by reflexivity.
  eexists. split; [reflexivity|]. rewrite ER in *.
  eapply (one_load V _ m out _ _ _ (fun idx => (self, Z.of_nat (ravel sh (set_nth idx d (nth d idx 0 / r)))))).
  - apply kernel1d_is.
  - exact HZ.
  - exact HR.
  - intros idx Hv. cbv beta. destruct (valid_mid _ _ _ _ Hv) as (a & i & b & -> & La & Ha & Hi & Hb).
    assert (Nd : nth d (a ++ i :: b) 0 = i) by (rewrite app_nth2 by lia; replace (d - length a) with 0 by lia; reflexivity).
    rewrite Nd. replace (set_nth (a ++ i :: b) d (i / r)) with (a ++ i / r :: b) by (rewrite <- LA, <- La; symmetry; apply set_nth_app).
    assert (Hq : i / r < x) by (apply Nat.div_lt_upper_bound; lia).
    split; [|split; [|cbn; congruence]].
    + do 2 f_equal. rewrite E at 1. rewrite !ravel_app by exact La. rewrite !ravel_cons, !numel_cons, EB.
      pose proof (ravel_lt B b Hb) as LB.
      set (p := ravel A a). set (q := ravel B b) in *. set (nb := numel B) in *.
      assert (nb <> 0) by lia.
      replace (Z.of_nat (p * (x * r * nb) + (i * nb + q))) with ((Z.of_nat p * (Z.of_nat x * Z.of_nat r) + Z.of_nat i) * Z.of_nat nb + Z.of_nat q)%Z by nia.
      assert (E1 : (((Z.of_nat p * (Z.of_nat x * Z.of_nat r) + Z.of_nat i) * Z.of_nat nb + Z.of_nat q) / Z.of_nat nb = Z.of_nat p * (Z.of_nat x * Z.of_nat r) + Z.of_nat i)%Z).
      { rewrite Z.div_add_l by lia. rewrite (Z.div_small (Z.of_nat q)) by lia. lia. }
      assert (E2 : (((Z.of_nat p * (Z.of_nat x * Z.of_nat r) + Z.of_nat i) * Z.of_nat nb + Z.of_nat q) mod Z.of_nat nb = Z.of_nat q)%Z).
      { rewrite Z.add_comm, Z.mod_add by lia. apply Z.mod_small. lia. }
      assert (0 < Z.of_nat x * Z.of_nat r)%Z by nia.
      assert (E3 : ((Z.of_nat p * (Z.of_nat x * Z.of_nat r) + Z.of_nat i) / (Z.of_nat x * Z.of_nat r) = Z.of_nat p)%Z).
      { rewrite Z.div_add_l by lia. rewrite (Z.div_small (Z.of_nat i)) by lia. lia. }
      assert (E4 : ((Z.of_nat p * (Z.of_nat x * Z.of_nat r) + Z.of_nat i) mod (Z.of_nat x * Z.of_nat r) = Z.of_nat i)%Z).
      { rewrite Z.add_comm, Z.mod_add by lia. apply Z.mod_small. lia. }
      rewrite E1, E2, E3, E4. rewrite <- Nat2Z.inj_div. nia.
    + apply has_at; [exact HF|]. rewrite E. apply valid_app; [exact La|]. split; [exact Ha|]. constructor; auto.
Qed.
