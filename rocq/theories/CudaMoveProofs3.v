(* Indexing with tensors of indices, and scatter, on CUDA tensors. *)
From Coq Require Import List Arith ZArith Bool Lia Permutation.
From Verif Require Import ShapeModel ShapeSpec ShapeProofs TensorModel TensorSpec TensorLemmas
  BcastModel BcastSpec BcastProofs BufModel BufProofs CutModel CutSpec PermModel PermSpec PermProofs PermProofs2
  IndexModel IndexSpec IndexProofs AdvModel AdvSpec AdvProofs
  GpuModel GpuSpec GpuProofs CudaModel CudaSpec GpuLemmas CudaProofs GpuOrder CudaFillModel CudaItems CudaFillProofs
  CudaMoveModel CudaMoveProofs CudaMoveProofs2.
Import ListNotations.
Local Open Scope nat_scope.

(* ---- stores that may meet ---- *)

Lemma find_last_iff : forall (I : Type) (p : I -> bool) l, find p (rev l) = None <-> forall x, In x l -> p x = false.
Proof.
  intros I p l. split.
  - intros H x Hx. apply (find_none _ _ H). apply in_rev. rewrite rev_involutive. exact Hx.
  - intros H. destruct (find p (rev l)) as [x|] eqn:E; [|reflexivity]. apply find_some in E as [E1 E2].
    apply in_rev in E1. rewrite (H x E1) in E2. discriminate.
Qed.

Section Puts.
Context {A : Type}.
Variables (l : launch (word A)) (m : addr -> cell (word A)) (n : Z) (P : Z -> thr (word A)).
Variables (self : nat) (sh : list nat) (F : list nat -> A).
Variables (esh : list nat) (at_ : list nat -> list nat) (V : list nat -> A) (items : Z -> list (list nat)).
Hypothesis K : is1d l n P.
Hypothesis HN : (0 < n <= 2 ^ 32)%Z.
Hypothesis HF : has m self sh (fun idx => El (F idx)).
Hypothesis HP : forall i, (0 <= i < n)%Z -> exists R,
  plan (P i) m = Some (R, map (fun e => ((self, Z.of_nat (ravel sh (at_ e))), El (V e))) (items i)) /\
  forall a, In a R -> fst a <> self.
Hypothesis HE : forall e, valid esh e <-> exists i, (0 <= i < n)%Z /\ In e (items i).
Hypothesis HV : forall e, valid esh e -> valid sh (at_ e).

Let Rd i := match plan (P i) m with Some (R, _) => R | None => [] end.
Let Wr i := map (fun e => ((self, Z.of_nat (ravel sh (at_ e))), El (V e))) (items i) : list (addr * word A).

Lemma puts_plan : forall i, (0 <= i < n)%Z -> plan (P i) m = Some (Rd i, Wr i) /\ forall a, In a (Rd i) -> fst a <> self.
Proof using HP.
  intros i Hi. destruct (HP i Hi) as (R & E & H). unfold Rd. rewrite E. auto.
Qed.

Lemma puts_apart : forall i j a v, (0 <= i < n)%Z -> (0 <= j < n)%Z -> In a (Rd i) -> ~ In (a, v) (Wr j).
Proof using HP.
  intros i j a v Hi Hj Ha Hw. apply in_map_iff in Hw as (e & E & _). injection E as <- _.
  apply (proj2 (puts_plan i Hi) _ Ha). reflexivity.
Qed.

(* Every element ends up with one of the values sent to it. *)
Theorem puts : always l m (fun m' => exists G,
  has m' self sh (fun idx => El (G idx)) /\ same_but self m m' /\
  forall idx, valid sh idx ->
    (exists e, valid esh e /\ at_ e = idx /\ G idx = V e) \/
    ((forall e, valid esh e -> at_ e <> idx) /\ G idx = F idx)).
Proof using K HN HF HP HE HV.
  destruct (scatters l m n P Rd Wr K HN) as [H _].
  - intros i Hi. apply puts_plan, Hi.
  - intros i j a v Hi Hj. apply puts_apart; auto.
  - eapply always_mono; [exact H|]. intros m' Hm. cbv beta in Hm.
    set (G := fun idx => match m' (self, Z.of_nat (ravel sh idx)) with Some (Some (El v)) => v | _ => F idx end).
    assert (HG : forall idx, valid sh idx ->
        m' (self, Z.of_nat (ravel sh idx)) = Some (Some (El (G idx))) /\
        ((exists e, valid esh e /\ at_ e = idx /\ G idx = V e) \/
         ((forall e, valid esh e -> at_ e <> idx) /\ G idx = F idx))).
    { intros idx Hv. unfold G. destruct (Hm (self, Z.of_nat (ravel sh idx))) as [(i & v & Hi & Hin & E)|[N E]].
      - apply in_map_iff in Hin as (e & Ee & Hin). injection Ee as Er <-. rewrite E.
        assert (He : valid esh e) by (apply HE; exists i; auto).
        split; [reflexivity|]. left. exists e. split; [exact He|]. split; [|reflexivity].
        apply (ravel_inj sh); auto. lia.
      - rewrite E, (has_at _ m self sh _ idx HF Hv). split; [reflexivity|]. right. split; [|reflexivity].
        intros e He Ea. apply HE in He as (i & Hi & Hin). apply (N i (El (V e)) Hi). apply in_map_iff. exists e. rewrite Ea. auto. }
    exists G. split; [|split].
    + intros i. pose proof (holds_room m self _ HF) as R. unfold room in R. rewrite map_length, indices_length in R.
      destruct (Z.ltb_spec i 0) as [Hi|Hi].
      * destruct (Hm (self, i)) as [(j & v & Hj & Hin & E)|[_ E]].
        -- apply in_map_iff in Hin as (e & Ee & _). injection Ee as Er _. lia.
        -- rewrite E. apply R. lia.
      * destruct (Nat.ltb_spec (Z.to_nat i) (numel sh)) as [L|L].
        -- rewrite nth_error_map, indices_nth by exact L. cbn [option_map].
           destruct (HG (offsetToIndices sh (Z.to_nat i))) as [E _]; [apply o2i_valid; exact L|].
           rewrite ravel_o2i, Z2Nat.id in E by lia. exact E.
        -- rewrite (proj2 (nth_error_None _ _)) by (rewrite map_length, indices_length; exact L).
           destruct (Hm (self, i)) as [(j & v & Hj & Hin & E)|[_ E]].
           ++ apply in_map_iff in Hin as (e & Ee & Hin). injection Ee as Er _.
              assert (He : valid esh e) by (apply HE; exists j; auto).
              pose proof (ravel_lt sh _ (HV e He)). lia.
           ++ rewrite E. apply R. lia.
    + intros q i Hq. destruct (Hm (q, i)) as [(j & v & Hj & Hin & E)|[_ E]]; [|exact E].
      apply in_map_iff in Hin as (e & Ee & _). injection Ee as Eq _ _. congruence.
    + intros idx Hv. apply HG, Hv.
Qed.

(* When the values sent to one element agree, the result is determined: that of
   the writes one after the other. *)
Theorem puts_agree : (forall e e', valid esh e -> valid esh e' -> at_ e = at_ e' -> V e = V e') ->
  computes l m self sh (fun idx => El (after_writes (indices esh) at_ V F idx)).
Proof using K HN HF HP HE HV.
  intros HA. eapply always_mono; [exact puts|]. intros m' (G & H1 & H2 & H3). split; [|exact H2].
  unfold has in *. erewrite map_ext_in; [exact H1|]. intros idx Hi. cbv beta. apply indices_in in Hi. f_equal.
  unfold after_writes. destruct (H3 idx Hi) as [(e & He & Ea & ->)|[N ->]].
  - destruct (find _ _) as [e'|] eqn:Ef.
    + apply find_some in Ef as [E1 E2]. apply in_rev, indices_in in E1. apply same_idx_true in E2. apply HA; auto. congruence.
    + exfalso. pose proof (proj1 (find_last_iff _ _ _) Ef e (proj2 (indices_in _ _) He)) as Q. cbv beta in Q.
      rewrite (proj2 (same_idx_true _ _) Ea) in Q. discriminate.
  - rewrite (proj2 (find_last_iff _ _ _)); [reflexivity|]. intros e He. apply indices_in in He.
    destruct (same_idx (at_ e) idx) eqn:Es; [|reflexivity]. apply same_idx_true in Es. destruct (N e He Es).
Qed.

(* Any of them may be the one that stays. *)
Theorem puts_any : (forall i e e', (0 <= i < n)%Z -> In e (items i) -> In e' (items i) -> at_ e = at_ e' -> e = e') ->
  (forall i, (0 <= i < n)%Z -> NoDup (items i)) ->
  forall e, valid esh e -> sometimes l m (fun m' => m' (self, Z.of_nat (ravel sh (at_ e))) = Some (Some (El (V e)))).
Proof using K HN HF HP HE HV.
  intros HI HD e He. pose proof He as He'. apply HE in He' as (i & Hi & Hin).
  destruct (scatters l m n P Rd Wr K HN) as [_ H].
  - intros j Hj. apply puts_plan, Hj.
  - intros j k a v Hj Hk. apply puts_apart; auto.
  - destruct (H i Hi) as (s & R & Fi & Q).
    + unfold Wr. rewrite map_map. apply NoDup_map_in; [|apply HD, Hi].
      intros x y Hx Hy E. cbn [fst] in E. injection E as E. apply (HI i); auto. apply (ravel_inj sh).
      * apply HV, HE. exists i. auto.
      * apply HV, HE. exists i. auto.
      * lia.
    + exists s. split; [exact R|]. split; [exact Fi|]. apply Q. apply in_map_iff. exists e. auto.
Qed.
End Puts.

(* ---- scatter ---- *)

Section Scatter.
Context {A : Type}.
Variables (sh : list nat) (dim : Z) (d : nat) (F : list nat -> A) (ish : list nat) (I : list nat -> Z) (J : list nat -> nat) (V : list nat -> A).
Variables (self index src : nat) (m : addr -> cell (word A)).
Hypothesis HD : dim_is (length sh) dim d.
Hypothesis HL : length ish = length sh.
Hypothesis HS : forall k, k < length sh -> k <> d -> nth k ish 0 <= nth k sh 0.
Hypothesis HJ : forall idx, valid ish idx -> dim_is (nth d sh 0) (I idx) (J idx).
Hypothesis HZ : (0 < Z.of_nat (numel ish) <= 2 ^ 32)%Z.
Hypothesis HF : has m self sh (fun idx => El (F idx)).
Hypothesis HI : has m index ish (fun k => Ix (I k)).
Hypothesis HV : has m src ish (fun k => El (V k)).
Hypothesis N1 : self <> index.
Hypothesis N2 : self <> src.

Let at_ idx := set_nth idx d (J idx).
Definition scatter_launch : launch (word A) :=
  kernel1d (Z.of_nat (numel ish)) (fun i => kCoord sh ish d index i (fun offset => Ld (src, i) (fun v => St (self, offset) v Done))).

Lemma scatter_is : scatterCuda (mkD self sh) dim (mkD index ish) (mkD src ish) = Ok scatter_launch.
Proof using HD HL.
  unfold scatterCuda, gatherScatter. cbn [dshape dbuf]. rewrite (dim_axis _ _ _ HD), HL, Nat.eqb_refl. reflexivity.
Qed.

Lemma scatter_at : forall e, valid ish e -> valid sh (at_ e).
Proof using HD HL HS HJ.
  intros e He. unfold at_. eapply valid_set_coord; eauto; [destruct HD; auto|]. destruct (HJ e He); auto.
Qed.

Lemma scatter_plan : forall i, (0 <= i < Z.of_nat (numel ish))%Z -> exists R,
  plan (kCoord sh ish d index i (fun offset => Ld (src, i) (fun v => St (self, offset) v Done))) m
    = Some (R, map (fun e => ((self, Z.of_nat (ravel sh (at_ e))), El (V e))) [offsetToIndices ish (Z.to_nat i)]) /\
  forall a, In a R -> fst a <> self.
Proof using HD HL HS HJ HZ HF HI HV N1 N2.
  intros i Hi. set (e := offsetToIndices ish (Z.to_nat i)).
  assert (He : valid ish e) by (apply o2i_valid; lia).
  assert (Ei : i = Z.of_nat (ravel ish e)) by (unfold e; rewrite ravel_o2i by lia; lia).
  exists [(index, i); (src, i)]. split.
  - rewrite Ei. eapply kCoord_ok; eauto. apply (plan_ld _ _ _ (El (V e))); [apply has_at with (1 := HV); exact He|].
    apply plan_st; [|reflexivity]. apply room_ravel; [apply has_room in HF; exact HF|]. apply scatter_at, He.
  - intros a [<-|[<-|[]]]; cbn; congruence.
Qed.

Lemma scatter_items : forall e, valid ish e <-> exists i, (0 <= i < Z.of_nat (numel ish))%Z /\ In e [offsetToIndices ish (Z.to_nat i)].
Proof.
  intros e. split.
  - intros He. exists (Z.of_nat (ravel ish e)). pose proof (ravel_lt ish e He). split; [lia|]. left. rewrite Nat2Z.id. apply o2i_ravel, He.
  - intros (i & Hi & [<-|[]]). apply o2i_valid. lia.
Qed.

Theorem scatter_one : always scatter_launch m (fun m' => exists G,
  has m' self sh (fun idx => El (G idx)) /\ same_but self m m' /\
  forall idx, valid sh idx ->
    (exists e, valid ish e /\ set_nth e d (J e) = idx /\ G idx = V e) \/
    ((forall e, valid ish e -> set_nth e d (J e) <> idx) /\ G idx = F idx)).
Proof using HD HL HS HJ HZ HF HI HV N1 N2.
  exact (puts _ m _ _ self sh F ish at_ V _ (kernel1d_is _ _) HZ HF scatter_plan scatter_items scatter_at).
Qed.
Theorem scatter_agree : (forall e e', valid ish e -> valid ish e' -> set_nth e d (J e) = set_nth e' d (J e') -> V e = V e') ->
  computes scatter_launch m self sh (fun idx => El (after_writes (indices ish) (fun e => set_nth e d (J e)) V F idx)).
Proof using HD HL HS HJ HZ HF HI HV N1 N2.
  exact (puts_agree _ m _ _ self sh F ish at_ V _ (kernel1d_is _ _) HZ HF scatter_plan scatter_items scatter_at).
Qed.
Theorem scatter_any : forall e, valid ish e ->
  sometimes scatter_launch m (fun m' => m' (self, Z.of_nat (ravel sh (set_nth e d (J e)))) = Some (Some (El (V e)))).
Proof using HD HL HS HJ HZ HF HI HV N1 N2.
  apply (puts_any _ m _ _ self sh F ish at_ V _ (kernel1d_is _ _) HZ HF scatter_plan scatter_items scatter_at).
  - intros i e e' _ [<-|[]] [<-|[]]. reflexivity.
  - intros i _. repeat constructor. intros [].
Qed.
End Scatter.

(* ---- tensors of indices ---- *)

Lemma sub_ok : forall A (m : addr -> cell (word A)) index k sh vs pre bufs acc R W,
  names_coords sh vs pre -> Forall2 (fun p v => m (p, index) = Some (Some (Ix v))) bufs vs ->
  plan (k (acc + Z.of_nat (ravel (firstn (length pre) sh) pre * numel (skipn (length pre) sh)))%Z) m = Some (R, W) ->
  plan (subOffset (combine sh (strides sh)) bufs index acc k) m = Some (map (fun p => (p, index)) bufs ++ R, W).
Proof.
  intros A m index k. induction sh as [|s sh IH]; intros vs pre bufs acc R W (L1 & L2 & HN) HB HP.
  - destruct pre; [|cbn in L2; lia]. destruct vs; [|discriminate L1]. inversion HB; subst.
    cbn [subOffset map app]. cbn [combine strides]. cbn in HP. rewrite Z.add_0_r in HP. exact HP.
  - destruct pre as [|p pre].
    + destruct vs; [|discriminate L1]. inversion HB; subst. cbn [subOffset map app].
      cbn [length firstn skipn] in HP. rewrite ravel_nil in HP. cbn [Nat.mul Z.of_nat] in HP. rewrite Z.add_0_r in HP. exact HP.
    + destruct vs as [|v vs]; [discriminate L1|]. inversion HB as [|b ? bs ? Hb HB']; subst.
      rewrite strides_cons. cbn [combine subOffset map app]. apply (plan_ldIx _ _ v); [exact Hb|].
      pose proof (HN 0 ltac:(cbn; lia)) as H0. cbn [nth] in H0. apply wrap_of in H0. unfold wrapIdx in H0.
      assert (E0 : (if 0 <=? v then v else v + Z.of_nat s)%Z = Z.of_nat p).
      { destruct (Z.leb_spec 0 v), (Z.ltb_spec v 0) in *; try lia; exact H0. }
      cbv zeta. rewrite E0. apply (IH vs pre bs).
      * split; [cbn in L1; lia|]. split; [cbn in L2; lia|]. intros i Hi. apply (HN (S i)). cbn. lia.
      * exact HB'.
      * cbn [length firstn skipn] in HP. rewrite ravel_cons in HP. rewrite <- HP. do 2 f_equal.
        rewrite <- (firstn_skipn (length pre) sh) at 1. rewrite numel_app. lia.
Qed.

Lemma copy_ok : forall V (m : addr -> cell V) n (f : nat -> V) p i q j,
  (forall k, k < n -> m (p, i + Z.of_nat k)%Z = Some (Some (f k))) ->
  (forall k, k < n -> m (q, j + Z.of_nat k)%Z <> None) ->
  plan (copyLoop n (p, i) (q, j)) m
  = Some (map (fun k => (p, i + Z.of_nat k)%Z) (seq 0 n), map (fun k => ((q, j + Z.of_nat k)%Z, f k)) (seq 0 n)).
Proof.
  intros V m. induction n as [|n IH]; intros f p i q j H1 H2; [reflexivity|].
  cbn [copyLoop seq map fst snd]. rewrite !Z.add_0_r. eapply plan_ld.
  - specialize (H1 0 ltac:(lia)). cbn [Z.of_nat] in H1. rewrite Z.add_0_r in H1. exact H1.
  - apply plan_st.
    + specialize (H2 0 ltac:(lia)). cbn [Z.of_nat] in H2. rewrite Z.add_0_r in H2. exact H2.
    + rewrite (IH (fun k => f (S k))).
      * rewrite <- !seq_shift, !map_map. apply f_equal. apply pair_equal_spec. split; apply map_ext; intros k; cbn beta;
          replace (i + Z.of_nat (S k))%Z with (i + 1 + Z.of_nat k)%Z by lia; replace (j + Z.of_nat (S k))%Z with (j + 1 + Z.of_nat k)%Z by lia; reflexivity.
      * intros k Hk. rewrite <- (H1 (S k)) by lia. do 2 f_equal. lia.
      * intros k Hk. specialize (H2 (S k) ltac:(lia)). replace (j + 1 + Z.of_nat k)%Z with (j + Z.of_nat (S k))%Z by lia. exact H2.
Qed.

Lemma fill_ok : forall V (m : addr -> cell V) n v p q j,
  m p = Some (Some v) -> (forall k, k < n -> m (q, j + Z.of_nat k)%Z <> None) ->
  plan (fillLoop n p (q, j)) m = Some (repeat p n, map (fun k => ((q, j + Z.of_nat k)%Z, v)) (seq 0 n)).
Proof.
  intros V m. induction n as [|n IH]; intros v p q j H1 H2; [reflexivity|].
  cbn [fillLoop seq map fst snd repeat]. rewrite !Z.add_0_r. apply (plan_ld _ _ _ v); [exact H1|]. apply plan_st.
  - specialize (H2 0 ltac:(lia)). cbn [Z.of_nat] in H2. rewrite Z.add_0_r in H2. exact H2.
  - rewrite (IH v); auto.
    + rewrite <- !seq_shift, !map_map. f_equal. f_equal. apply map_ext; intros k; do 2 f_equal; lia.
    + intros k Hk. specialize (H2 (S k) ltac:(lia)). replace (j + 1 + Z.of_nat k)%Z with (j + Z.of_nat (S k))%Z by lia. exact H2.
Qed.
