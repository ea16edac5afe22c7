(* The CUDA fills. *)
From Coq Require Import List Arith ZArith Bool Lia.
From Verif Require Import ShapeModel ShapeSpec ShapeProofs TensorModel TensorSpec TensorLemmas
  BcastModel GpuModel GpuSpec GpuProofs CudaModel CudaSpec GpuLemmas CudaProofs GpuOrder CudaFillModel CudaItems.
Import ListNotations.
Local Open Scope Z_scope.

Lemma room_at : forall V (m : addr -> cell V) p n i, room m p n -> 0 <= i < Z.of_nat n -> m (p, i) <> None.
Proof. intros V m p n i R Hi E. apply (R i) in E. apply E, Hi. Qed.

Lemma has_ix : forall V (m : addr -> cell V) p sh F i, has m p sh F -> 0 <= i < Z.of_nat (numel sh) ->
  m (p, i) = Some (Some (F (offsetToIndices sh (Z.to_nat i)))).
Proof.
  intros V m p sh F i H Hi. assert (Hv : valid sh (offsetToIndices sh (Z.to_nat i))) by (apply o2i_valid; lia).
  rewrite <- (has_at V m p sh F _ H Hv), ravel_o2i by lia. rewrite Z2Nat.id by lia. reflexivity.
Qed.

Lemma fill_range : forall V (v : V) self m offset count,
  0 < count <= 2 ^ 32 -> (forall i, 0 <= i < count -> m (self, offset + i) <> None) ->
  always (fillOffsetHostCuda self v offset count) m (fun m' =>
    (forall i, 0 <= i < count -> m' (self, offset + i) = Some (Some v)) /\
    (forall a, (forall i, 0 <= i < count -> a <> (self, offset + i)) -> m' a = m a)).
Proof.
  intros V v self m offset count Hn HA. eapply (fours_at _ m self offset count (fun _ => v)); [reflexivity|exact Hn|].
  intros index H0 H3 H4. exists []. split; [|intros a []].
  rewrite (each4_plan _ _ _ _ (fun _ => []) (fun k => ((self, offset + (index + k)), v))); auto.
  - f_equal. f_equal. induction (mine index count); auto.
  - intros k r R' W' Hk Hl E. cbn [app]. apply plan_st; [apply HA; lia|exact E].
Qed.

Lemma fill_range_device : forall V (v : V) self val m offset count,
  0 < count <= 2 ^ 32 -> (forall i, 0 <= i < count -> m (self, offset + i) <> None) ->
  m (val, 0) = Some (Some v) -> (val = self -> ~ offset <= 0 < offset + count) ->
  always (fillOffsetCuda self val offset count) m (fun m' =>
    (forall i, 0 <= i < count -> m' (self, offset + i) = Some (Some v)) /\
    (forall a, (forall i, 0 <= i < count -> a <> (self, offset + i)) -> m' a = m a)).
Proof.
  intros V v self val m offset count Hn HA Hv Hs. eapply (fours_at _ m self offset count (fun _ => v)); [reflexivity|exact Hn|].
  intros index H0 H3 H4. exists [(val, 0)]. split.
  - apply (plan_ld _ _ _ v); [exact Hv|].
    rewrite (each4_plan _ _ _ _ (fun _ => []) (fun k => ((self, offset + (index + k)), v))); auto.
    + f_equal. f_equal. induction (mine index count); auto.
    + intros k r R' W' Hk Hl E. cbn [app]. apply plan_st; [apply HA; lia|exact E].
  - intros a [<-|[]] e. cbn [fst snd] in *. apply Hs, e.
Qed.

Lemma fillCuda_is : forall V self (v : V) n, fillCuda self v n = fillOffsetHostCuda self v 0 n.
Proof. reflexivity. Qed.

Lemma computes_of : forall V (l : launch V) m out sh (f : Z -> V), room m out (numel sh) ->
  always l m (fun m' =>
    (forall i, 0 <= i < Z.of_nat (numel sh) -> m' (out, i) = Some (Some (f i))) /\
    (forall a, (forall i, 0 <= i < Z.of_nat (numel sh) -> a <> (out, i)) -> m' a = m a)) ->
  computes l m out sh (fun idx => f (Z.of_nat (ravel sh idx))).
Proof.
  intros V l m out sh f R H. eapply always_mono; [exact H|]. intros m' [H1 H2]. cbv beta in *.
  destruct (filled m m' out (numel sh) (fun i => f (Z.of_nat i)) R) as [A B].
  - intros i Hi. rewrite Z2Nat.id by lia. apply H1, Hi.
  - exact H2.
  - split; [|exact B]. unfold has. rewrite <- (map_seq_indices sh).
    erewrite map_ext_in; [exact A|]. intros i Hi. apply in_seq in Hi. cbv beta. rewrite ravel_o2i by lia. reflexivity.
Qed.

(* Masked filling; out may be self. *)
Lemma fill_masked : forall V truth (v : V) sh F M self mask out m,
  0 < Z.of_nat (numel sh) <= 2 ^ 32 ->
  has m self sh F -> has m mask sh M -> room m out (numel sh) ->
  computes (fillMaskedDetail truth out self mask v (Z.of_nat (numel sh))) m out sh
    (fun idx => if truth (M idx) then v else F idx).
Proof.
  intros V truth v sh F M self mask out m Hn HF HM HR.
  set (ix := fun i : Z => offsetToIndices sh (Z.to_nat i)).
  set (f := fun i => if truth (M (ix i)) : bool then v else F (ix i)).
  eapply always_mono.
  - apply (scatter _ (Z.of_nat (numel sh)) (fun i => Ld (mask, i) (fun c =>
      if truth c then St (out, i) v Done else Ld (self, i) (fun v => St (out, i) v Done))) m out (fun i => i) f
      (fun i => if truth (M (ix i)) then [(mask, i)] else [(self, i); (mask, i)])).
    + apply kernel1d_is.
    + exact Hn.
    + intros i Hi. cbn [solo]. rewrite (has_ix V m mask sh M i HM Hi). fold (ix i). unfold f.
      pose proof (room_at V m out _ i HR Hi) as N.
      destruct (truth (M (ix i))); cbn [solo].
      * destruct (m (out, i)); [|contradiction]. eexists. repeat split.
      * rewrite (has_ix V m self sh F i HF Hi). fold (ix i). destruct (m (out, i)); [|contradiction]. eexists. repeat split.
    + intros i j Hi Hj N. split; [exact N|]. destruct (truth (M (ix j))); cbn [In]; intuition congruence.
  - intros m' [H1 H2]. cbv beta in *.
    destruct (filled m m' out (numel sh) (fun i => let idx := offsetToIndices sh i in if truth (M idx) then v else F idx) HR H1 H2) as [A B].
    split; [|exact B]. unfold has. rewrite <- (map_seq_indices sh). exact A.
Qed.

Lemma fill_lin : forall V (f : Z -> V) sh self m, 0 < Z.of_nat (numel sh) <= 2 ^ 32 -> room m self (numel sh) ->
  computes (kernel1d (Z.of_nat (numel sh)) (fun i => St (self, i) (f i) Done)) m self sh (fun idx => f (Z.of_nat (ravel sh idx))).
Proof.
  intros V f sh self m Hn HR. apply (gathers_at _ m self sh _ (fun i => St (self, i) (f i) Done) (kernel1d_is _ _) Hn HR).
  intros idx Hv. exists []. split; [|intros a []]. apply plan_st; [|reflexivity].
  apply (room_at V m self _ _ HR). pose proof (ravel_lt sh idx Hv). lia.
Qed.

Lemma rand_fill : forall F V (draw : Z -> Z -> Z -> Z -> F) (conv : F -> V) sh self m seed seq,
  0 < Z.of_nat (numel sh) <= 2 ^ 32 -> room m self (numel sh) ->
  computes (kFillRand draw conv self seed seq (Z.of_nat (numel sh))) m self sh
    (fun idx => let i := Z.of_nat (ravel sh idx) in conv (draw seed seq (4 * (i / 4)) (i mod 4))).
Proof.
  intros F V draw conv sh self m seed seq Hn HR. cbv zeta.
  apply (computes_of V _ m self sh (fun i => conv (draw seed seq (4 * (i / 4)) (i mod 4))) HR).
  eapply (fours_at _ m self 0 _ (fun i => conv (draw seed seq (4 * (i / 4)) (i mod 4)))); [reflexivity|exact Hn|].
  intros index H0 H3 H4. exists []. split; [|intros a []]. cbv beta.
  destruct (Z.ltb_spec index (Z.of_nat (numel sh))) as [Hi|Hi].
  - rewrite (each4_plan _ _ _ _ (fun _ => []) (fun k => ((self, 0 + (index + k)), conv (draw seed seq index k)))); auto.
    + f_equal. f_equal; [induction (mine index (Z.of_nat (numel sh))); auto|].
      apply map_ext_in. intros k Hk. apply in_mine in Hk.
      assert (E : index = 4 * (index / 4)) by (pose proof (Z.div_mod index 4); lia).
      replace ((index + k) / 4) with (index / 4) by (apply (Z.div_unique_pos _ _ _ k); lia).
      replace ((index + k) mod 4) with k by (apply (Z.mod_unique_pos _ _ (index / 4)); lia).
      rewrite <- E. reflexivity.
    + intros k r R' W' Hk Hl E. cbn [app]. apply plan_st; [apply (room_at V m self _ _ HR); lia|exact E].
  - assert (E : mine index (Z.of_nat (numel sh)) = []).
    { destruct (mine index (Z.of_nat (numel sh))) as [|k ks] eqn:E; auto.
      assert (In k (mine index (Z.of_nat (numel sh)))) as Hk by (rewrite E; left; reflexivity). apply in_mine in Hk. lia. }
    rewrite E. reflexivity.
Qed.

Lemma dropout_ok : forall D V (draw : Z -> Z -> Z -> Z -> D) kept (div : V -> V) zero_ sh F self out m seed seq,
  0 < Z.of_nat (numel sh) <= 2 ^ 32 -> has m self sh F -> room m out (numel sh) -> out <> self ->
  computes (kDropout draw kept div zero_ out self seed seq (Z.of_nat (numel sh))) m out sh
    (fun idx => let i := Z.of_nat (ravel sh idx) in
                if kept (draw seed seq (4 * (i / 4)) (i mod 4)) then div (F idx) else zero_).
Proof.
  intros D V draw kept div zero_ sh F self out m seed seq Hn HF HR N.
  eapply fours; [reflexivity|exact Hn|exact HR|].
  intros index H0 H3 H4. cbv beta zeta.
  destruct (Z.ltb_spec index (Z.of_nat (numel sh))) as [Hi|Hi].
  - set (R := fun k => if kept (draw seed seq index k) then [(self, index + k)] else []).
    exists (flat_map R (mine index (Z.of_nat (numel sh)))). split.
    + rewrite (each4_plan _ _ _ _ R (fun k => ((out, index + k), if kept (draw seed seq index k)
          then div (F (offsetToIndices sh (Z.to_nat (index + k)))) else zero_))); auto.
      * f_equal. f_equal. apply map_ext_in. intros k Hk. apply in_mine in Hk.
        assert (E : index = 4 * (index / 4)) by (pose proof (Z.div_mod index 4); lia).
        rewrite ravel_o2i by lia. rewrite Z2Nat.id by lia.
        replace ((index + k) / 4) with (index / 4) by (apply (Z.div_unique_pos _ _ _ k); lia).
        replace ((index + k) mod 4) with k by (apply (Z.mod_unique_pos _ _ (index / 4)); lia).
        rewrite <- E. reflexivity.
      * intros k r R' W' Hk Hl E. unfold R. destruct (kept (draw seed seq index k)); cbn [app].
        -- eapply plan_ld; [apply (has_ix V m self sh F); [exact HF|lia]|].
           apply plan_st; [apply (room_at V m out _ _ HR); lia|exact E].
        -- apply plan_st; [apply (room_at V m out _ _ HR); lia|exact E].
    + intros a Ha. apply in_flat_map in Ha as (k & _ & Ha). unfold R in Ha.
      destruct (kept (draw seed seq index k)); [|destruct Ha]. destruct Ha as [<-|[]]. cbn. congruence.
  - exists []. split; [|intros a []]. assert (E : mine index (Z.of_nat (numel sh)) = []).
    { destruct (mine index (Z.of_nat (numel sh))) as [|k ks] eqn:E; auto.
      assert (In k (mine index (Z.of_nat (numel sh)))) as Hk by (rewrite E; left; reflexivity). apply in_mine in Hk. lia. }
    rewrite E. reflexivity.
Qed.
