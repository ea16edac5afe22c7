(* Blocks that reduce several times: cudaBlockReduce as a rule. *)
From Coq Require Import List Arith ZArith Bool Lia Permutation.
From Verif Require Import GpuModel GpuSpec GpuProofs GpuLemmas GpuWarp CudaModel CudaReduceModel CudaReduceProofs CudaLineModel.
Import ListNotations.
Local Open Scope nat_scope.

Section Block.
Context {V : Type}.

(* the block can be run to the end, which satisfies Q *)
Definition ends (BD : nat) (S : addr -> cell V) (L : nat -> lane) (Q : (nat -> lane) -> Prop) : Prop :=
  exists Lf, beval BD S L Lf /\ Q Lf.

Lemma ends_run : forall BD S L L' Q, (forall t, t < BD -> run (L t) = run (L' t)) -> ends BD S L' Q -> ends BD S L Q.
Proof. intros BD S L L' Q E (Lf & H & HQ). exists Lf. split; [|exact HQ]. apply (beval_same BD S L' Lf L H). exact E. Qed.

Lemma ends_done : forall BD S L Lf (Q : (nat -> lane) -> Prop), (forall t, t < BD -> run (L t) = Some (Lf t) /\ lp (Lf t) = Done /\ sw (Lf t) = []) -> Q Lf -> ends BD S L Q.
Proof.
  intros BD S L Lf Q H HQ. exists Lf. split; [|exact HQ]. apply be_done.
  - intros w Hw. apply we_stop. intros t [_ Ht]. destruct (H t Ht) as (E & D & _). split; [exact E|]. rewrite D. exact I.
  - intros t t' a Ht _ _ Hin. destruct (H t Ht) as (_ & _ & E). rewrite E in Hin. destruct Hin.
  - intros t Ht. apply H, Ht.
Qed.

(* thread 0 stores in shared memory, all wait *)
Lemma ends_publish : forall BD S (g : nat -> addr -> cell V) (k : nat -> thr V) r w (sr0 : nat -> list addr) a v Q, 0 < BD ->
  S a <> None -> (forall t, t < BD -> ~ In a (sr0 t)) ->
  ends BD (upd S a (Some (Some v))) (fun t => mkLane (g t) (upd S a (Some (Some v))) (k t) (r t) (w t) [] []) Q ->
  ends BD S (fun t => mkLane (g t) S (if t =? 0 then SSt a v (Sync (k t)) else Sync (k t)) (r t) (w t) (sr0 t) []) Q.
Proof.
  intros BD S g k r w sr0 a v Q HB HS HR (Lf & H & HQ). exists Lf. split; [|exact HQ].
  set (L1 := fun t => if t =? 0 then mkLane (g t) (upd S a (Some (Some v))) (Sync (k t)) (r t) (w t) (sr0 t) [a]
                      else mkLane (g t) S (Sync (k t)) (r t) (w t) (sr0 t) []).
  eapply (be_sync BD S _ L1 (upd S a (Some (Some v)))).
  - intros u Hu. apply we_stop. intros t [_ Ht]. unfold run, L1. cbn [lp lg ls gr gw sr sw]. destruct (t =? 0); cbn [solo].
    + destruct (S a); [|contradiction]. split; [reflexivity|exact I].
    + split; [reflexivity|exact I].
  - intros t t' x Ht Ht' N Hin. unfold L1 in *. destruct (Nat.eqb_spec t 0) as [->|N0]; cbn [sw] in Hin; [|destruct Hin]. destruct Hin as [<-|[]].
    destruct (Nat.eqb_spec t' 0) as [->|N1]; [congruence|]. cbn [sr sw]. split; [apply HR, Ht'|intros []].
  - exists 0. split; [exact HB|]. exact I.
  - intros x. destruct (addr_dec a x) as [<-|N].
    + left. exists 0. split; [exact HB|]. unfold L1. cbn [Nat.eqb sw ls]. split; [left; reflexivity|reflexivity].
    + right. split; [|apply upd_other, N]. intros t Ht. unfold L1. destruct (t =? 0); cbn [sw]; [intros [X|[]]; contradiction|intros []].
  - intros t Ht. reflexivity.
  - apply (beval_same BD _ _ Lf _ H). intros t Ht. unfold release, L1. destruct (t =? 0); reflexivity.
Qed.

Variable op : V -> V -> V.
Variable e : V.
Hypothesis Hc : forall a b, op a b = op b a.
Hypothesis Ha : forall a b c, op a (op b c) = op (op a b) c.
Hypothesis He : op e e = e.

Lemma shuf_absorb : forall (f : nat -> V) w, (forall t, op (f t) e = f t) -> op (shuf op offs32 f (32 * w)) e = shuf op offs32 f (32 * w).
Proof. intros f w H. rewrite (warp_fold op Hc Ha). apply (fold1_absorb op e Ha). apply H. Qed.

(* two levels of shuffles, up to 32 warps *)
Lemma two_full : forall (f : nat -> V) W, 0 < W <= 32 -> (forall t, op (f t) e = f t) ->
  shuf op offs32 (fun t => if t <? W then shuf op offs32 f (32 * t) else e) 0 = fold_right op e (map f (seq 0 (32 * W))).
Proof.
  intros f W HW HF. destruct (Nat.eq_dec W 32) as [->|N]; [|apply (two_levels op e Hc Ha He); lia].
  change 0 with (32 * 0) at 1. rewrite (warp_whole op e Hc Ha He 0).
  2:{ cbv beta. destruct (32 * 0 + 31 <? 32); [apply (shuf_absorb f (32 * 0 + 31)), HF|exact He]. }
  rewrite <- (warps_of op e Hc Ha He f 32). change (32 * 0) with 0. f_equal. apply map_ext_in. intros t Ht. apply in_seq in Ht.
  destruct (Nat.ltb_spec t 32); [|lia]. apply (warp_whole op e Hc Ha He). apply HF.
Qed.

Lemma ends_reduce : forall W S (g : nat -> addr -> cell V) (k : nat -> V -> thr V) r w (sr0 : nat -> list addr) sa (f : nat -> V) Q,
  0 < W <= 32 -> (forall t, op (f t) e = f t) -> (forall z, (0 <= z < 32)%Z -> S (sa, z) <> None) ->
  (forall t a, t < 32 * W -> In a (sr0 t) -> fst a <> sa) ->
  (forall S', (forall a, fst a <> sa -> S' a = S a) -> (forall z, (0 <= z < 32)%Z -> S' (sa, z) <> None) ->
     ends (32 * W) S' (fun t => mkLane (g t) S' (k t (fold_right op e (map f (seq 0 (32 * W))))) (r t) (w t) [(sa, 0%Z)] []) Q) ->
  ends (32 * W) S (fun t => mkLane (g t) S (blockReduce sa op (32 * W) t (f t) e (k t)) (r t) (w t) (sr0 t) []) Q.
Proof.
  intros W S g k r w sr0 sa f Q HW HF HS HR H.
  set (X := fun w => shuf op offs32 f (32 * w)). set (Y := fold_right op e (map f (seq 0 (32 * W)))) in *.
  set (last := fun t => Sync (SLd (sa, 0%Z) (k t))).
  set (second := fun t val => if t / 32 =? 0 then warpReduce op val (fun val => if t =? 0 then SSt (sa, 0%Z) val (last t) else last t) else last t).
  set (third := fun t => if t <? W then SLd (sa, Z.of_nat (t mod 32)) (second t) else second t e).
  assert (EC : forall t, blockReduce sa op (32 * W) t (f t) e (k t) = warpReduce op (f t) (fun val => if t mod 32 =? 0 then SSt (sa, Z.of_nat (t / 32)) val (Sync (third t)) else Sync (third t))).
  { intros t. unfold blockReduce, third, second, last. replace (32 * W / 32) with W; [reflexivity|]. rewrite Nat.mul_comm. symmetry. apply Nat.div_mul. lia. }
  set (S1 := fun a : addr => if ((fst a =? sa)%nat && (0 <=? snd a)%Z && (snd a <? Z.of_nat W)%Z) then Some (Some (X (Z.to_nat (snd a)))) else S a).
  set (S2 := upd S1 (sa, 0%Z) (Some (Some Y))).
  assert (S1at : forall t, t < W -> S1 (sa, Z.of_nat t) = Some (Some (X t))).
  { intros t Ht. unfold S1. cbn [fst snd]. rewrite Nat.eqb_refl. destruct (Z.leb_spec 0 (Z.of_nat t)); [|lia]. destruct (Z.ltb_spec (Z.of_nat t) (Z.of_nat W)); [|lia]. cbn [andb]. rewrite Nat2Z.id. reflexivity. }
  assert (S1off : forall a, fst a <> sa -> S1 a = S a).
  { intros a N. unfold S1. destruct (Nat.eqb_spec (fst a) sa); [contradiction|reflexivity]. }
  assert (S1ok : forall z, (0 <= z < 32)%Z -> S1 (sa, z) <> None).
  { intros z Hz. unfold S1. destruct (_ && _); [discriminate|apply HS, Hz]. }
  destruct (H S2) as (Lf & B & HQ).
  { intros a N. unfold S2. rewrite upd_other; [apply S1off, N|]. intros <-. apply N. reflexivity. }
  { intros z Hz. unfold S2, upd. destruct (addr_eqb _ _); [discriminate|apply S1ok, Hz]. }
  exists Lf. split; [|exact HQ].
  set (L1 := fun t => mkLane (g t) (if t mod 32 =? 0 then upd S (sa, Z.of_nat (t / 32)) (Some (Some (X (t / 32)))) else S) (Sync (third t)) (r t) (w t) (sr0 t)
                       (if t mod 32 =? 0 then [(sa, Z.of_nat (t / 32))] else [])).
  set (v2 := fun t => if t <? W then X t else e).
  set (L2 := fun t => mkLane (g t) (if t =? 0 then S2 else S1) (last t) (r t) (w t) (if t <? W then [(sa, Z.of_nat (t mod 32))] else []) (if t =? 0 then [(sa, 0%Z)] else [])).
  assert (EY : shuf op offs32 v2 0 = Y) by (apply two_full; assumption).
  assert (INW : forall u t, inw (32 * W) u t -> u < W /\ 32 * u <= t < 32 * u + 32) by (intros u t; apply in_warp).
  eapply (be_sync _ S _ L1 S1).
  - intros u Hu. apply GpuWarp.weval_run with (L' := fun t => mkLane (g t) S (warpReduce op (f t) (fun val => if t mod 32 =? 0 then SSt (sa, Z.of_nat (t / 32)) val (Sync (third t)) else Sync (third t))) (r t) (w t) (sr0 t) []).
    { intros t Ht. rewrite EC. reflexivity. }
    eapply GpuWarp.weval_shuffles; [|intros t Ht; reflexivity|]; [lia|].
    apply we_stop. intros t Ht. destruct (INW u t Ht) as [Hu' Ht']. unfold run, withp, L1. cbn [lp lg ls gr gw sr sw]. destruct (Nat.eqb_spec (t mod 32) 0) as [E|E].
    + cbn [solo]. assert (Hd : t / 32 = u) by apply Ht. destruct (S (sa, Z.of_nat (t / 32))) eqn:ES; [|exfalso; apply (HS (Z.of_nat (t / 32))); [lia|exact ES]]. split; [|exact I].
      assert (t = 32 * u) by (pose proof (Nat.div_mod t 32); lia). subst t. rewrite Hd. reflexivity.
    + cbn [solo]. split; [reflexivity|exact I].
  - intros t t' a Ht Ht' N Hin. unfold L1 in *. cbn [sw sr] in *. destruct (Nat.eqb_spec (t mod 32) 0) as [E|E]; [|destruct Hin]. destruct Hin as [<-|[]]. split.
    + intros X1. apply (HR t' _ Ht' X1). reflexivity.
    + destruct (Nat.eqb_spec (t' mod 32) 0) as [E'|E']; [|intros []]. intros [X1|[]]. apply (f_equal snd) in X1; cbn [snd] in X1. apply N. rewrite (Nat.div_mod t 32), (Nat.div_mod t' 32), E, E' by lia. apply (f_equal Z.to_nat) in X1. rewrite ?Nat2Z.id in X1. rewrite X1. reflexivity.
  - exists 0. split; [lia|exact I].
  - intros a. destruct (addr_dec a (sa, Z.of_nat (Z.to_nat (snd a)))) as [Ea|N].
    + destruct (Nat.lt_ge_cases (Z.to_nat (snd a)) W) as [Hw|Hw].
      * left. exists (32 * Z.to_nat (snd a)). split; [lia|]. unfold L1. cbn [sw ls].
        assert (Em : (32 * Z.to_nat (snd a)) mod 32 = 0) by (rewrite Nat.mul_comm; apply Nat.mod_mul; lia). assert (Ed : (32 * Z.to_nat (snd a)) / 32 = Z.to_nat (snd a)) by (rewrite Nat.mul_comm; apply Nat.div_mul; lia).
        rewrite Em, Ed. cbn [Nat.eqb]. split; [left; symmetry; exact Ea|]. rewrite <- Ea, upd_same. rewrite Ea at 1. apply S1at, Hw.
      * right. split.
        { intros t Ht. unfold L1. cbn [sw]. destruct (t mod 32 =? 0); [|intros []]. intros [X1|[]]. rewrite <- X1 in Hw. cbn [snd] in Hw. rewrite Nat2Z.id in Hw.
          assert (t / 32 < W) by (apply Nat.div_lt_upper_bound; lia). lia. }
        unfold S1. destruct (Z.ltb_spec (snd a) (Z.of_nat W)); [|rewrite andb_false_r; reflexivity]. exfalso. rewrite Ea in H0. cbn [snd] in H0. lia.
    + right. split.
      { intros t Ht. unfold L1. cbn [sw]. destruct (t mod 32 =? 0); [|intros []]. intros [X1|[]]. apply N. rewrite <- X1. cbn [snd]. rewrite Nat2Z.id. reflexivity. }
      unfold S1. destruct (Nat.eqb_spec (fst a) sa) as [E|]; [|reflexivity]. destruct (Z.leb_spec 0 (snd a)); [|reflexivity]. exfalso. apply N. destruct a as [q z]. cbn [fst snd] in *. subst q. rewrite Z2Nat.id by lia. reflexivity.
  - intros t Ht. reflexivity.
  - eapply (be_sync _ S1 _ L2 S2).
    + intros u Hu. destruct u as [|u].
      * apply GpuWarp.weval_run with (L' := fun t => mkLane (g t) S1 (warpReduce op (v2 t) (fun val => if t =? 0 then SSt (sa, 0%Z) val (last t) else last t)) (r t) (w t) (if t <? W then [(sa, Z.of_nat (t mod 32))] else []) []).
        { intros t Ht. destruct (INW 0 t Ht) as [_ Ht']. unfold run, release, L1. cbn [lp lg ls gr gw sr sw released]. unfold third, second, v2.
          rewrite (Nat.div_small t 32) by lia. cbn [Nat.eqb]. destruct (Nat.ltb_spec t W); [|reflexivity]. cbn [solo]. rewrite Nat.mod_small by lia. rewrite S1at by assumption. reflexivity. }
        eapply GpuWarp.weval_shuffles; [lia|intros t Ht; reflexivity|].
        apply we_stop. intros t Ht. unfold run, withp, L2. cbn [lp lg ls gr gw sr sw]. destruct (Nat.eqb_spec t 0) as [->|N].
        -- cbn [solo]. destruct (S1 (sa, 0%Z)) eqn:ES; [|exfalso; apply (S1ok 0%Z); [lia|exact ES]]. split; [|exact I]. unfold last, S2. rewrite EY. reflexivity.
        -- unfold last. cbn [solo]. split; [reflexivity|exact I].
      * apply we_stop. intros t Ht. destruct (INW (Datatypes.S u) t Ht) as [Hu' Ht']. unfold run, release, L1, L2. cbn [lp lg ls gr gw sr sw released]. unfold third, second.
        assert (Hd : t / 32 = Datatypes.S u) by apply Ht. rewrite Hd. cbn [Nat.eqb]. destruct (Nat.ltb_spec t W); [lia|]. destruct (Nat.eqb_spec t 0); [lia|]. unfold last. cbn [solo]. split; [reflexivity|exact I].
    + intros t t' a Ht Ht' N Hin. unfold L2 in *. cbn [sw sr] in *. destruct (Nat.eqb_spec t 0) as [->|E]; [|destruct Hin]. destruct Hin as [<-|[]]. split.
      * destruct (Nat.ltb_spec t' W); [|intros []]. intros [X1|[]]. apply (f_equal snd) in X1; cbn [snd] in X1. rewrite Nat.mod_small in X1 by lia. lia.
      * destruct (Nat.eqb_spec t' 0); [lia|intros []].
    + exists 0. split; [lia|exact I].
    + intros a. destruct (addr_dec (sa, 0%Z) a) as [<-|N].
      * left. exists 0. split; [lia|]. unfold L2. cbn [sw ls Nat.eqb]. split; [left; reflexivity|reflexivity].
      * right. split; [|apply upd_other, N]. intros t Ht. unfold L2. cbn [sw]. destruct (t =? 0); [intros [X1|[]]; contradiction|intros []].
    + intros t Ht. reflexivity.
    + apply (beval_same _ _ _ _ _ B). intros t Ht. unfold run, release, L2, last. cbn [lp lg ls gr gw sr sw released solo]. unfold S2 at 1. rewrite upd_same. reflexivity.
Qed.
End Block.
