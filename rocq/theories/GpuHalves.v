(* cudaBlockReduce taken apart: some warps may be ahead of the others. *)
From Coq Require Import List Arith ZArith Bool Lia Permutation.
From Verif Require Import GpuModel GpuSpec GpuProofs GpuLemmas GpuWarp CudaModel CudaReduceModel CudaReduceProofs CudaLineModel GpuBlock GpuLines.
Import ListNotations.
Local Open Scope nat_scope.

Section Halves.
Context {V : Type}.
Variable m : addr -> cell V.
Variable out : nat.

(* a barrier *)
Lemma gets_sync : forall BD S (P : nat -> thr V) c Q, 0 < BD -> gets m out BD S P (fun _ => []) Q -> gets m out BD S (fun t => Sync (P t)) c Q.
Proof.
  intros BD S P c Q HB G r HR. destruct (G r HR) as (Lf & B & HQ). exists Lf. split; [|exact HQ].
  eapply (be_sync BD S _ (lanes m S (fun t => Sync (P t)) r c) S).
  - intros u Hu. apply we_stop. intros t _. split; [reflexivity|exact I].
  - intros t t' a _ _ _ [].
  - exists 0. split; [exact HB|exact I].
  - intros a. right. split; [intros t _ []|reflexivity].
  - intros t _. reflexivity.
  - exact B.
Qed.

(* some threads load from shared memory *)
Lemma gets_sld_if : forall BD S (act : nat -> bool) (P : nat -> V -> thr V) (P' : nat -> thr V) a v c Q, S a = Some (Some v) ->
  gets m out BD S (fun t => if act t then P t v else P' t) (fun t => if act t then a :: c t else c t) Q ->
  gets m out BD S (fun t => if act t then SLd a (P t) else P' t) c Q.
Proof.
  intros BD S act P P' a v c Q E G r HR. eapply ends_run; [|apply (G r HR)]. intros t Ht. unfold run, lanes. cbn [lp lg ls gr gw sr sw]. destruct (act t); [|reflexivity].
  cbn [solo]. rewrite E. reflexivity.
Qed.

Variable op : V -> V -> V.

Definition stored (S : addr -> cell V) (sa W : nat) (act : nat -> bool) (X : nat -> V) : addr -> cell V :=
  fun a => if ((fst a =? sa)%nat && (0 <=? snd a)%Z && (snd a <? Z.of_nat W)%Z) && act (Z.to_nat (snd a)) then Some (Some (X (Z.to_nat (snd a)))) else S a.

Lemma stored_at : forall S sa W act X u, u < W -> act u = true -> stored S sa W act X (sa, Z.of_nat u) = Some (Some (X u)).
Proof.
  intros S sa W act X u Hu Hx. unfold stored. cbn [fst snd]. rewrite Nat.eqb_refl, Nat2Z.id, Hx. destruct (Z.leb_spec 0 (Z.of_nat u)); [|lia]. destruct (Z.ltb_spec (Z.of_nat u) (Z.of_nat W)); [|lia]. reflexivity.
Qed.
Lemma stored_off : forall S sa W act X a, fst a <> sa -> stored S sa W act X a = S a.
Proof. intros S sa W act X a N. unfold stored. destruct (Nat.eqb_spec (fst a) sa); [contradiction|reflexivity]. Qed.
Lemma stored_not : forall S sa W act X u, act u = false -> stored S sa W act X (sa, Z.of_nat u) = S (sa, Z.of_nat u).
Proof. intros S sa W act X u Hx. unfold stored. cbn [fst snd]. rewrite Nat2Z.id, Hx, andb_false_r. reflexivity. Qed.
Lemma stored_some : forall S sa W act X a, S a <> None -> stored S sa W act X a <> None.
Proof. intros S sa W act X a H. unfold stored. destruct (_ && _); [discriminate|exact H]. Qed.

(* the active warps add up and store, the others wait *)
Lemma gets_half1 : forall W S (act : nat -> bool) (k : nat -> thr V) c sa (f : nat -> V) Q, 0 < W <= 32 ->
  (forall u, u < W -> act u = true -> S (sa, Z.of_nat u) <> None) ->
  (forall t u, t < 32 * W -> u < W -> act u = true -> ~ In (sa, Z.of_nat u) (c t)) ->
  gets m out (32 * W) (stored S sa W act (fun u => shuf op offs32 f (32 * u))) k (fun _ => []) Q ->
  gets m out (32 * W) S (fun t => if act (t / 32) then warpReduce op (f t) (fun val => if t mod 32 =? 0 then SSt (sa, Z.of_nat (t / 32)) val (Sync (k t)) else Sync (k t)) else Sync (k t)) c Q.
Proof.
  intros W S act k c sa f Q HW HS HC G r HR. set (X := fun u => shuf op offs32 f (32 * u)). destruct (G r HR) as (Lf & B & HQ). exists Lf. split; [|exact HQ].
  set (L1 := fun t => mkLane m (if act (t / 32) && (t mod 32 =? 0) then upd S (sa, Z.of_nat (t / 32)) (Some (Some (X (t / 32)))) else S) (Sync (k t)) (r t) [] (c t)
                       (if act (t / 32) && (t mod 32 =? 0) then [(sa, Z.of_nat (t / 32))] else [])).
  assert (INW : forall u t, inw (32 * W) u t -> u < W /\ 32 * u <= t < 32 * u + 32) by (intros u t; apply in_warp).
  eapply (be_sync _ S _ L1 (stored S sa W act X)).
  - intros u Hu. destruct (act u) eqn:Hx.
    + apply GpuWarp.weval_run with (L' := fun t => mkLane m S (warpReduce op (f t) (fun val => if t mod 32 =? 0 then SSt (sa, Z.of_nat (t / 32)) val (Sync (k t)) else Sync (k t))) (r t) [] (c t) []).
      { intros t Ht. unfold lanes. rewrite (proj1 Ht), Hx. reflexivity. }
      eapply GpuWarp.weval_shuffles; [|intros t Ht; reflexivity|]; [lia|].
      apply we_stop. intros t Ht. destruct (INW u t Ht) as [Hu' Ht']. unfold run, withp, L1. cbn [lp lg ls gr gw sr sw]. assert (Hd : t / 32 = u) by apply Ht. rewrite Hd, Hx. cbn [andb]. destruct (Nat.eqb_spec (t mod 32) 0) as [E|E].
      * cbn [solo]. destruct (S (sa, Z.of_nat u)) eqn:ES; [|exfalso; apply (HS u Hu' Hx); exact ES]. split; [|exact I].
        assert (t = 32 * u) by (pose proof (Nat.div_mod t 32); lia). subst t. reflexivity.
      * cbn [solo]. split; [reflexivity|exact I].
    + apply we_stop. intros t Ht. unfold run, lanes, L1. cbn [lp lg ls gr gw sr sw]. rewrite (proj1 Ht), Hx. cbn [andb solo]. split; [reflexivity|exact I].
  - intros t t' a Ht Ht' N Hin. unfold L1 in *. cbn [sw sr] in *. assert (t / 32 < W) by (apply Nat.div_lt_upper_bound; lia).
    destruct (act (t / 32)) eqn:Hx; [|destruct Hin]. cbn [andb] in Hin. destruct (Nat.eqb_spec (t mod 32) 0) as [E|E]; [|destruct Hin]. destruct Hin as [<-|[]]. split.
    + apply HC; assumption.
    + destruct (act (t' / 32)); [|intros []]. cbn [andb]. destruct (Nat.eqb_spec (t' mod 32) 0) as [E'|E']; [|intros []]. intros [X1|[]]. apply (f_equal snd) in X1; cbn [snd] in X1. apply N. rewrite (Nat.div_mod t 32), (Nat.div_mod t' 32), E, E' by lia. apply (f_equal Z.to_nat) in X1. rewrite ?Nat2Z.id in X1. rewrite X1. reflexivity.
  - exists 0. split; [lia|exact I].
  - intros a. destruct (Nat.eq_dec (fst a) sa) as [Ef|N].
    2:{ right. split; [|apply stored_off, N]. intros t Ht. unfold L1. cbn [sw]. destruct (_ && _); [|intros []]. intros [<-|[]]. apply N. reflexivity. }
    destruct (Z_lt_le_dec (snd a) 0) as [Hz|Hz].
    { right. split.
      - intros t Ht. unfold L1. cbn [sw]. destruct (_ && _); [|intros []]. intros [<-|[]]. cbn [snd] in Hz. lia.
      - unfold stored. destruct (Z.leb_spec 0 (snd a)); [lia|]. rewrite andb_false_r. reflexivity. }
    set (u := Z.to_nat (snd a)). assert (Ea : a = (sa, Z.of_nat u)). { destruct a as [q z]. cbn [fst snd] in *. subst q. unfold u. cbn [snd]. rewrite Z2Nat.id by exact Hz. reflexivity. }
    rewrite Ea. destruct (act u) eqn:Hx.
    + destruct (Nat.lt_ge_cases u W) as [Hu|Hu].
      * left. exists (32 * u). split; [lia|]. unfold L1. cbn [sw ls].
        assert (Em : (32 * u) mod 32 = 0) by (rewrite Nat.mul_comm; apply Nat.mod_mul; lia). assert (Ed : (32 * u) / 32 = u) by (rewrite Nat.mul_comm; apply Nat.div_mul; lia).
        rewrite Em, Ed, Hx. cbn [andb Nat.eqb]. split; [left; reflexivity|]. rewrite upd_same. apply stored_at; assumption.
      * right. split.
        -- intros t Ht. unfold L1. cbn [sw]. destruct (_ && _); [|intros []]. intros [X1|[]]. apply (f_equal snd) in X1. cbn [snd] in X1. assert (t / 32 < W) by (apply Nat.div_lt_upper_bound; lia). lia.
        -- unfold stored. cbn [fst snd]. destruct (Z.ltb_spec (Z.of_nat u) (Z.of_nat W)); [lia|]. rewrite andb_false_r. reflexivity.
    + right. split; [|apply stored_not, Hx].
      intros t Ht. unfold L1. cbn [sw]. destruct (act (t / 32)) eqn:Hy; [|intros []]. cbn [andb]. destruct (t mod 32 =? 0); [|intros []]. intros [X1|[]]. apply (f_equal snd) in X1. cbn [snd] in X1. apply Nat2Z.inj in X1. congruence.
  - intros t Ht. reflexivity.
  - apply (beval_same _ _ _ _ _ B). intros t Ht. reflexivity.
Qed.

Variable e : V.

Definition combine2 (sa W : nat) (t : nat) (rest : thr V) : thr V :=
  let second val := if (t / 32 =? 0)%nat then warpReduce op val (fun val => if (t =? 0)%nat then SSt (sa, 0%Z) val (Sync rest) else Sync rest) else Sync rest in
  if (t <? W)%nat then SLd (sa, Z.of_nat (t mod 32)) second else second e.

Lemma blockReduce_halves : forall sa W t val k, 0 < W ->
  blockReduce sa op (32 * W) t val e k = warpReduce op val (fun val => if t mod 32 =? 0 then SSt (sa, Z.of_nat (t / 32)) val (Sync (combine2 sa W t (SLd (sa, 0%Z) k))) else Sync (combine2 sa W t (SLd (sa, 0%Z) k))).
Proof. intros sa W t val k HW. unfold blockReduce, combine2. replace (32 * W / 32) with W; [reflexivity|]. rewrite Nat.mul_comm. symmetry. apply Nat.div_mul. lia. Qed.

(* the first warp adds up the warps' results *)
Lemma gets_half2 : forall W S (X : nat -> V) (k : nat -> thr V) sa Q, 0 < W <= 32 -> (forall u, u < W -> S (sa, Z.of_nat u) = Some (Some (X u))) ->
  gets m out (32 * W) (upd S (sa, 0%Z) (Some (Some (shuf op offs32 (fun t => if t <? W then X t else e) 0)))) k (fun _ => []) Q ->
  gets m out (32 * W) S (fun t => combine2 sa W t (k t)) (fun _ => []) Q.
Proof.
  intros W S1 X k sa Q HW S1at G r HR. set (v2 := fun t => if t <? W then X t else e) in *. set (Y := shuf op offs32 v2 0) in *. destruct (G r HR) as (Lf & B & HQ). exists Lf. split; [|exact HQ].
  assert (INW : forall u t, inw (32 * W) u t -> u < W /\ 32 * u <= t < 32 * u + 32) by (intros u t; apply in_warp).
  set (S2 := upd S1 (sa, 0%Z) (Some (Some Y))) in *.
  set (L2 := fun t => mkLane m (if t =? 0 then S2 else S1) (Sync (k t)) (r t) [] (if t <? W then [(sa, Z.of_nat (t mod 32))] else []) (if t =? 0 then [(sa, 0%Z)] else [])).
  eapply (be_sync _ S1 _ L2 S2).
  - intros u Hu. destruct u as [|u].
    + apply GpuWarp.weval_run with (L' := fun t => mkLane m S1 (warpReduce op (v2 t) (fun val => if t =? 0 then SSt (sa, 0%Z) val (Sync (k t)) else Sync (k t))) (r t) [] (if t <? W then [(sa, Z.of_nat (t mod 32))] else []) []).
      { intros t Ht. destruct (INW 0 t Ht) as [_ Ht']. unfold run, lanes. cbn [lp lg ls gr gw sr sw]. unfold combine2, v2.
        rewrite (Nat.div_small t 32) by lia. cbn [Nat.eqb]. destruct (Nat.ltb_spec t W); [|reflexivity]. cbn [solo]. rewrite Nat.mod_small by lia. rewrite S1at by assumption. reflexivity. }
      eapply GpuWarp.weval_shuffles; [lia|intros t Ht; reflexivity|].
      apply we_stop. intros t Ht. unfold run, withp, L2. cbn [lp lg ls gr gw sr sw]. destruct (Nat.eqb_spec t 0) as [->|N].
      * cbn [solo]. pose proof (S1at 0 (proj1 HW)) as E0. cbn [Z.of_nat] in E0. rewrite E0. split; [reflexivity|exact I].
      * cbn [solo]. split; [reflexivity|exact I].
    + apply we_stop. intros t Ht. destruct (INW (S u) t Ht) as [Hu' Ht']. unfold run, lanes, L2. cbn [lp lg ls gr gw sr sw]. unfold combine2.
      assert (Hd : t / 32 = S u) by apply Ht. rewrite Hd. cbn [Nat.eqb]. destruct (Nat.ltb_spec t W); [lia|]. destruct (Nat.eqb_spec t 0); [lia|]. cbn [solo]. split; [reflexivity|exact I].
  - intros t t' a Ht Ht' N Hin. unfold L2 in *. cbn [sw sr] in *. destruct (Nat.eqb_spec t 0) as [->|E]; [|destruct Hin]. destruct Hin as [<-|[]]. split.
    + destruct (Nat.ltb_spec t' W); [|intros []]. intros [X1|[]]. apply (f_equal snd) in X1; cbn [snd] in X1. rewrite Nat.mod_small in X1 by lia. lia.
    + destruct (Nat.eqb_spec t' 0); [lia|intros []].
  - exists 0. split; [lia|exact I].
  - intros a. destruct (addr_dec (sa, 0%Z) a) as [<-|N].
    + left. exists 0. split; [lia|]. unfold L2. cbn [sw ls Nat.eqb]. split; [left; reflexivity|reflexivity].
    + right. split; [|apply upd_other, N]. intros t Ht. unfold L2. cbn [sw]. destruct (t =? 0); [intros [X1|[]]; contradiction|intros []].
  - intros t Ht. reflexivity.
  - apply (beval_same _ _ _ _ _ B). intros t Ht. reflexivity.
Qed.
End Halves.
