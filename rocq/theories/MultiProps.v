(** C47: drawn categories are valid, of positive weight, and distinct without
    replacement. *)
From Coq Require Import ZArith Reals List Arith Bool Lia Lra.
From Flocq Require Import Core IEEE754.BinarySingleNaN IEEE754.Binary IEEE754.Bits.
From Verif Require Import ShapeModel ShapeSpec ShapeProofs TensorModel TensorSpec TensorLemmas BcastModel BufModel RopeProofs MultiModel MultiSpec MultiProofs MultiProofs2.
Import ListNotations.
Open Scope R_scope.

(** ** For ordinary weights and every outcome of the generator, a call with
    something left to draw each time returns valid draws for each row, and each
    draw is the category in whose share of the total weight the random number
    falls (sums and product rounded to single precision). *)
Theorem multinomial_draws_partial : forall B n k W replacement us, (0 < n)%nat -> (forall j, in_unit (us j)) ->
  (forall b i, (b < B)%nat -> (i < n)%nat -> ordinary (W [b; i])) ->
  (forall b, (b < B)%nat -> enough replacement k n (fun i => W [b; i])) ->
  exists G, multinomial (tensor_of [B; n] W) k replacement us = Ok (tensor_of [B; k] G) /\
    forall b, (b < B)%nat -> valid_draws replacement k n (fun i => W [b; i]) (fun s => G [b; s])
      /\ draws_by_weight replacement k n (fun i => W [b; i]) (fun s => us (b * k + s)%nat) (fun s => G [b; s]).
Proof.
  intros B n k W replacement us Hn Hus Hord Hen.
  destruct (rows_ok replacement (tdata (tensor_of [B; n] W)) n k us (fun b i => W [b; i]) Hus (seq 0 B)) as (rs & E & F).
  { intros b Hb. apply in_seq in Hb. split; [|split]; [|intros; apply Hord; lia|apply Hen; lia]. intros i Hi. rewrite <- (ravel2 B n b i). apply rd_of_idx. apply mk_valid2; lia. }
  apply rows_draws with (n := n) (k := k) in F. destruct F as [L V]. rewrite seq_length in L.
  exists (fun idx => nth (ravel [B; k] idx) (concat rs) 0%nat). split.
  - unfold multinomial. cbn [tshape tensor_of]. destruct (Nat.eqb_spec n 0); [lia|].
    change (mkT [B; n] (map W (indices [B; n]))) with (tensor_of [B; n] W). rewrite E. f_equal. apply (tensor_of_surj 0%nat (mkT [B; k] (concat rs))).
    unfold twf. cbn [tshape tdata]. rewrite L. unfold numel. simpl. lia.
  - intros b Hb. pose proof V as V'. specialize (V b b). rewrite LineProofs.nth_error_seq0 in V. destruct (Nat.ltb_spec b B); [|lia]. specialize (V eq_refl).
    split; [destruct V as (V1 & V2 & V3); split; [|split]; intros; rewrite ?ravel2 in *; eauto|].
    apply picks_ext with (W := fun i => W [b; i]) (u := fun s => us (b * k + s)%nat) (d := fun s => nth (b * k + s) (concat rs) 0%nat); auto.
    + intros s Hs. rewrite ravel2. split; auto. split; auto. apply V; auto.
    + apply (rows_picks replacement (tdata (tensor_of [B; n] W)) n k us (fun b i => W [b; i]) (seq 0 B)); auto.
      * intros b' Hb'. apply in_seq in Hb'. split; [|split]; [|intros; apply Hord; lia|apply Hen; lia]. intros i Hi. rewrite <- (ravel2 B n b' i). apply rd_of_idx. apply mk_valid2; lia.
      * intros p Hp. rewrite L in Hp. assert (k <> 0)%nat by lia. assert (p / k < B)%nat by (apply Nat.div_lt_upper_bound; lia).
        pose proof (V' (p / k) (p / k))%nat as V1. rewrite LineProofs.nth_error_seq0 in V1. destruct (Nat.ltb_spec (p / k) B); [|lia]. destruct (V1 eq_refl) as (V2 & _).
        specialize (V2 (p mod k)%nat ltac:(apply Nat.mod_upper_bound; auto)). replace (p / k * k + p mod k)%nat with p in V2; auto. rewrite (Nat.div_mod p k) at 1 by auto. lia.
      * rewrite LineProofs.nth_error_seq0. destruct (Nat.ltb_spec b B); [auto|lia].
Qed.
Theorem multinomial_draws_1d_partial : forall n k W replacement us, (0 < n)%nat -> (forall j, in_unit (us j)) ->
  (forall i, (i < n)%nat -> ordinary (W [i])) -> enough replacement k n (fun i => W [i]) ->
  exists G, multinomial (tensor_of [n] W) k replacement us = Ok (tensor_of [k] G) /\ valid_draws replacement k n (fun i => W [i]) (fun s => G [s])
    /\ draws_by_weight replacement k n (fun i => W [i]) us (fun s => G [s]).
Proof.
  intros n k W replacement us Hn Hus Hord Hen.
  destruct (rows_ok replacement (tdata (tensor_of [n] W)) n k us (fun b i => W [i]) Hus (seq 0 1)) as (rs & E & F).
  { intros b Hb. apply in_seq in Hb. split; [|split]; auto. intros i Hi. replace (b * n + i)%nat with (ravel [n] [i]) by (rewrite ravel1; lia). apply rd_of_idx. repeat constructor; auto. }
  apply rows_draws with (n := n) (k := k) in F. destruct F as [L V]. rewrite seq_length in L.
  exists (fun idx => nth (ravel [k] idx) (concat rs) 0%nat). split.
  - unfold multinomial. cbn [tshape tensor_of]. destruct (Nat.eqb_spec n 0); [lia|].
    change (mkT [n] (map W (indices [n]))) with (tensor_of [n] W). rewrite E. f_equal. apply (tensor_of_surj 0%nat (mkT [k] (concat rs))).
    unfold twf. cbn [tshape tdata]. rewrite L. unfold numel. simpl. lia.
  - specialize (V 0%nat 0%nat eq_refl). cbv beta in V. split; [eapply draws_ext; [|exact V]; intros s Hs; cbv beta; rewrite ravel1; auto|].
    destruct V as (V1 & _). cbn [Nat.mul Nat.add] in V1.
    apply picks_ext with (W := fun i => W [i]) (u := fun s => us (0 * k + s)%nat) (d := fun s => nth (0 * k + s) (concat rs) 0%nat); auto.
    + intros s Hs. rewrite ravel1. cbn [Nat.mul Nat.add]. split; auto.
    + apply (rows_picks replacement (tdata (tensor_of [n] W)) n k us (fun b i => W [i]) (seq 0 1)); auto.
      * intros b Hb. apply in_seq in Hb. split; [|split]; auto. intros i Hi. replace (b * n + i)%nat with (ravel [n] [i]) by (rewrite ravel1; lia). apply rd_of_idx. repeat constructor; auto.
      * intros p Hp. rewrite L in Hp. apply V1. simpl in Hp. lia.
Qed.
(** ** Otherwise, and for other ranks, the call is rejected. *)
Theorem multinomial_rejects : (forall t k replacement us, length (tshape t) <> 1%nat -> length (tshape t) <> 2%nat -> multinomial t k replacement us = Fail) /\
  (forall B n k W replacement us b, (0 < n)%nat -> (forall j, in_unit (us j)) -> (forall b i, (b < B)%nat -> (i < n)%nat -> ordinary (W [b; i])) ->
    (b < B)%nat -> ~ enough replacement k n (fun i => W [b; i]) -> multinomial (tensor_of [B; n] W) k replacement us = Fail) /\
  (forall n k W replacement us, (0 < n)%nat -> (forall j, in_unit (us j)) -> (forall i, (i < n)%nat -> ordinary (W [i])) ->
    ~ enough replacement k n (fun i => W [i]) -> multinomial (tensor_of [n] W) k replacement us = Fail).
Proof.
  split; [|split].
  - intros t k replacement us H1 H2. unfold multinomial. destruct (tshape t) as [|a [|b [|c l]]]; auto; simpl in *; lia.
  - intros B n k W replacement us b Hn Hus Hord Hb Hen. unfold multinomial. cbn [tshape tensor_of]. destruct (Nat.eqb_spec n 0); [lia|].
    change (mkT [B; n] (map W (indices [B; n]))) with (tensor_of [B; n] W). rewrite (rows_fail replacement _ n k us (fun b i => W [b; i])); auto.
    + intros b' Hb'. apply in_seq in Hb'. split; [|intros; apply Hord; lia]. intros i Hi. rewrite <- (ravel2 B n b' i). apply rd_of_idx. apply mk_valid2; lia.
    + exists b. split; auto. apply in_seq. lia.
  - intros n k W replacement us Hn Hus Hord Hen. unfold multinomial. cbn [tshape tensor_of]. destruct (Nat.eqb_spec n 0); [lia|].
    change (mkT [n] (map W (indices [n]))) with (tensor_of [n] W). rewrite (rows_fail replacement _ n k us (fun b i => W [i])); auto.
    + intros b' Hb'. apply in_seq in Hb'. split; auto. intros i Hi. replace (b' * n + i)%nat with (ravel [n] [i]) by (rewrite ravel1; lia). apply rd_of_idx. repeat constructor; auto.
    + exists 0%nat. split; auto. apply in_seq. lia.
Qed.
(** ** Where it fails.  [tiny] is the least normal number 2^-126 and [u1] the
    greatest float below 1: their product rounds back to [tiny], and the index
    past the last category is returned; without replacement, its weight is then
    cleared, outside the array. *)
Definition u1 : binary32 := b32_of_bits 0x3F7FFFFF.
Definition tiny : binary32 := b32_of_bits 0x00800000.
Definition huge : binary32 := b32_of_bits 0x7F7FFFFF.
Definition one32 : binary32 := b32_of_bits 0x3F800000.
Theorem u1_in_unit : in_unit u1 /\ val u1 = 1 - bpow radix2 (-24) /\ val tiny = bpow radix2 (-126).
Proof.
  assert (E : val u1 = 1 - bpow radix2 (-24)) by (cbv [u1 val]; cbn; unfold F2R; cbn; lra).
  split; [split; [reflexivity|]|split; [auto|]].
  - rewrite E. cbn. lra.
  - cbv [tiny val]. cbn. unfold F2R. cbn. lra.
Qed.
Theorem multinomial_tiny_refuted : multinomial (mkT [1%nat] [tiny]) 1 true (fun _ => u1) = Ok (mkT [1%nat] [1%nat]) /\
  multinomial (mkT [1%nat] [tiny]) 1 false (fun _ => u1) = UB.
Proof. split; vm_compute; reflexivity. Qed.
(** Finite weights whose sum overflows: every draw, also [u = 0], gives the index
    past the last category. *)
Theorem multinomial_overflow_refuted : multinomial (mkT [2%nat] [huge; huge]) 2 true (fun j => if (j =? 0)%nat then u1 else f0) = Ok (mkT [2%nat] [2; 2]%nat) /\
  multinomial (mkT [2%nat] [huge; huge]) 1 false (fun _ => one32) = UB.
Proof. split; vm_compute; reflexivity. Qed.
(** Negative weights are not rejected: 1, -1/2, 1 can give undefined behaviour, and
    2, -1 is accepted although category 1 is never drawn. *)
Theorem multinomial_negative_refuted : let h := b32_of_bits 0x3F000000 in
  multinomial (mkT [3%nat] [one32; b32_opp h; one32]) 1 true (fun _ => h) = UB /\
  multinomial (mkT [2%nat] [b32_plus mode_NE one32 one32; b32_opp one32]) 1 true (fun _ => h) = Ok (mkT [1%nat] [0%nat]).
Proof. split; vm_compute; reflexivity. Qed.
(** No category at all: the result is returned uninitialised. *)
Theorem multinomial_empty_refuted : forall us replacement, multinomial (mkT [0%nat] []) 1 replacement us = UB.
Proof. reflexivity. Qed.

(** Weights 1, 0, 2 with draws 1/2, 0: category 2, then category 0. *)
Example multinomial_case : let h := b32_of_bits 0x3F000000 in let two := b32_of_bits 0x40000000 in
  multinomial (mkT [3%nat] [one32; f0; two]) 2 false (fun j => if (j =? 0)%nat then h else f0) = Ok (mkT [2%nat] [2; 0]%nat) /\
  in_unit h /\ ordinary one32 /\ ordinary f0 /\ ordinary two.
Proof.
  cbv zeta. split; [vm_compute; reflexivity|].
  assert (V1 : val one32 = 1) by (cbv [one32 val]; cbn; unfold F2R; cbn; lra).
  assert (V2 : val (b32_of_bits 0x40000000) = 2) by (cbv [val]; cbn; unfold F2R; cbn; lra).
  assert (Vh : val (b32_of_bits 0x3F000000) = 1 / 2) by (cbv [val]; cbn; unfold F2R; cbn; lra).
  split; [split; [reflexivity|rewrite Vh; lra]|].
  assert (B1 : bpow radix2 (-126) < 1) by (change 1 with (bpow radix2 0); apply bpow_lt; lia).
  assert (B2 : 2 < bpow radix2 103) by (change 2 with (bpow radix2 1); apply bpow_lt; lia).
  split; [split; [reflexivity|right; rewrite V1; lra]|]. split; [split; [reflexivity|left; reflexivity]|split; [reflexivity|right; rewrite V2; lra]].
Qed.
Example multinomial_enough_case : forall W, (forall i, val (W i) = 1) -> enough false 2 3 W.
Proof. intros W H. right. unfold drawable. cbn [seq filter]. rewrite !H, Rlt_bool_true by lra. simpl. lia. Qed.

Print Assumptions multinomial_draws_partial.
Print Assumptions multinomial_draws_1d_partial.
Print Assumptions multinomial_rejects.
Print Assumptions u1_in_unit.
Print Assumptions multinomial_tiny_refuted.
Print Assumptions multinomial_overflow_refuted.
Print Assumptions multinomial_negative_refuted.
Print Assumptions multinomial_empty_refuted.
