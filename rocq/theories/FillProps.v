(** C55: arange and linspace. *)
From Coq Require Import ZArith List Bool Arith Reals Lia ZifyBool Lra Psatz.
From Flocq Require Import Core.Raux.
From Verif Require Import ShapeModel ShapeSpec ShapeProofs TensorModel TensorSpec TensorLemmas BcastModel FillModel.
Import ListNotations.

Lemma fill_of {A} add mul cast (start step : A) n :
  fillLinSpace add mul cast start step (Z.of_nat n) = Ok (tensor_of [n] (fun i => add start (mul (cast (Z.of_nat (nth 0 i 0))) step))).
Proof.
  unfold fillLinSpace. replace (Z.of_nat n <? 0)%Z with false by lia. rewrite Nat2Z.id. unfold tensor_of. f_equal. f_equal.
  rewrite <- (map_seq_indices [n] (fun i => add start (mul (cast (Z.of_nat (nth 0 i 0))) step))). replace (numel [n]) with n by (cbn; lia).
  apply map_ext_in. intros i Hi. apply in_seq in Hi.
  assert (E : offsetToIndices [n] i = [i]) by (rewrite <- (o2i_ravel [n] [i]) by (repeat constructor; lia); f_equal; cbn; lia).
  rewrite E. reflexivity.
Qed.

(** ** Floating point (exact arithmetic): the elements are start + i*step for
    exactly those i for which this lies before stop. *)
Theorem arange_real : forall start stop step, (step <> 0)%R -> (0 <= (stop - start) / step)%R ->
  exists n, arangeR start stop step = Ok (tensor_of [n] (fun i => start + INR (nth 0 i 0%nat) * step)%R) /\
    (forall i, i < n <-> (if Rlt_dec 0 step then start + INR i * step < stop else start + INR i * step > stop)%R).
Proof.
  intros start stop step Hs Hq. set (q := ((stop - start) / step)%R) in *. assert (Hc : (0 <= Zceil q)%Z).
  { apply le_IZR. apply Rle_trans with q; [exact Hq|apply Zceil_ub]. }
  exists (Z.to_nat (Zceil q)). split.
  - unfold arangeR. destruct (Req_EM_T step 0); [lra|]. fold q. rewrite <- (Z2Nat.id (Zceil q)) at 1 by auto. rewrite fill_of. f_equal. apply tensor_of_ext. intros idx _.
    rewrite <- INR_IZR_INZ. auto.
  - intro i. assert (E : i < Z.to_nat (Zceil q) <-> (INR i < q)%R).
    { rewrite INR_IZR_INZ. split; intro H.
      - assert (H' : (Z.of_nat i <= Zceil q - 1)%Z) by lia. apply Rnot_le_lt. intro H2. apply Zceil_glb in H2. lia.
      - assert (H' : (Z.of_nat i < Zceil q)%Z) by (apply lt_IZR; apply Rlt_le_trans with q; [auto|apply Zceil_ub]). lia. }
    rewrite E. assert (Eq : (q * step = stop - start)%R) by (unfold q; field; auto). destruct (Rlt_dec 0 step) as [P|P].
    + split; intro H; [nra|]. apply Rnot_le_lt. intro H2. nra.
    + assert (N : (step < 0)%R) by lra. split; intro H; [nra|]. apply Rnot_le_lt. intro H2. nra.
Qed.
(** A step in the wrong direction: nothing before stop; accepted only while
    |stop - start| is less than |step|. *)
Theorem arange_real_wrong_way_partial : forall start stop step, (step <> 0)%R -> (-1 < (stop - start) / step <= 0)%R ->
  arangeR start stop step = Ok (tensor_of [0] (fun _ => start)).
Proof.
  intros start stop step Hs Hq. unfold arangeR. destruct (Req_EM_T step 0); [lra|]. rewrite (Zceil_imp 0).
  - exact (fill_of Rplus Rmult IZR start step 0).
  - simpl. lra.
Qed.
(** ** Integers: correct when the step divides the length of the range. *)
Theorem arange_int_partial : forall start step n, (step <> 0)%Z ->
  arangeZ start (start + Z.of_nat n * step) step = Ok (tensor_of [n] (fun i => start + Z.of_nat (nth 0 i 0%nat) * step)%Z) /\
  (forall i, i < n <-> (if 0 <? step then start + Z.of_nat i * step < start + Z.of_nat n * step else start + Z.of_nat i * step > start + Z.of_nat n * step)%Z).
Proof.
  intros start step n Hs. split.
  - unfold arangeZ. replace (step =? 0)%Z with false by lia. replace (start + Z.of_nat n * step - start)%Z with (Z.of_nat n * step)%Z by lia. rewrite Z.quot_mul by auto. apply fill_of.
  - intro i. destruct (Z.ltb_spec 0 step); nia.
Qed.
(** In particular arange(0, n). *)
(** Nothing lies before stop in that direction, by less than a step: empty. *)
Theorem arange_int_wrong_way_partial : forall start stop step, (step <> 0)%Z -> (Z.abs (stop - start) < Z.abs step)%Z ->
  ((stop - start) * step <= 0)%Z -> arangeZ start stop step = Ok (tensor_of [0%nat] (fun _ => 0%Z)).
Proof.
  intros start stop step Hs Ha Hw. unfold arangeZ. replace (step =? 0)%Z with false by lia.
  replace (Z.quot (stop - start) step) with 0%Z; [reflexivity|]. symmetry. apply Z.quot_small_iff; auto.
Qed.
Theorem arange_count : forall n, arangeZ 0 (Z.of_nat n) 1 = Ok (tensor_of [n] (fun i => Z.of_nat (nth 0 i 0%nat))).
Proof.
  intro n. destruct (arange_int_partial 0 1 n) as [E _]; [lia|]. rewrite Z.add_0_l, Z.mul_1_r in E. rewrite E. f_equal. apply tensor_of_ext. intros idx _. lia.
Qed.
(** ** Otherwise the last value before stop is always missing. *)
Theorem arange_int_refuted : forall start stop step, (0 < step)%Z -> (start < stop)%Z -> ~ (step | stop - start)%Z ->
  exists n, arangeZ start stop step = Ok (tensor_of [n] (fun i => start + Z.of_nat (nth 0 i 0%nat) * step)%Z) /\ (start + Z.of_nat n * step < stop)%Z.
Proof.
  intros start stop step Hs Hl Hd. exists (Z.to_nat (Z.quot (stop - start) step)). assert (Hq : (0 <= Z.quot (stop - start) step)%Z) by (apply Z.quot_pos; lia). split.
  - unfold arangeZ. replace (step =? 0)%Z with false by lia. rewrite <- (Z2Nat.id (Z.quot (stop - start) step)) at 1 by auto. apply fill_of.
  - rewrite Z2Nat.id by auto. pose proof (Z.quot_rem (stop - start) step ltac:(lia)) as E. pose proof (Z.rem_bound_pos (stop - start) step ltac:(lia) Hs) as [B1 B2].
    assert (Z.rem (stop - start) step <> 0)%Z; [|lia]. intro E0. apply Hd. exists (Z.quot (stop - start) step). lia.
Qed.
(** A zero step, or one in the wrong direction, is not rejected. *)
Theorem arange_bad_step_refuted : (forall start stop, arangeZ start stop 0 = UB) /\ (forall start stop step, (step < 0 -> stop - start >= - step -> arangeZ start stop step = UB)%Z).
Proof.
  split; [reflexivity|]. intros start stop step Hs Hl. unfold arangeZ, fillLinSpace. replace (step =? 0)%Z with false by lia.
  assert (Z.quot (stop - start) step < 0)%Z; [|replace (_ <? 0)%Z with true by lia; auto].
  replace step with (- (- step))%Z by lia. rewrite Z.quot_opp_r by lia. pose proof (Z.quot_str_pos (stop - start) (- step) ltac:(lia)). lia.
Qed.

(** ** linspace: n evenly spaced values; with two or more, from a to b inclusive. *)
Theorem linspace_real : forall a b n, exists F, linspaceR a b (Z.of_nat (S n)) = Ok (tensor_of [S n] F) /\ F [0] = a
  /\ (1 <= n -> F [n] = b) /\ forall i, i < n -> (F [S i] - F [i] = (b - a) / INR n)%R.
Proof.
  intros a b n. exists (fun i => (a + INR (nth 0 i 0%nat) * (if (1 <? Z.of_nat (S n))%Z then (b - a) / IZR (Z.of_nat (S n) - 1) else 0))%R). split.
  - unfold linspaceR. replace (0 <? Z.of_nat (S n))%Z with true by lia. rewrite fill_of. f_equal. apply tensor_of_ext. intros idx _. rewrite <- INR_IZR_INZ. auto.
  - cbn [nth]. replace (Z.of_nat (S n) - 1)%Z with (Z.of_nat n) by lia. rewrite <- INR_IZR_INZ. split; [simpl; lra|].
    assert (P : 1 <= n -> (0 < INR n)%R) by (intro; apply lt_0_INR; lia). split.
    + intro Hn. specialize (P Hn). replace (1 <? Z.of_nat (S n))%Z with true by lia. field. lra.
    + intros i Hi. assert (P' := P ltac:(lia)). replace (1 <? Z.of_nat (S n))%Z with true by lia. rewrite S_INR. field. lra.
Qed.
Theorem linspace_int_partial : forall a s n, exists F, linspaceZ a (a + Z.of_nat n * s) (Z.of_nat (S n)) = Ok (tensor_of [S n] F) /\ F [0] = a
  /\ F [n] = (a + Z.of_nat n * s)%Z /\ forall i, i < n -> (F [S i] - F [i] = s)%Z.
Proof.
  intros a s n. exists (fun i => (a + Z.of_nat (nth 0 i 0%nat) * (if 1 <? Z.of_nat (S n) then s else 0))%Z). split.
  - unfold linspaceZ. replace (0 <? Z.of_nat (S n))%Z with true by lia. replace (Z.of_nat (S n) - 1)%Z with (Z.of_nat n) by lia.
    replace (a + Z.of_nat n * s - a)%Z with (s * Z.of_nat n)%Z by lia.
    replace (if (1 <? Z.of_nat (S n))%Z then Z.quot (s * Z.of_nat n) (Z.of_nat n) else 0%Z) with (if (1 <? Z.of_nat (S n))%Z then s else 0%Z).
    + apply fill_of.
    + destruct (Z.ltb_spec 1 (Z.of_nat (S n))); auto. rewrite Z.quot_mul by lia. auto.
  - cbn [nth]. split; [lia|]. split; [|intros i Hi; replace (1 <? Z.of_nat (S n))%Z with true by lia; lia].
    destruct n; [lia|]. replace (1 <? Z.of_nat (S (S n)))%Z with true by lia. auto.
Qed.
Theorem linspace_rejects : forall a b n, (n <= 0)%Z -> (forall x y, linspaceZ x y n = Fail) /\ linspaceR a b n = Fail.
Proof. intros a b n H. unfold linspaceR, linspaceZ. replace (0 <? n)%Z with false by lia. auto. Qed.
(** Integers that do not divide evenly: the end is not reached. *)
Theorem linspace_int_refuted : linspaceZ 0 5 3 = Ok (mkT [3] [0; 2; 4]%Z) /\ linspaceZ 0 3 5 = Ok (mkT [5] [0; 0; 0; 0; 0]%Z).
Proof. split; reflexivity. Qed.

Example arange_case : arangeZ 7 (-2) (-3) = Ok (mkT [3] [7; 4; 1]%Z) /\ arangeZ 0 5 2 = Ok (mkT [2] [0; 2]%Z) /\ (0 <= (5 - 0) / 2)%R.
Proof. split; [reflexivity|split; [reflexivity|lra]]. Qed.

Print Assumptions arange_real.
Print Assumptions arange_real_wrong_way_partial.
Print Assumptions arange_int_partial.
Print Assumptions arange_int_wrong_way_partial.
Print Assumptions arange_count.
Print Assumptions arange_int_refuted.
Print Assumptions arange_bad_step_refuted.
Print Assumptions linspace_real.
Print Assumptions linspace_int_partial.
Print Assumptions linspace_rejects.
Print Assumptions linspace_int_refuted.
