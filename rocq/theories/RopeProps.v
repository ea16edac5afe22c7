(** C44: rotary position embedding. *)
From Coq Require Import ZArith List Bool Arith Lia Reals Lra.
From Verif Require CutModel.
From Verif Require Import ShapeModel ShapeSpec ShapeProofs TensorModel TensorSpec TensorLemmas BcastModel BufModel ReduceModel RopeModel RopeSpec RopeProofs.
Import ListNotations.
Open Scope R_scope.
Local Notation Rsum := (sum (K := Rring)).

(** ** The table holds the cosines and sines of position times frequency. *)
Theorem rope_table : forall headDim ctx theta sc, (headDim mod 2 = 0)%nat ->
  ropeInit headDim ctx theta sc = Ok (rotations (invFreq headDim theta sc) ctx headDim).
Proof. intros. apply ropeTable_ok, Nat.eqb_eq; auto. Qed.
(** Without scaling, pair [i] turns by [theta ^ (-2i/headDim)] per position; with
    scaling, long wave lengths are slowed down by the factor, short ones kept. *)
Theorem rope_frequencies : forall headDim theta i, 0 < theta -> invFreq headDim theta None i = Rpower theta (- (INR (2 * i) / INR headDim)).
Proof. intros. unfold invFreq, invFreq0. rewrite Rpower_Ropp. unfold Rdiv. ring. Qed.
Theorem rope_scaled_frequencies : forall headDim theta s i, let f := invFreq headDim theta None i in
  0 < lowFreq s -> lowFreq s < highFreq s -> 0 < origLen s -> 1 <= factor s ->
  (origLen s / lowFreq s < 2 * PI / f -> invFreq headDim theta (Some s) i = f / factor s) /\
  (2 * PI / f < origLen s / highFreq s -> invFreq headDim theta (Some s) i = f) /\
  f / factor s <= invFreq headDim theta (Some s) i <= f /\
  (** in between, linearly in the number of turns made over the original context:
      [lowFreq] turns give the slow end and [highFreq] turns the fast one *)
  (origLen s / highFreq s <= 2 * PI / f <= origLen s / lowFreq s ->
   (invFreq headDim theta (Some s) i - f / factor s) * (highFreq s - lowFreq s) = (f - f / factor s) * (origLen s / (2 * PI / f) - lowFreq s)).
Proof.
  intros headDim theta s i f H1 H2 H3 H4. unfold invFreq. change (invFreq0 headDim theta i) with f.
  assert (Hf : 0 < f). { unfold f, invFreq, invFreq0. apply Rdiv_lt_0_compat; [lra|]. apply exp_pos. }
  assert (HP : 0 < 2 * PI) by (pose proof PI_RGT_0; lra).
  assert (Hw : 0 < 2 * PI / f) by (apply Rdiv_lt_0_compat; auto).
  assert (Hle : f / factor s <= f). { apply Rmult_le_reg_r with (factor s); [lra|]. unfold Rdiv. rewrite Rmult_assoc, Rinv_l by lra. nra. }
  assert (HL : origLen s / highFreq s < origLen s / lowFreq s). { apply Rmult_lt_compat_l; auto. apply Rinv_lt_contravar; auto. nra. }
  unfold rescale. cbv zeta. set (w := 2 * PI / f) in *. clearbody w. split; [|split; [|split]].
  - intro H. destruct (Rlt_dec (origLen s / lowFreq s) w); [auto|lra].
  - intro H. destruct (Rlt_dec (origLen s / lowFreq s) w); [lra|]. destruct (Rlt_dec w (origLen s / highFreq s)); [auto|lra].
  - destruct (Rlt_dec (origLen s / lowFreq s) w) as [|N1]; [lra|]. destruct (Rlt_dec w (origLen s / highFreq s)) as [|N2]; [lra|].
    set (sm := (origLen s / w - lowFreq s) / (highFreq s - lowFreq s)).
    assert (0 <= sm <= 1).
    { apply Rnot_lt_le in N1, N2.
      assert (A1 : lowFreq s <= origLen s / w).
      { apply Rmult_le_reg_r with w; auto. replace (origLen s / w * w) with (origLen s) by (field; lra).
        apply Rmult_le_compat_l with (r := lowFreq s) in N1; [|lra]. replace (lowFreq s * (origLen s / lowFreq s)) with (origLen s) in N1 by (field; lra). lra. }
      assert (A2 : origLen s / w <= highFreq s).
      { apply Rmult_le_reg_r with w; auto. replace (origLen s / w * w) with (origLen s) by (field; lra).
        apply Rmult_le_compat_l with (r := highFreq s) in N2; [|lra]. replace (highFreq s * (origLen s / highFreq s)) with (origLen s) in N2 by (field; lra). lra. }
      unfold sm. split.
      - apply Rmult_le_reg_r with (highFreq s - lowFreq s); [lra|]. unfold Rdiv. rewrite Rmult_assoc, Rinv_l by lra. lra.
      - apply Rmult_le_reg_r with (highFreq s - lowFreq s); [lra|]. unfold Rdiv at 1. rewrite (Rmult_assoc _ (/ (highFreq s - lowFreq s))), Rinv_l by lra. lra. }
    clearbody sm. split; nra.
  - intros [W1 W2]. destruct (Rlt_dec (origLen s / lowFreq s) w) as [|N1]; [lra|]. destruct (Rlt_dec w (origLen s / highFreq s)) as [|N2]; [lra|]. field. lra.
Qed.
(** ** Within the context, every pair [(i, i + headDim/2)] of row [t] is rotated by
    the angle of position [off + t]. *)
Theorem rope_value_partial : forall B H Sq D F f ctx off, (D mod 2 = 0)%nat -> (off + Sq <= ctx)%nat ->
  exists G, ropeApply (tensor_of [B; H; Sq; D] F) (rotations f ctx D) (Z.of_nat off) = Ok (tensor_of [B; H; Sq; D] G) /\
  forall b h t i, (i < D / 2)%nat -> let a := INR (off + t) * f i in let j := (i + D / 2)%nat in
    G [b; h; t; i] = F [b; h; t; i] * cos a - F [b; h; t; j] * sin a /\
    G [b; h; t; j] = F [b; h; t; i] * sin a + F [b; h; t; j] * cos a /\
    (** the norm of the pair is kept *)
    G [b; h; t; i] * G [b; h; t; i] + G [b; h; t; j] * G [b; h; t; j] = F [b; h; t; i] * F [b; h; t; i] + F [b; h; t; j] * F [b; h; t; j].
Proof.
  intros B H Sq D F f ctx off He Hc. apply Nat.eqb_eq in He. eexists. split; [apply ropeApply_ok; auto|].
  intros b h t i Hi a j. unfold j. rewrite !rotated_low, !rotated_high by auto. cbv beta. fold a. split; [auto|]. split; [ring|].
  pose proof (cs1 a) as E. match goal with |- ?l = ?r => assert (l - r = (F [b; h; t; i] * F [b; h; t; i] + F [b; h; t; (i + D / 2)%nat] * F [b; h; t; (i + D / 2)%nat]) * (cos a * cos a + sin a * sin a - 1)) by ring end.
  rewrite E in H0. lra.
Qed.
(** So are the squared length of each row and every inner product of rows at one position. *)
Theorem rope_norm_partial : forall B H Sq D F F' f ctx off, (D mod 2 = 0)%nat -> (off + Sq <= ctx)%nat ->
  exists G G', ropeApply (tensor_of [B; H; Sq; D] F) (rotations f ctx D) (Z.of_nat off) = Ok (tensor_of [B; H; Sq; D] G) /\
  ropeApply (tensor_of [B; H; Sq; D] F') (rotations f ctx D) (Z.of_nat off) = Ok (tensor_of [B; H; Sq; D] G') /\
  forall b h t, score D G G' b h t t = score D F F' b h t t.
Proof.
  intros B H Sq D F F' f ctx off He Hc. apply Nat.eqb_eq in He. do 2 eexists. split; [apply ropeApply_ok; auto|]. split; [apply ropeApply_ok; auto|].
  intros b h t. rewrite scores_rotated by auto. unfold score. rewrite (sum_pairs _ D) by (apply even_half; auto). apply SoftmaxProofs.Rsum_ext. intros i Hi. cbv zeta.
  replace (INR (off + t) - INR (off + t)) with 0 by ring. rewrite Rmult_0_l, cos_0, sin_0. ring.
Qed.
(** ** The opposite rotation gives the input back, in either order. *)
Theorem rope_undone_partial : forall B H Sq D F f ctx off, (D mod 2 = 0)%nat -> (off + Sq <= ctx)%nat ->
  let x := tensor_of [B; H; Sq; D] F in
  CutModel.rbind (ropeApply x (rotations f ctx D) (Z.of_nat off)) (fun y => ropeApply y (opposite f ctx D) (Z.of_nat off)) = Ok x /\
  CutModel.rbind (ropeApply x (opposite f ctx D) (Z.of_nat off)) (fun y => ropeApply y (rotations f ctx D) (Z.of_nat off)) = Ok x.
Proof.
  intros B H Sq D F f ctx off He Hc x. apply Nat.eqb_eq in He. unfold x, rotations, opposite. rewrite !ropeApply_ok by auto. cbn [CutModel.rbind]. rewrite !ropeApply_ok by auto.
  pose proof (even_half D He) as Eh.
  split; f_equal; apply tensor_of_ext; intros idx V; apply valid4 in V; destruct V as (b & h & t & j & -> & Hb & Hh & Ht & Hj);
    (assert (Hcase : (j < D / 2)%nat \/ exists i, j = (i + D / 2)%nat /\ (i < D / 2)%nat) by (destruct (Nat.lt_ge_cases j (D / 2)); [left; auto|right; exists (j - D / 2)%nat; lia]));
    destruct Hcase as [Hi|(i & -> & Hi)]; rewrite ?rotated_low, ?rotated_high by auto; rewrite ?rotated_low, ?rotated_high by auto.
  all: match goal with |- context [cos ?a] => pose proof (cs1 a) as E; set (co := cos a) in *; set (si := sin a) in * end.
  all: match goal with |- ?l = ?r => transitivity (r * (co * co + si * si)); [ring|]; rewrite E; ring end.
Qed.
(** ** Attention scores depend only on the position difference: shifting the
    offsets of the queries and of the keys together changes no score. *)
Theorem rope_relative_partial : forall B H Sq Sk D Q K f ctx oq ok oq' ok', (D mod 2 = 0)%nat ->
  (oq + Sq <= ctx)%nat -> (ok + Sk <= ctx)%nat -> (oq' + Sq <= ctx)%nat -> (ok' + Sk <= ctx)%nat ->
  (Z.of_nat oq - Z.of_nat ok = Z.of_nat oq' - Z.of_nat ok')%Z ->
  exists G G' L L',
    ropeApply (tensor_of [B; H; Sq; D] Q) (rotations f ctx D) (Z.of_nat oq) = Ok (tensor_of [B; H; Sq; D] G) /\
    ropeApply (tensor_of [B; H; Sk; D] K) (rotations f ctx D) (Z.of_nat ok) = Ok (tensor_of [B; H; Sk; D] L) /\
    ropeApply (tensor_of [B; H; Sq; D] Q) (rotations f ctx D) (Z.of_nat oq') = Ok (tensor_of [B; H; Sq; D] G') /\
    ropeApply (tensor_of [B; H; Sk; D] K) (rotations f ctx D) (Z.of_nat ok') = Ok (tensor_of [B; H; Sk; D] L') /\
    forall b h t t', score D G L b h t t' = score D G' L' b h t t'.
Proof.
  intros B H Sq Sk D Q K f ctx oq ok oq' ok' He H1 H2 H3 H4 Ho. apply Nat.eqb_eq in He. do 4 eexists. repeat (split; [apply ropeApply_ok; auto|]).
  intros b h t t'. rewrite !scores_rotated by auto. apply SoftmaxProofs.Rsum_ext. intros i Hi. cbv zeta.
  replace (INR (oq' + t) - INR (ok' + t')) with (INR (oq + t) - INR (ok + t')); auto.
  rewrite !INR_IZR_INZ, <- !minus_IZR. f_equal. lia.
Qed.
(** ** Rejections. *)
Theorem rope_rejects : (forall headDim ctx theta sc, (headDim mod 2 = 1)%nat -> ropeInit headDim ctx theta sc = Fail) /\
  (forall x rope off, length (tshape x) <> 4%nat -> ropeApply x rope off = Fail) /\
  (forall x rope off, (last (tshape x) 0 mod 2 = 1)%nat -> ropeApply x rope off = Fail).
Proof.
  split; [|split].
  - intros headDim ctx theta sc E. unfold ropeInit, ropeTable. rewrite E. auto.
  - intros x rope off E. unfold ropeApply. destruct (tshape x) as [|a [|b [|c [|d [|e l]]]]]; auto. simpl in E. lia.
  - intros x rope off E. unfold ropeApply. destruct (tshape x) as [|a [|b [|c [|d [|e l]]]]]; auto. cbn [last] in E. rewrite E. auto.
Qed.
(** ** Nothing checks the position: as soon as one row is outside the context
    (before it or after it), memory outside the table is read. *)
Theorem rope_context_refuted : forall B H Sq D F f ctx off t, (D mod 2 = 0)%nat -> (0 < B)%nat -> (0 < H)%nat -> (0 < D)%nat -> (t < Sq)%nat ->
  (off + Z.of_nat t < 0 \/ Z.of_nat ctx <= off + Z.of_nat t)%Z -> ropeApply (tensor_of [B; H; Sq; D] F) (rotations f ctx D) off = UB.
Proof. intros. apply rope_past with B H Sq t; auto; [apply Nat.eqb_eq; auto|lia]. Qed.

Example rope_case : exists G, ropeApply (tensor_of [1; 1; 2; 4]%nat (fun idx => INR (nth 3 idx 0%nat))) (rotations (fun i => INR (1 - i) * PI) 3 4) 1 = Ok (tensor_of [1; 1; 2; 4]%nat G) /\
  G [0; 0; 0; 2]%nat = - 2 /\ G [0; 0; 0; 3]%nat = 3 /\ G [0; 0; 1; 2]%nat = 2.
Proof.
  destruct (rope_value_partial 1 1 2 4 (fun idx => INR (nth 3 idx 0%nat)) (fun i => INR (1 - i) * PI) 3 1) as (G & E & V); [reflexivity|lia|].
  exists G. split; [exact E|].
  destruct (V 0 0 0 0)%nat as (_ & V1 & _); [cbn; lia|]. destruct (V 0 0 0 1)%nat as (_ & V2 & _); [cbn; lia|]. destruct (V 0 0 1 0)%nat as (_ & V3 & _); [cbn; lia|].
  cbn in V1, V2, V3. rewrite V1, V2, V3. replace (1 * (1 * PI)) with PI by ring. replace (1 * (0 * PI)) with 0 by ring. replace ((1 + 1) * (1 * PI)) with (2 * PI) by ring.
  rewrite cos_PI, sin_PI, cos_0, sin_0, cos_2PI, sin_2PI. repeat split; lra.
Qed.
Example rope_shift_case : (1 + 2 <= 5 /\ 3 + 2 <= 5)%nat /\ (Z.of_nat 1 - Z.of_nat 0 = Z.of_nat 3 - Z.of_nat 2)%Z.
Proof. split; lia. Qed.
Example rope_scale_case : let s := mkScaling 8 4 1 8192 in 0 < lowFreq s /\ lowFreq s < highFreq s /\ 0 < origLen s /\ 1 <= factor s.
Proof. cbn. lra. Qed.

Print Assumptions rope_table.
Print Assumptions rope_frequencies.
Print Assumptions rope_scaled_frequencies.
Print Assumptions rope_value_partial.
Print Assumptions rope_norm_partial.
Print Assumptions rope_undone_partial.
Print Assumptions rope_relative_partial.
Print Assumptions rope_rejects.
Print Assumptions rope_context_refuted.
