(** One rounding, sums of numbers and their bounds. *)
From Coq Require Import ZArith Reals List Bool Arith Lia Lra Psatz.
From Flocq Require Import Core Plus_error Relative IEEE754.BinarySingleNaN IEEE754.Binary IEEE754.Bits.
From Verif Require Import FloatModel FloatSpec Arith16Model Arith16Spec Arith16Proofs Arith16Proofs3 AccModel AccSpec.
Import ListNotations.
Open Scope R_scope.

Definition rnd (k : fkind) (v : R) : R := round radix2 (FLT_exp (3 - emaxOf k - precision k) (precision k)) ZnearestE v.
Lemma prec_pos k : (0 < precision k)%Z.
Proof. destruct k; reflexivity. Qed.
Global Instance prec_gt k : Prec_gt_0 (precision k).
Proof. exact (prec_pos k). Qed.
Lemma emin_nonpos k : (3 - emaxOf k - precision k <= 0)%Z.
Proof. destruct k; cbn; lia. Qed.

(** * One operation *)
Definition oper (b : bool) : operator := if b then OpAdd else OpMul.
Definition fop (k : fkind) (b : bool) : Z -> Z -> Z := if b then fadd k else fmul k.
Definition rop (b : bool) (x y : R) : R := if b then x + y else x * y.
Lemma float_step p e hp he nan b (x y : binary_float p e) : let z := ieee p e hp he nan (oper b) x y in let r := round radix2 (FLT_exp (3 - e - p) p) ZnearestE (rop b (B2R p e x) (B2R p e y)) in
  (is_finite p e z = true -> is_finite p e x = true /\ is_finite p e y = true /\ B2R p e z = r)
  /\ (is_finite p e x = true -> is_finite p e y = true -> Rabs r < bpow radix2 e -> is_finite p e z = true).
Proof.
  cbv zeta. assert (E : is_finite p e (ieee p e hp he nan (oper b) x y) = true -> is_finite p e x = true /\ is_finite p e y = true).
  { destruct b; cbn [oper ieee]; destruct x as [sx|sx|sx px hx|sx mx ex hx], y as [sy|sy|sy py hy|sy my ey hy]; try (intros; split; reflexivity);
      cbv [Bplus Bmult build_nan]; try (destruct (nan _ _) as [[]]; discriminate); try discriminate.
    destruct sx, sy; cbn; try discriminate; destruct (nan _ _) as [[]]; discriminate. }
  assert (C : is_finite p e x = true -> is_finite p e y = true -> exists s, computes p e (ieee p e hp he nan (oper b) x y) (rop b (B2R p e x) (B2R p e y)) s).
  { intros Fx Fy. pose proof (ieee_computes p e hp he nan (oper b) x y Fx Fy) as Q. destruct b; apply Q; discriminate. }
  split.
  - intros Fz. destruct (E Fz) as [Fx Fy]. split; [exact Fx|]. split; [exact Fy|]. destruct (C Fx Fy) as [s Q]. unfold computes in Q. cbv zeta in Q. destruct (Rlt_bool _ _); [apply Q|]. rewrite Q in Fz. discriminate Fz.
  - intros Fx Fy L. destruct (C Fx Fy) as [s Q]. unfold computes in Q. cbv zeta in Q. rewrite (Rlt_bool_true _ _ L) in Q. apply Q.
Qed.
Lemma same_fin p e p' e' (x : binary_float p e) (y : binary_float p' e') : same_value x y -> is_finite p e x = is_finite p' e' y.
Proof.
  intros S. destruct (is_finite p e x) eqn:F. - destruct (same_finite _ _ _ _ _ _ S F) as [Q _]. congruence.
  - destruct (same_special _ _ _ _ _ _ S F) as [(s & -> & ->)|[_ N]]; [reflexivity|]. destruct y; cbn in *; congruence.
Qed.
Lemma half_name b x y : half_op (oper b) x y = fop F16 b x y.
Proof. destruct b; cbn [oper half_op fop fadd fmul]; reflexivity. Qed.
Lemma bf16_name b x y : bf16_op (oper b) x y = fop BF16 b x y.
Proof. destruct b; cbn [oper bf16_op fop fadd fmul]; reflexivity. Qed.
Lemma one_step k b x y : word k x -> word k y -> word k (fop k b x y) /\
  (finite k (fop k b x y) = true -> finite k x = true /\ finite k y = true /\ value k (fop k b x y) = rnd k (rop b (value k x) (value k y))) /\
  (finite k x = true -> finite k y = true -> Rabs (rnd k (rop b (value k x) (value k y))) < bpow radix2 (emaxOf k) -> finite k (fop k b x y) = true).
Proof.
  intros Wx Wy. destruct k.
  - assert (E : b32_of_bits (fop F32 b x y) = ieee 24 128 eq_refl eq_refl binop_nan_pl32 (oper b) (b32_of_bits x) (b32_of_bits y)).
    { destruct b; cbn [fop fadd fmul oper ieee]; rewrite bits_back; reflexivity. }
    unfold word, finite, value. rewrite E. split; [destruct b; cbn [fop fadd fmul]; apply bits_range|]. apply float_step.
  - pose (nan := fun (_ _ : binary_float 11 16) => exist (fun z => is_nan 11 16 z = true) (B754_nan 11 16 false 1 eq_refl) eq_refl).
    pose proof (half_arith_lemma (oper b) nan x y Wx Wy) as S. rewrite half_name in S.
    split; [destruct b; cbn [fop fadd fmul]; apply half_word|]. pose proof (float_step 11 16 eq_refl eq_refl nan b (fp16 x) (fp16 y)) as [P Q]. unfold finite, value. pose proof (same_fin _ _ _ _ _ _ S) as FE. rewrite FE. split; [|exact Q].
    intros F. destruct (P F) as (P1 & P2 & P3). split; [exact P1|]. split; [exact P2|]. rewrite <- FE in F. destruct (same_finite _ _ _ _ _ _ S F) as (_ & _ & V). rewrite V. exact P3.
  - pose (nan := fun (_ _ : binary_float 8 128) => exist (fun z => is_nan 8 128 z = true) (B754_nan 8 128 false 1 eq_refl) eq_refl).
    pose proof (bf16_arith_lemma (oper b) nan x y Wx Wy) as S. rewrite bf16_name in S.
    split; [destruct b; cbn [fop fadd fmul]; apply bf16_word|]. pose proof (float_step 8 128 eq_refl eq_refl nan b (bf16 x) (bf16 y)) as [P Q]. unfold finite, value. pose proof (same_fin _ _ _ _ _ _ S) as FE. rewrite FE. split; [|exact Q].
    intros F. destruct (P F) as (P1 & P2 & P3). split; [exact P1|]. split; [exact P2|]. rewrite <- FE in F. destruct (same_finite _ _ _ _ _ _ S F) as (_ & _ & V). rewrite V. exact P3.
Qed.

(** * Errors of one rounding *)
Lemma unit_ulp k : unit k = u_ro radix2 (precision k).
Proof. unfold unit, u_ro. replace (- precision k + 1)%Z with (1 + - precision k)%Z by lia. rewrite bpow_plus. change (bpow radix2 1) with 2. lra. Qed.
Lemma unit_pos k : 0 < unit k.
Proof. apply bpow_gt_0. Qed.
Lemma tiny_half k : tiny k = /2 * bpow radix2 (3 - emaxOf k - precision k).
Proof. unfold tiny. replace (3 - emaxOf k - precision k)%Z with (1 + (2 - emaxOf k - precision k))%Z by lia. rewrite bpow_plus. change (bpow radix2 1) with 2. lra. Qed.
Lemma value_format k w : generic_format radix2 (FLT_exp (3 - emaxOf k - precision k) (precision k)) (value k w).
Proof. destruct k; unfold value; cbn [precision emaxOf]; apply generic_format_B2R. Qed.
Lemma add_error k x y : exists d, Rabs d <= unit k /\ rnd k (value k x + value k y) = (value k x + value k y) * (1 + d).
Proof.
  destruct (FLT_plus_error_N_ex radix2 (3 - emaxOf k - precision k) (precision k) (fun z => negb (Z.even z)) (value k x) (value k y) (value_format k x) (value_format k y)) as (d & D & E).
  exists d. split; [|exact E]. rewrite unit_ulp. eapply Rle_trans; [exact D|]. pose proof (u_ro_pos radix2 (precision k)) as U.
  apply Rmult_le_reg_r with (1 + u_ro radix2 (precision k)); [lra|]. unfold Rdiv. rewrite Rmult_assoc, Rinv_l by lra. nra.
Qed.
Lemma round_error k v : exists d t, Rabs d <= unit k /\ Rabs t <= tiny k /\ rnd k v = v * (1 + d) + t.
Proof.
  destruct (error_N_FLT radix2 (3 - emaxOf k - precision k) (precision k) (prec_pos k) (fun z => negb (Z.even z)) v) as (d & t & D & T & _ & E).
  exists d, t. rewrite unit_ulp, tiny_half. split; [|split; [exact T|exact E]]. exact D.
Qed.
Lemma rnd_exact k w : rnd k (value k w) = value k w.
Proof. apply round_generic; [apply valid_rnd_N|apply value_format]. Qed.
