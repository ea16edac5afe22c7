(** One operation on words and what it does to their meaning. *)
From Coq Require Import ZArith Reals List Bool Arith Lia Lra Psatz.
From Flocq Require Import Core Plus_error Relative IEEE754.BinarySingleNaN IEEE754.Binary IEEE754.Bits.
From Verif Require Import FloatModel FloatSpec FloatProps Arith16Model Arith16Spec Arith16Proofs Arith16Proofs2 Arith16Proofs3 Arith16Proofs4 AccModel AccSpec AccProofs2 AccProofs3 AccProofs4 FsoftModel FsoftSpec.
Import ListNotations.
Open Scope R_scope.

Definition flt (k : fkind) (w : Z) : binary_float (precision k) (emaxOf k) :=
  match k return binary_float (precision k) (emaxOf k) with F32 => b32_of_bits w | F16 => fp16 w | BF16 => bf16 w end.
Lemma meaning_flt k w : meaning k w = read (flt k w).
Proof. destruct k; reflexivity. Qed.
Lemma value_flt k w : value k w = B2R _ _ (flt k w).
Proof. destruct k; reflexivity. Qed.
Lemma finite_flt k w : finite k w = is_finite _ _ (flt k w).
Proof. destruct k; reflexivity. Qed.
Lemma read_num {p e} (x : binary_float p e) v : read x = Num v <-> is_finite p e x = true /\ B2R p e x = v.
Proof.
  destruct x as [s|s|s pl h|s m ex h]; cbn [read is_finite].
  - split; [intros [= <-]; auto|intros [_ <-]; reflexivity].
  - split; [discriminate|intros [H _]; discriminate].
  - split; [discriminate|intros [H _]; discriminate].
  - split; [intros [= <-]; auto|intros [_ <-]; reflexivity].
Qed.
Lemma meaning_num k w v : meaning k w = Num v <-> finite k w = true /\ value k w = v.
Proof. rewrite meaning_flt, value_flt, finite_flt. apply read_num. Qed.
Lemma read_inf {p e} (x : binary_float p e) s : read x = Inf s <-> x = B754_infinity p e s.
Proof. destruct x; cbn [read]; split; try discriminate; intros [= ->]; reflexivity. Qed.
Lemma read_nan {p e} (x : binary_float p e) : read x = NaN <-> is_nan p e x = true.
Proof. destruct x; cbn [read is_nan]; split; try discriminate; reflexivity. Qed.
Lemma read_same {p e p' e'} (x : binary_float p e) (y : binary_float p' e') : same_value x y -> read x = read y.
Proof.
  intros S. destruct (is_finite p e x) eqn:F.
  - destruct (same_finite _ _ _ _ _ _ S F) as (F' & _ & V). rewrite (proj2 (read_num x (B2R p e x)) (conj F eq_refl)). symmetry. apply read_num. auto.
  - destruct (same_special _ _ _ _ _ _ S F) as [(s & -> & ->)|[N N']]; [reflexivity|]. apply read_nan in N, N'. congruence.
Qed.

Definition fop4 (k : fkind) (op : operator) : Z -> Z -> Z := match op with OpAdd => fadd k | OpSub => fsub k | OpMul => fmul k | OpDiv => fadd k end.
Definition emax_gt k : Prec_lt_emax (precision k) (emaxOf k) := match k return Prec_lt_emax (precision k) (emaxOf k) with F32 => eq_refl | F16 => eq_refl | BF16 => eq_refl end.
Definition prec_gt' k : Prec_gt_0 (precision k) := match k return Prec_gt_0 (precision k) with F32 => eq_refl | F16 => eq_refl | BF16 => eq_refl end.
Definition someNan k : nan2 (precision k) (emaxOf k) :=
  match k return nan2 (precision k) (emaxOf k) with
  | F32 => binop_nan_pl32
  | F16 => fun _ _ => exist (fun z => is_nan 11 16 z = true) (B754_nan 11 16 false 1 eq_refl) eq_refl
  | BF16 => fun _ _ => exist (fun z => is_nan 8 128 z = true) (B754_nan 8 128 false 1 eq_refl) eq_refl
  end.
Lemma op_same k op x y : op <> OpDiv -> word k x -> word k y -> word k (fop4 k op x y)
  /\ read (flt k (fop4 k op x y)) = read (ieee _ _ (prec_gt' k) (emax_gt k) (someNan k) op (flt k x) (flt k y)).
Proof.
  intros N Wx Wy. destruct k.
  - destruct op; try contradiction; cbn [fop4 fadd fsub fmul flt ieee]; (split; [apply bits_range|]); rewrite bits_back; reflexivity.
  - assert (E : fop4 F16 op x y = half_op op x y) by (destruct op; [| | |exfalso; apply N; reflexivity]; cbn [fop4 half_op fadd fsub fmul]; reflexivity). rewrite E. split; [destruct op; cbn [half_op]; apply half_word|]. apply read_same. cbn [flt precision emaxOf]. exact (half_arith_lemma op (someNan F16) x y Wx Wy).
  - assert (E : fop4 BF16 op x y = bf16_op op x y) by (destruct op; [| | |exfalso; apply N; reflexivity]; cbn [fop4 bf16_op fadd fsub fmul]; reflexivity). rewrite E. split; [destruct op; cbn [bf16_op]; apply bf16_word|]. apply read_same. cbn [flt precision emaxOf]. exact (bf16_arith_lemma op (someNan BF16) x y Wx Wy).
Qed.
Lemma fadd_word k x y : word k x -> word k y -> word k (fadd k x y).
Proof. intros A B. apply (op_same k OpAdd); auto. discriminate. Qed.
Lemma fsub_word k x y : word k x -> word k y -> word k (fsub k x y).
Proof. intros A B. apply (op_same k OpSub); auto. discriminate. Qed.
Lemma fmul_word k x y : word k x -> word k y -> word k (fmul k x y).
Proof. intros A B. apply (op_same k OpMul); auto. discriminate. Qed.
Lemma ffloat_word k f : word k (ffloat k f).
Proof. destruct k; cbn [ffloat]; [apply bits_range|apply half_word|apply bf16_word]. Qed.
Lemma ieee_nan p e hp he nan op x y : op <> OpDiv -> read x = NaN \/ read y = NaN -> read (ieee p e hp he nan op x y) = NaN.
Proof.
  intros N H. apply read_nan. destruct op; try contradiction; cbn [ieee]; destruct x as [sx|sx|sx px hx|sx mx ex hx], y as [sy|sy|sy py hy|sy my ey hy]; cbn [read] in H; try (destruct H; discriminate);
    cbv [Bplus Bminus Bmult]; apply build_is_nan.
Qed.
Lemma op_nan k op x y : op <> OpDiv -> word k x -> word k y -> meaning k x = NaN \/ meaning k y = NaN -> meaning k (fop4 k op x y) = NaN.
Proof. intros N Wx Wy H. rewrite !meaning_flt in *. rewrite (proj2 (op_same k op x y N Wx Wy)). apply ieee_nan; auto. Qed.
(** Infinities. *)
Lemma sub_ninf k x y v : word k x -> word k y -> meaning k x = Inf true -> meaning k y = Num v -> meaning k (fsub k x y) = Inf true.
Proof.
  intros Wx Wy Hx Hy. rewrite !meaning_flt in *. apply read_inf in Hx. change (fsub k x y) with (fop4 k OpSub x y). rewrite (proj2 (op_same k OpSub x y ltac:(discriminate) Wx Wy)). rewrite Hx.
  destruct (flt k y) as [sy|sy|sy py hy|sy my ey hy]; cbn [read] in Hy; try discriminate; reflexivity.
Qed.
Lemma sub_same_inf k x y s : word k x -> word k y -> meaning k x = Inf s -> meaning k y = Inf s -> meaning k (fsub k x y) = NaN.
Proof.
  intros Wx Wy Hx Hy. rewrite !meaning_flt in *. apply read_inf in Hx, Hy. change (fsub k x y) with (fop4 k OpSub x y). rewrite (proj2 (op_same k OpSub x y ltac:(discriminate) Wx Wy)). rewrite Hx, Hy.
  apply read_nan. cbn [ieee]. cbv [Bminus]. destruct s; cbn [Bool.eqb negb]; apply build_is_nan.
Qed.
Lemma mul_zero_inf k x y s : word k x -> word k y -> meaning k x = Num 0 -> meaning k y = Inf s -> meaning k (fmul k x y) = NaN.
Proof.
  intros Wx Wy Hx Hy. rewrite !meaning_flt in *. apply read_inf in Hy. change (fmul k x y) with (fop4 k OpMul x y). rewrite (proj2 (op_same k OpMul x y ltac:(discriminate) Wx Wy)). rewrite Hy.
  apply read_num in Hx. destruct Hx as [F V]. destruct (flt k x) as [sx|sx|sx px hx|sx mx ex hx]; try discriminate; [|exfalso; exact (nonzero _ _ _ _ _ _ V)].
  apply read_nan. cbn [ieee]. cbv [Bmult]. apply build_is_nan.
Qed.
(** Numbers. *)
Lemma add_num k x y a b : word k x -> word k y -> meaning k x = Num a -> meaning k y = Num b -> Rabs (rnd k (a + b)) < bpow radix2 (emaxOf k) -> meaning k (fadd k x y) = Num (rnd k (a + b)).
Proof.
  intros Wx Wy Hx Hy L. apply meaning_num in Hx, Hy. destruct Hx as [Fx <-], Hy as [Fy <-]. destruct (one_step k true x y Wx Wy) as (_ & Q & S). cbn [fop rop] in *. specialize (S Fx Fy L). apply meaning_num. split; [exact S|]. apply Q, S.
Qed.
Lemma mul_num k x y a b : word k x -> word k y -> meaning k x = Num a -> meaning k y = Num b -> Rabs (rnd k (a * b)) < bpow radix2 (emaxOf k) -> meaning k (fmul k x y) = Num (rnd k (a * b)).
Proof.
  intros Wx Wy Hx Hy L. apply meaning_num in Hx, Hy. destruct Hx as [Fx <-], Hy as [Fy <-]. destruct (one_step k false x y Wx Wy) as (_ & Q & S). cbn [fop rop] in *. specialize (S Fx Fy L). apply meaning_num. split; [exact S|]. apply Q, S.
Qed.
Lemma sub_num k x y a b : word k x -> word k y -> meaning k x = Num a -> meaning k y = Num b -> a <= b ->
  meaning k (fsub k x y) = if Rlt_bool (Rabs (rnd k (a - b))) (bpow radix2 (emaxOf k)) then Num (rnd k (a - b)) else Inf true.
Proof.
  intros Wx Wy Hx Hy L. rewrite !meaning_flt in *. apply read_num in Hx, Hy. destruct Hx as [Fx <-], Hy as [Fy <-]. change (fsub k x y) with (fop4 k OpSub x y). rewrite (proj2 (op_same k OpSub x y ltac:(discriminate) Wx Wy)).
  cbn [ieee]. pose proof (Bminus_correct _ _ (prec_gt' k) (emax_gt k) (someNan k) mode_NE _ _ Fx Fy) as C. cbn [round_mode] in C. change (SpecFloat.fexp (precision k) (emaxOf k)) with (FLT_exp (3 - emaxOf k - precision k) (precision k)) in C. fold (rnd k (B2R _ _ (flt k x) - B2R _ _ (flt k y))) in C.
  destruct (Rlt_bool_spec (Rabs (rnd k (B2R _ _ (flt k x) - B2R _ _ (flt k y)))) (bpow radix2 (emaxOf k))) as [B|B].
  - destruct C as (C1 & C2 & _). apply read_num. auto.
  - destruct C as (C1 & C2). assert (S : Bsign _ _ (flt k x) = true).
    { destruct (Bsign _ _ (flt k x)) eqn:Sx; [reflexivity|]. exfalso. pose proof (sign_le _ _ (flt k x)) as A1. pose proof (sign_le _ _ (flt k y)) as A2. rewrite Sx in A1. destruct (Bsign _ _ (flt k y)) eqn:Sy; [|discriminate C2].
      assert (Z0 : B2R _ _ (flt k x) - B2R _ _ (flt k y) = 0) by lra. rewrite Z0 in B. unfold rnd in B. rewrite round_0, Rabs_R0 in B by apply valid_rnd_N. pose proof (bpow_gt_0 radix2 (emaxOf k)). lra. }
    rewrite S in C1. rewrite overflow_inf in C1. apply B2FF_inf in C1. rewrite C1. reflexivity.
Qed.
(** Comparison. *)
Lemma fgt_compare k x y : word k x -> word k y -> fgt k x y = holds CGt (Bcompare _ _ (flt k x) (flt k y)).
Proof.
  intros Wx Wy. destruct k; cbn [fgt flt]; [|apply half_cmp_lemma; assumption|apply bf16_cmp_lemma; assumption].
  unfold float_cmp, b32_compare. cbn [precision emaxOf]. destruct (Bcompare _ _ _ _) as [[]|]; reflexivity.
Qed.
Lemma tofloat_same k w : word k w -> read (tofloat k w) = meaning k w.
Proof.
  intros W. destruct k; cbn [tofloat meaning]; [reflexivity| |]; symmetry; apply read_same; [apply half_widen_exact|apply bf16_widen_exact]; exact W.
Qed.
