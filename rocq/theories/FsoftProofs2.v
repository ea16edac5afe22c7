(** Rounding in order, the exponentials, their sum and its reciprocal. *)
From Coq Require Import ZArith Reals List Bool Arith Lia Lra Psatz.
From Flocq Require Import Core Plus_error Relative IEEE754.BinarySingleNaN IEEE754.Binary IEEE754.Bits.
From Verif Require Import FloatModel FloatSpec FloatProps Arith16Model Arith16Spec Arith16Proofs Arith16Proofs2 Arith16Proofs3 Arith16Proofs4 AccModel AccSpec AccProofs2 AccProofs3 AccProofs4 FsoftModel FsoftSpec FsoftProofs.
Import ListNotations.
Open Scope R_scope.

Lemma rnd_le k a b : a <= b -> rnd k a <= rnd k b.
Proof. intros H. apply round_le; auto; [apply FLT_exp_valid; apply prec_pos|apply valid_rnd_N]. Qed.
Lemma rnd_0 k : rnd k 0 = 0.
Proof. apply round_0. apply valid_rnd_N. Qed.
Lemma rnd_bpow k e : (3 - emaxOf k - precision k <= e)%Z -> rnd k (bpow radix2 e) = bpow radix2 e.
Proof. intros H. apply round_generic; [apply valid_rnd_N|]. apply format_bpow. exact H. Qed.
Lemma rnd_1 k : rnd k 1 = 1.
Proof. change 1 with (bpow radix2 0). apply rnd_bpow. pose proof (emin_nonpos k). lia. Qed.
Lemma rnd_num k w v : meaning k w = Num v -> rnd k v = v.
Proof. intros H. apply meaning_num in H. destruct H as [_ <-]. apply rnd_exact. Qed.
Lemma rnd_idem k v : rnd k (rnd k v) = rnd k v.
Proof. apply round_generic; [apply valid_rnd_N|]. apply generic_format_round; [apply FLT_exp_valid; apply prec_pos|apply valid_rnd_N]. Qed.
Definition top (k : fkind) : R := bpow radix2 (precision k).
Lemma top_max k : top k < bpow radix2 (emaxOf k).
Proof. apply bpow_lt. destruct k; reflexivity. Qed.
Lemma one_top k : 1 <= top k.
Proof. change 1 with (bpow radix2 0). apply bpow_le. destruct k; cbn; lia. Qed.
Lemma small_max k v : 0 <= v <= top k -> Rabs v < bpow radix2 (emaxOf k).
Proof. intros H. rewrite Rabs_pos_eq by lra. pose proof (top_max k). lra. Qed.
(** From a float to an element. *)
Lemma ffloat_num k f v : read f = Num v -> Rabs (rnd k v) < bpow radix2 (emaxOf k) -> meaning k (ffloat k f) = Num (rnd k v).
Proof. intros H L. apply read_num in H. destruct H as [F <-]. destruct (ffloat_ok k f F L) as (_ & A & B). apply meaning_num. auto. Qed.
Lemma ffloat_nan k f : read f = NaN -> meaning k (ffloat k f) = NaN.
Proof.
  intros H. destruct k; cbn [ffloat meaning].
  - rewrite bits_back. exact H.
  - apply read_nan. apply read_nan in H. eapply rounded_nan; [exact H|apply half_narrow].
  - apply read_nan. apply read_nan in H. eapply rounded_nan; [exact H|apply bf16_narrow].
Qed.
Lemma ffloat_inf k f s : read f = Inf s -> meaning k (ffloat k f) = Inf s.
Proof.
  intros H. apply read_inf in H. subst f. destruct k; cbn [ffloat meaning].
  - rewrite bits_back. reflexivity.
  - apply read_inf. apply rounded_inf. apply half_narrow.
  - apply read_inf. apply rounded_inf. apply bf16_narrow.
Qed.

(** * The exponential *)
(** What [exp] is given: minus infinity or a number up to 0. *)
Definition below0 (x : ext) : Prop := match x with Inf true => True | Num v => v <= 0 | _ => False end.
Lemma exp_val k ex w : exp_ok ex -> word k w -> below0 (meaning k w) -> exists e, meaning k (fmath k ex w) = Num e /\ 0 <= e <= 1.
Proof.
  intros X W B. unfold fmath. pose proof (tofloat_same k w W) as T. assert (H : exists y, read (ex (tofloat k w)) = Num y /\ 0 <= y <= 1).
  { destruct (meaning k w) as [|[]|v]; cbn in B; try contradiction.
    - exists 0. split; [apply (ex_ninf ex X); exact T|lra].
    - exact (ex_range ex X _ v T B). }
  destruct H as (y & Hy & R). assert (R' : 0 <= rnd k y <= 1) by (rewrite <- (rnd_0 k), <- (rnd_1 k) at 1; split; apply rnd_le; lra).
  exists (rnd k y). split; [|exact R']. apply ffloat_num; [exact Hy|]. apply small_max. pose proof (one_top k). lra.
Qed.
Lemma exp_mono k ex w w' a b : exp_ok ex -> word k w -> word k w' -> below0 (meaning k w') -> atMost (meaning k w) (meaning k w') -> meaning k (fmath k ex w) = Num a -> meaning k (fmath k ex w') = Num b -> a <= b.
Proof.
  intros X W W' B L Ha Hb. assert (B0 : below0 (meaning k w)).
  { destruct (meaning k w) as [|[]|v]; cbn in L; try contradiction; cbn; auto. destruct (meaning k w') as [|[]|v']; cbn in *; try contradiction. lra. }
  pose proof (tofloat_same k w W) as T. pose proof (tofloat_same k w' W') as T'.
  destruct (meaning k w) as [|[]|v] eqn:Ew; cbn in L; try contradiction.
  - pose proof (ex_ninf ex X _ T) as E0. unfold fmath in Ha. rewrite (ffloat_num k _ 0 E0) in Ha.
    + injection Ha as <-. rewrite rnd_0. destruct (exp_val k ex w' X W' B) as (e & E & R). rewrite Hb in E. injection E as <-. lra.
    + rewrite rnd_0, Rabs_R0. apply bpow_gt_0.
  - destruct (meaning k w') as [|[]|v'] eqn:Ew'; cbn in L, B, B0; try contradiction.
    destruct (ex_range ex X _ v T B0) as (y & Y & Ry). destruct (ex_range ex X _ v' T' B) as (y' & Y' & Ry'). pose proof (ex_mono ex X _ _ v v' y y' T T' (conj L B) Y Y') as M.
    assert (S : forall z, 0 <= z <= 1 -> Rabs (rnd k z) < bpow radix2 (emaxOf k)).
    { intros z Hz. apply small_max. pose proof (one_top k). pose proof (rnd_le k 0 z ltac:(lra)). pose proof (rnd_le k z 1 ltac:(lra)). rewrite rnd_0 in *. rewrite rnd_1 in *. lra. }
    unfold fmath in Ha, Hb. rewrite (ffloat_num k _ y Y) in Ha by (apply S; exact Ry). rewrite (ffloat_num k _ y' Y') in Hb by (apply S; exact Ry'). injection Ha as <-. injection Hb as <-. apply rnd_le. exact M.
Qed.
Lemma exp_one k ex w : exp_ok ex -> word k w -> meaning k w = Num 0 -> meaning k (fmath k ex w) = Num 1.
Proof.
  intros X W H. pose proof (tofloat_same k w W) as T. rewrite H in T. pose proof (ex_zero ex X _ T) as E. unfold fmath. rewrite (ffloat_num k _ 1 E); rewrite rnd_1; [reflexivity|].
  apply small_max. pose proof (one_top k). lra.
Qed.
Lemma exp_none k ex w : exp_ok ex -> word k w -> meaning k w = Inf true -> meaning k (fmath k ex w) = Num 0.
Proof.
  intros X W H. pose proof (tofloat_same k w W) as T. rewrite H in T. pose proof (ex_ninf ex X _ T) as E. unfold fmath. rewrite (ffloat_num k _ 0 E); rewrite rnd_0; [reflexivity|].
  rewrite Rabs_R0. apply bpow_gt_0.
Qed.
Lemma math_nan k f w : (forall x, read x = NaN -> read (f x) = NaN) -> word k w -> meaning k w = NaN -> meaning k (fmath k f w) = NaN.
Proof. intros X W H. unfold fmath. apply ffloat_nan. apply X. rewrite (tofloat_same k w W). exact H. Qed.

(** * The sum *)
Lemma add_up k s e a b : word k s -> word k e -> meaning k s = Num a -> meaning k e = Num b -> 0 <= a <= top k -> 0 <= b <= 1 ->
  exists c, meaning k (fadd k s e) = Num c /\ c = rnd k (a + b) /\ a <= c <= top k /\ b <= c.
Proof.
  intros Ws We Hs He A B. assert (R : a <= rnd k (a + b) <= top k /\ b <= rnd k (a + b)).
  { split; [split|].
    - rewrite <- (rnd_num k s a Hs) at 1. apply rnd_le. lra.
    - unfold top. rewrite <- (top_rnd k). apply rnd_le. unfold top in A. lra.
    - rewrite <- (rnd_num k e b He) at 1. apply rnd_le. lra. }
  exists (rnd k (a + b)). split; [|tauto]. apply add_num; auto. apply small_max. lra.
Qed.
Definition unitNum (k : fkind) (w : Z) : Prop := word k w /\ exists e, meaning k w = Num e /\ 0 <= e <= 1.
Lemma fold_sum k : forall l s a, Forall (unitNum k) l -> word k s -> meaning k s = Num a -> 0 <= a <= top k ->
  word k (fold_left (fadd k) l s) /\ exists c, meaning k (fold_left (fadd k) l s) = Num c /\ a <= c <= top k /\ forall e, In e l -> forall b, meaning k e = Num b -> b <= c.
Proof.
  induction l as [|e l IH]; intros s a H W M R; cbn [fold_left].
  - split; [exact W|]. exists a. split; [exact M|]. split; [lra|]. intros e [].
  - inversion H as [|? ? (We & b & Mb & Rb) Hl]; subst. destruct (add_up k s e a b W We M Mb R Rb) as (c & Mc & _ & Rc & Bc). destruct (IH (fadd k s e) c Hl (fadd_word k s e W We) Mc ltac:(lra)) as (W' & d & Md & Rd & Q).
    split; [exact W'|]. exists d. split; [exact Md|]. split; [lra|]. intros e' [<-|I] b' Mb'; [|exact (Q e' I b' Mb')]. rewrite Mb in Mb'. injection Mb' as <-. lra.
Qed.
Lemma fold_words k : forall l s, Forall (word k) l -> word k s -> word k (fold_left (fadd k) l s).
Proof. induction l as [|e l IH]; intros s H W; cbn [fold_left]; [exact W|]. inversion H; subst. apply IH; auto. apply fadd_word; auto. Qed.
Lemma fold_nan k : forall l s, Forall (word k) l -> word k s -> meaning k s = NaN \/ Exists (fun e => meaning k e = NaN) l -> meaning k (fold_left (fadd k) l s) = NaN.
Proof.
  induction l as [|e l IH]; intros s H W N; cbn [fold_left].
  - destruct N as [N|N]; [exact N|inversion N].
  - inversion H; subst. apply IH; auto; [apply fadd_word; auto|]. destruct N as [N|N].
    + left. apply (op_nan k OpAdd); auto. discriminate.
    + inversion N; subst; [left; apply (op_nan k OpAdd); auto; discriminate|right; assumption].
Qed.
Lemma fold_zero k : forall l s, Forall (word k) l -> word k s -> meaning k s = Num 0 -> Forall (fun e => meaning k e = Num 0) l -> meaning k (fold_left (fadd k) l s) = Num 0.
Proof.
  induction l as [|e l IH]; intros s H W M Z; cbn [fold_left]; [exact M|]. inversion H; subst. inversion Z; subst. apply IH; auto; [apply fadd_word; auto|].
  assert (Q : rnd k (0 + 0) = 0) by (rewrite Rplus_0_l; apply rnd_0). rewrite <- Q. apply add_num; auto. rewrite Q, Rabs_R0. apply bpow_gt_0.
Qed.
(** The rounded sum is within n factors 1 + u of the exact one, both ways. *)
Definition nums (k : fkind) (l : list Z) : R := total (map (value k) l).
Lemma add_both k s e a b : meaning k s = Num a -> meaning k e = Num b -> 0 <= a -> 0 <= b -> (a + b) <= (1 + unit k) * rnd k (a + b) /\ rnd k (a + b) <= (1 + unit k) * (a + b).
Proof.
  intros Ms Me A B. apply meaning_num in Ms, Me. destruct Ms as [_ <-], Me as [_ <-].
  destruct (FLT_plus_error_N_ex radix2 (3 - emaxOf k - precision k) (precision k) (fun z => negb (Z.even z)) (value k s) (value k e) (value_format k s) (value_format k e)) as (d & D & E).
  change (round radix2 (FLT_exp (3 - emaxOf k - precision k) (precision k)) (Znearest (fun z => negb (Z.even z))) (value k s + value k e)) with (rnd k (value k s + value k e)) in E. rewrite <- unit_ulp in D. pose proof (unit_pos k) as U.
  assert (Q : unit k / (1 + unit k) * (1 + unit k) = unit k) by (field; lra). apply Rabs_le_inv in D. rewrite E. set (q := unit k / (1 + unit k)) in *. set (t := value k s + value k e) in *.
  assert (T : 0 <= t) by (unfold t; lra). assert (q <= unit k) by (assert (0 < q) by (unfold q; apply Rdiv_lt_0_compat; lra); nra). assert (1 <= (1 + unit k) * (1 + d)) by nra. split; nra.
Qed.
Lemma fold_both k : forall l s a, Forall (unitNum k) l -> word k s -> meaning k s = Num a -> 0 <= a <= top k ->
  forall c, meaning k (fold_left (fadd k) l s) = Num c -> a + nums k l <= (1 + unit k) ^ length l * c /\ c <= (1 + unit k) ^ length l * (a + nums k l).
Proof.
  induction l as [|e l IH]; intros s a H W M R c Mc; cbn [fold_left] in Mc.
  - rewrite M in Mc. injection Mc as <-. unfold nums. cbn. lra.
  - inversion H as [|? ? (We & b & Mb & Rb) Hl]; subst. destruct (add_up k s e a b W We M Mb R Rb) as (d & Md & Ed & Rd & Bd). pose proof (add_both k s e a b M Mb ltac:(lra) ltac:(lra)) as [P Q]. rewrite <- Ed in P, Q.
    destruct (IH _ d Hl (fadd_word k s e W We) Md ltac:(lra) c Mc) as [P' Q']. assert (N : nums k (e :: l) = b + nums k l).
    { unfold nums. cbn [map]. rewrite total_cons. apply meaning_num in Mb. destruct Mb as [_ ->]. reflexivity. }
    assert (T : 0 <= nums k l).
    { clear - Hl. unfold nums. induction Hl as [|x l (Wx & v & Mv & Rv) Hl IH]; cbn [map]; [cbn; lra|]. rewrite total_cons. apply meaning_num in Mv. destruct Mv as [_ ->]. lra. }
    rewrite N. cbn [length pow]. pose proof (pow_ge1 k (length l)) as G. pose proof (unit_pos k) as U. set (g := (1 + unit k) ^ length l) in *. set (u := unit k) in *. split.
    + apply Rle_trans with ((1 + u) * (d + nums k l)); [nra|]. rewrite Rmult_assoc. apply Rmult_le_compat_l; lra.
    + apply Rle_trans with (g * (d + nums k l)); [exact Q'|]. rewrite (Rmult_comm (1 + u) g), Rmult_assoc. apply Rmult_le_compat_l; nra.
Qed.

(** * The reciprocal *)
Lemma conv_read p e p' e' hp he nan (x : binary_float p e) : read nan = NaN ->
  read (fconv p e p' e' hp he nan x) = match read x with NaN => NaN | Inf s => Inf s | Num v => if Rlt_bool (Rabs (round radix2 (FLT_exp (3 - e' - p') p') ZnearestE v)) (bpow radix2 e') then Num (round radix2 (FLT_exp (3 - e' - p') p') ZnearestE v) else read (fconv p e p' e' hp he nan x) end.
Proof.
  intros N. destruct x as [s|s|s pl h|s m ex h]; cbn [fconv read].
  - rewrite round_0, Rabs_R0, Rlt_bool_true by (try apply valid_rnd_N; apply bpow_gt_0). reflexivity.
  - reflexivity.
  - exact N.
  - pose proof (binary_normalize_correct p' e' hp he mode_NE (SpecFloat.cond_Zopp s (Zpos m)) ex s) as C. cbn [round_mode] in C. change (SpecFloat.fexp p' e') with (FLT_exp (3 - e' - p') p') in C.
    change (F2R {| Fnum := SpecFloat.cond_Zopp s (Zpos m); Fexp := ex |}) with (B2R p e (B754_finite p e s m ex h)) in C. destruct (Rlt_bool _ _); [|reflexivity]. apply read_num. tauto.
Qed.
