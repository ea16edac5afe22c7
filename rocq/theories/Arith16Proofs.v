(** Operations computed in float32 and rounded once more are correctly rounded. *)
From Coq Require Import ZArith Reals Bool Lia Lra.
From Flocq Require Import Core IEEE754.BinarySingleNaN IEEE754.Binary IEEE754.Bits Double_rounding.
From Verif Require Import FloatModel FloatSpec.
Open Scope Z_scope.

Section Generic.
Variables (prec emax : Z).
Hypothesis (Hp : Prec_gt_0 prec) (He : Prec_lt_emax prec emax).
Hypothesis (Hmax : emax <= 128).
Notation F := (binary_float prec emax).
Notation r16 := (round radix2 (FLT_exp (3 - emax - prec) prec) ZnearestE).
Notation r32 := (round radix2 (FLT_exp (-149) 24) ZnearestE).

Lemma B2FF_inf : forall p e (z : binary_float p e) s, B2FF p e z = F754_infinity s -> z = B754_infinity p e s.
Proof. intros p e z s H. destruct z; simpl in H; try discriminate. injection H as ->. reflexivity. Qed.

Lemma emin_le : 3 - emax - prec <= emax - 1.
Proof. unfold Prec_gt_0, Prec_lt_emax in *. lia. Qed.

Lemma r16_bound : forall v, (bpow radix2 128 <= Rabs v)%R -> (bpow radix2 emax <= Rabs (r16 v))%R.
Proof.
  intros v H. rewrite <- round_NE_abs by (apply FLT_exp_valid; auto). apply round_ge_generic; auto.
  - apply FLT_exp_valid; auto.
  - apply valid_rnd_N.
  - apply generic_format_bpow. unfold FLT_exp. unfold Prec_gt_0, Prec_lt_emax in *. lia.
  - eapply Rle_trans; [|exact H]. apply bpow_le. exact Hmax.
Qed.

(** What the correctness lemmas of Flocq say about an operation with exact real
    result [v] and sign [s]. *)
Definition computes (p e : Z) (z : binary_float p e) (v : R) (s : bool) : Prop :=
  let r := round radix2 (FLT_exp (3 - e - p) p) ZnearestE v in
  if Rlt_bool (Rabs r) (bpow radix2 e)
  then B2R p e z = r /\ is_finite p e z = true /\ Bsign p e z = s
  else z = B754_infinity p e s.

Lemma finite_not_nan : forall p e (z : binary_float p e), is_finite p e z = true -> is_nan p e z = false.
Proof. intros p e z. destruct z; simpl; auto; discriminate. Qed.

Lemma narrowed : forall (z' : binary32) (z w : F) v s,
  r16 (r32 v) = r16 v -> computes 24 128 z' v s -> computes prec emax w v s -> rounded z' z -> same_value z w.
Proof.
  intros z' z w v s DR A B C. unfold computes in A, B. cbv zeta in A, B. change (3 - 128 - 24) with (-149) in A.
  unfold rounded in C. destruct (Rlt_bool (Rabs (r32 v)) (bpow radix2 128)) eqn:E1.
  - destruct A as (A1 & A2 & A3). rewrite (finite_not_nan _ _ _ A2) in C. destruct C as (C1 & C2 & C3).
    cbv zeta in C3. rewrite A1, DR, A2 in C3. rewrite A3 in C2. cbn [andb] in C3.
    destruct (Rlt_bool (Rabs (r16 v)) (bpow radix2 emax)) eqn:E2.
    + destruct C3 as [C3 C4]. destruct B as (B1 & B2 & B3). split; [rewrite C1, (finite_not_nan _ _ _ B2); reflexivity|].
      intros _. rewrite C3, B2, C2, B3, C4, B1. auto.
    + subst w. split; [rewrite C1; reflexivity|]. intros _. cbn [is_finite Bsign B2R]. split; [exact C3|]. split; [exact C2|].
      destruct z; simpl in *; try discriminate; reflexivity.
  - subst z'. cbn [is_nan is_finite Bsign B2R andb] in C. destruct C as (C1 & C2 & C3).
    assert (E2 : Rlt_bool (Rabs (r16 v)) (bpow radix2 emax) = false).
    { apply Rlt_bool_false. rewrite <- DR. apply r16_bound. destruct (Rlt_bool_spec (Rabs (r32 v)) (bpow radix2 128)); [discriminate|assumption]. }
    rewrite E2 in B. subst w. split; [rewrite C1; reflexivity|]. intros _. cbn [is_finite Bsign B2R]. split; [exact C3|]. split; [exact C2|].
    destruct z; simpl in *; try discriminate; reflexivity.
Qed.

Lemma narrowed_overflow : forall (z' : binary32) (z w : F) v s,
  (bpow radix2 emax <= Rabs (r16 (r32 v)))%R -> (bpow radix2 emax <= Rabs (r16 v))%R ->
  computes 24 128 z' v s -> computes prec emax w v s -> rounded z' z -> same_value z w.
Proof.
  intros z' z w v s O1 O2 A B C. unfold computes in A, B. cbv zeta in A, B. change (3 - 128 - 24) with (-149) in A.
  rewrite (Rlt_bool_false _ _ O2) in B. subst w. unfold rounded in C.
  destruct (Rlt_bool (Rabs (r32 v)) (bpow radix2 128)) eqn:E1.
  - destruct A as (A1 & A2 & A3). rewrite (finite_not_nan _ _ _ A2) in C. destruct C as (C1 & C2 & C3).
    cbv zeta in C3. rewrite A1, A2, (Rlt_bool_false _ _ O1) in C3. cbn [andb] in C3. rewrite A3 in C2.
    split; [rewrite C1; reflexivity|]. intros _. cbn [is_finite Bsign B2R]. split; [exact C3|]. split; [exact C2|].
    destruct z; simpl in *; try discriminate; reflexivity.
  - subst z'. cbn [is_nan is_finite Bsign B2R andb] in C. destruct C as (C1 & C2 & C3).
    split; [rewrite C1; reflexivity|]. intros _. cbn [is_finite Bsign B2R]. split; [exact C3|]. split; [exact C2|].
    destruct z; simpl in *; try discriminate; reflexivity.
Qed.

(** A finite result is the nearest of all values of the format. *)
Lemma computes_nearest : forall (z : F) v s, computes prec emax z v s -> is_finite prec emax z = true ->
  forall y : F, (Rabs (B2R prec emax z - v) <= Rabs (B2R prec emax y - v))%R.
Proof.
  intros z v s C Fz y. unfold computes in C. cbv zeta in C. destruct (Rlt_bool _ _); [|subst; discriminate].
  destruct C as [C _]. rewrite C.
  destruct (round_N_pt radix2 (FLT_exp (3 - emax - prec) prec) (fun x => negb (Z.even x)) v) as [_ N].
  apply N. apply generic_format_B2R.
Qed.

Lemma overflow_inf : forall p e s, binary_overflow p e mode_NE s = F754_infinity s.
Proof. reflexivity. Qed.

Lemma mult_computes : forall p e hp he nan (x y : binary_float p e), is_finite p e x = true -> is_finite p e y = true ->
  computes p e (Bmult p e hp he nan mode_NE x y) (B2R p e x * B2R p e y) (xorb (Bsign p e x) (Bsign p e y)).
Proof.
  intros p e hp he nan x y Fx Fy. unfold computes. cbv zeta. pose proof (Bmult_correct p e hp he nan mode_NE x y) as H.
  change (SpecFloat.fexp p e) with (FLT_exp (3 - e - p) p) in H. change (round_mode mode_NE) with ZnearestE in H.
  destruct (Rlt_bool _ _).
  - destruct H as (H1 & H2 & H3). rewrite Fx, Fy in H2. split; [exact H1|]. split; [exact H2|]. apply H3, finite_not_nan, H2.
  - apply B2FF_inf. exact H.
Qed.

Lemma div_computes : forall p e hp he nan (x y : binary_float p e), is_finite p e x = true -> B2R p e y <> 0%R ->
  computes p e (Bdiv p e hp he nan mode_NE x y) (B2R p e x / B2R p e y) (xorb (Bsign p e x) (Bsign p e y)).
Proof.
  intros p e hp he nan x y Fx Fy. unfold computes. cbv zeta. pose proof (Bdiv_correct p e hp he nan mode_NE x y Fy) as H.
  change (SpecFloat.fexp p e) with (FLT_exp (3 - e - p) p) in H. change (round_mode mode_NE) with ZnearestE in H.
  destruct (Rlt_bool _ _).
  - destruct H as (H1 & H2 & H3). rewrite Fx in H2. split; [exact H1|]. split; [exact H2|]. apply H3, finite_not_nan, H2.
  - apply B2FF_inf. exact H.
Qed.

Definition signed (v : R) (s : bool) : bool := match Rcompare v 0 with Eq => s | Lt => true | Gt => false end.

Lemma sign_le : forall p e (x : binary_float p e), if Bsign p e x then (B2R p e x <= 0)%R else (0 <= B2R p e x)%R.
Proof.
  intros p e x. destruct x as [s|s|s pl h|s m ex h]; simpl; destruct s; try lra.
  - apply F2R_le_0. simpl. lia.
  - apply F2R_ge_0. simpl. lia.
Qed.

Lemma sum_computes : forall p e (hp : Prec_gt_0 p) (z : binary_float p e) (a b : R) (sa sb : bool),
  (if sa then a <= 0 else 0 <= a)%R -> (if sb then b <= 0 else 0 <= b)%R ->
  (let r := round radix2 (FLT_exp (3 - e - p) p) ZnearestE (a + b) in
   if Rlt_bool (Rabs r) (bpow radix2 e)
   then B2R p e z = r /\ is_finite p e z = true /\ Bsign p e z = match Rcompare (a + b) 0 with Eq => sa && sb | Lt => true | Gt => false end
   else B2FF p e z = binary_overflow p e mode_NE sa /\ sa = sb) ->
  computes p e z (a + b) (signed (a + b) (sa && sb)).
Proof.
  intros p e hp z a b sa sb Ha Hb H. unfold computes. cbv zeta in *. destruct (Rlt_bool_spec (Rabs (round radix2 (FLT_exp (3 - e - p) p) ZnearestE (a + b))) (bpow radix2 e)) as [L|L].
  - exact H.
  - destruct H as [H1 H2]. subst sb. assert (N : (a + b <> 0)%R).
    { intros E. rewrite E, round_0 in L by apply valid_rnd_N. rewrite Rabs_R0 in L. pose proof (bpow_gt_0 radix2 e). lra. }
    assert (S : signed (a + b) (sa && sa) = sa).
    { unfold signed. destruct (Rcompare_spec (a + b) 0) as [C|C|C]; [|contradiction|]; destruct sa; try reflexivity; lra. }
    rewrite S. apply B2FF_inf. exact H1.
Qed.

Lemma plus_computes : forall p e hp he nan (x y : binary_float p e), is_finite p e x = true -> is_finite p e y = true ->
  computes p e (Bplus p e hp he nan mode_NE x y) (B2R p e x + B2R p e y) (signed (B2R p e x + B2R p e y) (Bsign p e x && Bsign p e y)).
Proof.
  intros p e hp he nan x y Fx Fy. pose proof (Bplus_correct p e hp he nan mode_NE x y Fx Fy) as H.
  apply sum_computes; [exact hp|apply sign_le|apply sign_le|exact H].
Qed.
Lemma minus_computes : forall p e hp he nan (x y : binary_float p e), is_finite p e x = true -> is_finite p e y = true ->
  computes p e (Bminus p e hp he nan mode_NE x y) (B2R p e x - B2R p e y) (signed (B2R p e x - B2R p e y) (Bsign p e x && negb (Bsign p e y))).
Proof.
  intros p e hp he nan x y Fx Fy. pose proof (Bminus_correct p e hp he nan mode_NE x y Fx Fy) as H.
  unfold Rminus in *. apply sum_computes; [exact hp|apply sign_le| |exact H].
  pose proof (sign_le p e y) as S. destruct (Bsign p e y); simpl; lra.
Qed.

Lemma fmt : forall (x : F), FLT_format radix2 (3 - emax - prec) prec (B2R prec emax x).
Proof. intros x. apply FLT_format_generic; auto. apply generic_format_B2R. Qed.
Lemma same_finite : forall p e p' e' (x : binary_float p e) (y : binary_float p' e'), same_value x y -> is_finite p e x = true ->
  is_finite p' e' y = true /\ Bsign p e x = Bsign p' e' y /\ B2R p e x = B2R p' e' y.
Proof. intros p e p' e' x y [A B] Fx. destruct (B (finite_not_nan _ _ _ Fx)) as (B1 & B2 & B3). rewrite <- B1. auto. Qed.

(** Not finite: both an infinity of the same sign, or both NaN. *)
Lemma same_special : forall p e p' e' (x : binary_float p e) (y : binary_float p' e'), same_value x y -> is_finite p e x = false ->
  (exists s, x = B754_infinity p e s /\ y = B754_infinity p' e' s) \/ (is_nan p e x = true /\ is_nan p' e' y = true).
Proof.
  intros p e p' e' x y [A B] Fx. destruct x as [s|s|s pl h|s m ex h]; try discriminate Fx.
  - left. exists s. split; [reflexivity|]. simpl in A. destruct (B eq_refl) as (B1 & B2 & B3). simpl in B1, B2.
    destruct y as [s'|s'|s' pl' h'|s' m' ex' h']; try discriminate. simpl in B2. subst s'. reflexivity.
  - right. split; [reflexivity|]. rewrite <- A. reflexivity.
Qed.

Lemma rounded_nan : forall (f : binary32) (z : F), is_nan 24 128 f = true -> rounded f z -> is_nan prec emax z = true.
Proof. intros f z N R. unfold rounded in R. rewrite N in R. exact R. Qed.
Lemma rounded_inf : forall s (z : F), rounded (B754_infinity 24 128 s) z -> z = B754_infinity prec emax s.
Proof.
  intros s z R. unfold rounded in R. simpl in R. destruct R as (A & B & C). destruct z; simpl in *; try discriminate. subst. reflexivity.
Qed.
Lemma rounded_zero : forall s (z : F), rounded (B754_zero 24 128 s) z -> z = B754_zero prec emax s.
Proof.
  intros s z R. unfold rounded in R. cbn [is_nan is_finite B2R Bsign andb] in R. destruct R as (A & B & C). cbv zeta in C.
  rewrite round_0 in C by apply valid_rnd_N. rewrite Rabs_R0, Rlt_bool_true in C by apply bpow_gt_0. destruct C as [C D].
  destruct z as [s'|s'|s' pl' h'|s' m' ex' h']; simpl in *; try discriminate; [subst; reflexivity|].
  exfalso. destruct s'; [pose proof (F2R_lt_0 radix2 (Float radix2 (Z.neg m') ex') eq_refl)|pose proof (F2R_gt_0 radix2 (Float radix2 (Z.pos m') ex') eq_refl)]; simpl in *; unfold SpecFloat.cond_Zopp in *; simpl in *; lra.
Qed.
Lemma both_nan : forall (z w : F), is_nan prec emax z = true -> is_nan prec emax w = true -> same_value z w.
Proof. intros z w A B. split; [congruence|]. rewrite A. discriminate. Qed.
Lemma same_refl : forall (z : F), same_value z z.
Proof. intros z. split; auto. Qed.

Lemma build_is_nan : forall p e (x : {x : binary_float p e | is_nan p e x = true}), is_nan p e (build_nan p e x) = true.
Proof. intros p e x. apply is_nan_build_nan. Qed.
End Generic.
