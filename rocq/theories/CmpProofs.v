From Coq Require Import ZArith List Bool Reals Lra Lia.
From Flocq Require Import Core IEEE754.BinarySingleNaN IEEE754.Binary IEEE754.Bits.
From Verif Require Import ShapeModel ShapeSpec TensorModel TensorSpec TensorLemmas BcastModel BcastSpec BcastProofs
  DispatchModel FloatModel FloatSpec FloatProps CmpModel CmpSpec.
Import ListNotations.
Local Open Scope Z_scope.

Lemma number_same {p e p' e'} (x : binary_float p e) (y : binary_float p' e') : same_value x y -> number_of x = number_of y.
Proof.
  intros [N H]. unfold number_of. rewrite <- N. destruct (is_nan p e x); auto. destruct (H eq_refl) as [F [S V]].
  rewrite <- F, <- S, <- V. reflexivity.
Qed.
Lemma asFloat_value t w : floating t -> element t w -> number_of (asFloat t w) = value t w.
Proof.
  intros [ -> |[ -> | -> ]] E; cbn [asFloat value].
  - reflexivity.
  - symmetry. apply number_same, half_widen_exact. exact E.
  - symmetry. apply number_same, bf16_widen_exact. exact E.
Qed.
Lemma finite_number (x : binary32) : is_finite 24 128 x = true -> number_of x = Num (B2R 24 128 x).
Proof. destruct x; try discriminate; reflexivity. Qed.
Lemma b32_cases (x y : binary32) :
  match b32_compare x y with
  | Some Lt => num_lt (number_of x) (number_of y)
  | Some Eq => num_eq (number_of x) (number_of y)
  | Some Gt => num_lt (number_of y) (number_of x)
  | None => number_of x = NaN \/ number_of y = NaN
  end.
Proof.
  unfold b32_compare.
  destruct (is_finite 24 128 x) eqn:Fx; [destruct (is_finite 24 128 y) eqn:Fy|].
  - rewrite Bcompare_correct by auto. rewrite !finite_number by auto. destruct (Rcompare_spec (B2R 24 128 x) (B2R 24 128 y)); cbn; auto.
    split; [discriminate|congruence].
  - rewrite (finite_number x) by auto. destruct y as [s|s|s pl e|s m e0 B]; try discriminate; destruct x as [s'|s'|s' pl' e'|s' m' e' B']; try discriminate;
      destruct s; cbn; auto.
  - destruct x as [s'|s'|s' pl' e'|s' m' e' B']; try discriminate; [|left; reflexivity].
    destruct y as [s|s|s pl e|s m e0 B]; destruct s'; try destruct s; cbn; auto; try (split; [discriminate|reflexivity]).
Qed.
Lemma relate_cases t a b : comparable t -> element t a -> element t b ->
  match relate t a b with
  | Some Lt => num_lt (value t a) (value t b)
  | Some Eq => num_eq (value t a) (value t b)
  | Some Gt => num_lt (value t b) (value t a)
  | None => value t a = NaN \/ value t b = NaN
  end.
Proof.
  intros [F| -> ] Ea Eb.
  - pose proof (b32_cases (asFloat t a) (asFloat t b)) as H. rewrite !asFloat_value in H by auto.
    destruct F as [ -> |[ -> | -> ]]; exact H.
  - cbn [relate]. destruct (Z.compare_spec a b) as [E|E|E]; cbn.
    + split; [discriminate|congruence].
    + apply IZR_lt; auto.
    + apply IZR_lt; auto.
Qed.
Lemma num_excl a b : (num_lt a b -> ~ num_eq a b /\ ~ num_lt b a) /\ (num_eq a b -> ~ num_lt a b /\ ~ num_lt b a).
Proof.
  unfold num_eq. split.
  - intro H. split.
    + intros [N <-]. destruct a; cbn in H; try tauto. lra.
    + intro G. destruct a, b; cbn in H, G; try tauto. lra.
  - intros [N <-]. destruct a; cbn; try tauto. split; lra.
Qed.
Lemma num_nan a b : a = NaN \/ b = NaN -> ~ num_lt a b /\ ~ num_eq a b /\ ~ num_lt b a.
Proof. unfold num_eq. intros [-> | ->]; repeat split; try destruct a; try destruct b; cbn; intuition congruence. Qed.
Lemma num_eq_sym a b : num_eq a b -> num_eq b a.
Proof. unfold num_eq. intros [H <-]. auto. Qed.
Lemma cmp_ok o t a b : comparable t -> element t a -> element t b ->
  (cmpApply o t a b = true <-> cmp_meaning o (value t a) (value t b)).
Proof.
  intros C Ea Eb. pose proof (relate_cases t a b C Ea Eb) as H.
  pose proof (num_excl (value t a) (value t b)) as [X1 X2]. pose proof (num_excl (value t b) (value t a)) as [Y1 Y2].
  pose proof (num_nan (value t a) (value t b)) as N. pose proof (num_eq_sym (value t a) (value t b)). pose proof (num_eq_sym (value t b) (value t a)).
  destruct o; cbn [cmpApply cmp_meaning]; unfold equal, less, greater, lessEq, greaterEq, num_le;
    destruct (relate t a b) as [[| |]|]; cbn [negb]; intuition congruence.
Qed.
Lemma less_ok t a b : comparable t -> element t a -> element t b -> (less t a b = true <-> num_lt (value t a) (value t b)).
Proof. intros. apply (cmp_ok OpLt); auto. Qed.
Lemma greater_ok t a b : comparable t -> element t a -> element t b -> (greater t a b = true <-> num_lt (value t b) (value t a)).
Proof. intros. apply (cmp_ok OpGt); auto. Qed.
Lemma num_total a b : a <> NaN -> b <> NaN -> num_lt a b \/ num_eq a b \/ num_lt b a.
Proof.
  intros A B. unfold num_eq. destruct a, b; cbn; try tauto.
  destruct (Rtotal_order x x0) as [H|[->|H]]; auto.
Qed.
Lemma num_lt_trans a b c : num_lt a b -> num_lt b c -> num_lt a c.
Proof. destruct a, b, c; cbn; try tauto. lra. Qed.
