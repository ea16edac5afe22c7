From Coq Require Import ZArith Reals Bool List Lia Lra Arith.
From Flocq Require Import Core IEEE754.BinarySingleNaN IEEE754.Binary IEEE754.Bits.
From Verif Require Import DispatchModel FloatModel FloatSpec FloatProofs3 FloatProofs4 Arith16Model Arith16Proofs Arith16Proofs3 CmpSpec ShapeModel TensorModel BcastModel CastModel CastSpec CastProofs.
Import ListNotations.
Local Open Scope Z_scope.

(** * Order *)
Lemma le_num : forall a b, num_le (Num a) (Num b) <-> (a <= b)%R.
Proof.
  intros a b. unfold num_le, num_eq, num_lt. split.
  - intros [H|[_ H]]; [lra|injection H as ->; lra].
  - intros [H|H]; [left; exact H|right]. subst. split; [discriminate|reflexivity].
Qed.
Lemma le_refl : forall a, a <> NaN -> num_le a a.
Proof. intros a H. right. split; auto. Qed.
Lemma nearest_order : forall p e a b, 0 < p -> num_le a b -> num_le (nearest p e a) (nearest p e b).
Proof.
  intros p e a b Hp H. assert (HP : Prec_gt_0 p) by exact Hp.
  destruct a as [| |r|], b as [| |r'|]; try (destruct H as [H|[H H']]; [destruct H|]; try discriminate; destruct (H eq_refl); fail);
    try (apply le_refl; discriminate); try (destruct H as [[]|[_ H]]; discriminate).
  - unfold nearest. cbv zeta. destruct (Rlt_bool _ _); [left; exact I|]. destruct (Rlt_bool _ _); [apply le_refl; discriminate|left; exact I].
  - left. exact I.
  - apply le_num in H. unfold nearest. cbv zeta.
    assert (M : (round radix2 (FLT_exp (3 - e - p) p) ZnearestE r <= round radix2 (FLT_exp (3 - e - p) p) ZnearestE r')%R) by (apply round_le; auto with typeclass_instances).
    set (v := round radix2 (FLT_exp (3 - e - p) p) ZnearestE r) in *. set (v' := round radix2 (FLT_exp (3 - e - p) p) ZnearestE r') in *.
    assert (Zr : (r < 0 \/ 0 <= v)%R).
    { destruct (Rlt_le_dec r 0) as [L|L]; [left; exact L|right]. unfold v. rewrite <- (round_0 radix2 (FLT_exp (3 - e - p) p) ZnearestE). apply round_le; auto with typeclass_instances. }
    assert (Zr' : (0 <= r' \/ v' <= 0)%R).
    { destruct (Rlt_le_dec r' 0) as [L|L]; [right|left; exact L]. unfold v'. rewrite <- (round_0 radix2 (FLT_exp (3 - e - p) p) ZnearestE). apply round_le; auto with typeclass_instances. lra. }
    destruct (Rlt_bool_spec (Rabs v) (bpow radix2 e)) as [A|A]; destruct (Rlt_bool_spec (Rabs v') (bpow radix2 e)) as [B|B].
    + apply le_num. exact M.
    + destruct (Rlt_bool_spec r' 0) as [C|C]; [|left; exact I]. exfalso. destruct Zr' as [Z|Z]; [lra|].
      apply Rabs_def2 in A. rewrite Rabs_left1 in B by lra. lra.
    + destruct (Rlt_bool_spec r 0) as [C|C]; [left; exact I|]. exfalso. destruct Zr as [Z|Z]; [lra|].
      apply Rabs_def2 in B. rewrite Rabs_pos_eq in A by lra. lra.
    + destruct (Rlt_bool_spec r 0) as [C|C]; destruct (Rlt_bool_spec r' 0) as [D|D]; try (apply le_refl; discriminate); [left; exact I|lra].
  - unfold nearest. cbv zeta. destruct (Rlt_bool _ _); [left; exact I|]. destruct (Rlt_bool _ _); [left; exact I|apply le_refl; discriminate].
Qed.
Lemma prec_pos : forall t, 0 < precision t. Proof. intros []; reflexivity. Qed.
Lemma cast_order : forall s d x y u v, cell s x -> cell s y -> (integral s -> integral d -> cell d x /\ cell d y) ->
  cast s d x = Ok u -> cast s d y = Ok v -> num_le (value s x) (value s y) -> num_le (value d u) (value d v).
Proof.
  intros s d x y u v X Y W U V H. destruct (integral_case d) as [D|D].
  - destruct (integral_case s) as [S|S].
    + destruct (W S D) as [Wx Wy]. destruct (cast_wrap s d x X S D) as (u' & A & _ & B & _). rewrite U in A. injection A as <-.
      destruct (cast_wrap s d y Y S D) as (v' & A & _ & C & _). rewrite V in A. injection A as <-.
      rewrite (B Wx), (C Wy), !(value_integral d _ D). rewrite !(value_integral s _ S) in H. exact H.
    + pose proof (cast_chop s d x X S D) as A. pose proof (cast_chop s d y Y S D) as B.
      destruct (value s x) as [| |r|]; try (rewrite (converted_int_none d) in A by (auto; discriminate); rewrite A in U; discriminate).
      destruct (value s y) as [| |r'|]; try (rewrite (converted_int_none d) in B by (auto; discriminate); rewrite B in V; discriminate).
      rewrite (converted_int d r D) in A. rewrite (converted_int d r' D) in B.
      destruct (inside d (Ztrunc r)); [|rewrite A in U; discriminate]. destruct (inside d (Ztrunc r')); [|rewrite B in V; discriminate].
      destruct A as (u' & A & _ & A'). destruct B as (v' & B & _ & B'). rewrite U in A. injection A as <-. rewrite V in B. injection B as <-.
      rewrite A', B'. apply le_num. apply le_num in H. apply IZR_le. apply Ztrunc_le. exact H.
  - destruct (cast_float_two s d x X D) as (u' & A & _ & A'). destruct (cast_float_two s d y Y D) as (v' & B & _ & B').
    rewrite U in A. injection A as <-. rewrite V in B. injection B as <-. rewrite A', B'.
    apply nearest_order; [apply prec_pos|]. apply nearest_order; [reflexivity|exact H].
Qed.

(** * Signs *)
Lemma number_nan : forall p e (x : binary_float p e), number_of x <> NaN -> is_nan p e x = false.
Proof. intros p e x H. unfold number_of in H. destruct (is_nan p e x); [destruct (H eq_refl)|reflexivity]. Qed.
Lemma toFloat_sign : forall s w, floating s -> cell s w -> value s w <> NaN -> is_nan 24 128 (toFloat s w) = false /\ Bsign 24 128 (toFloat s w) = minus s w.
Proof.
  intros s w F C N. destruct F as [-> | [-> | ->]]; cbn [toFloat minus value] in *; cbn [cell element] in C; apply number_nan in N.
  - auto.
  - destruct (half_widen_lemma w C) as [A B]. rewrite N in A. destruct (B N) as (_ & S & _). unfold half_float. split; congruence.
  - destruct (bf16_widen_lemma w C) as [A B]. rewrite N in A. destruct (B N) as (_ & S & _). unfold bf16_float. split; congruence.
Qed.
Lemma cast_sign : forall s d w v, floating s -> floating d -> cell s w -> value s w <> NaN -> cast s d w = Ok v -> minus d v = minus s w.
Proof.
  intros s d w v S D C N E. destruct (toFloat_sign s w S C N) as [A B]. rewrite <- B. clear B.
  destruct D as [-> | [-> | ->]]; cbn [cast] in E; injection E as <-; cbn [minus].
  - rewrite bits_back. reflexivity.
  - pose proof (half_narrow (toFloat s w)) as R. unfold rounded in R. rewrite A in R. apply R.
  - pose proof (bf16_narrow (toFloat s w)) as R. unfold rounded in R. rewrite A in R. apply R.
Qed.

(** * One conversion, with everything regular *)
Lemma cast_regular : forall s t w, cell s w -> regular s t w ->
  match converted t (value s w) with
  | Some n => exists v, cast s t w = Ok v /\ cell t v /\ value t v = n
  | None => cast s t w = UB
  end.
Proof.
  intros s t w C [R1 R2]. destruct (integral_case t) as [D|D].
  - destruct (integral_case s) as [S|S]; [|apply cast_chop; auto].
    rewrite (value_integral s w S), (converted_int t _ D), Ztrunc_IZR, (proj2 (inside_cell t w D) (R2 S D)).
    destruct (cast_wrap s t w C S D) as (v & A & B & E & _). exists v. split; [exact A|]. split; [exact B|].
    rewrite (E (R2 S D)). apply value_integral. exact D.
  - destruct (cast_float s t w C D) as (v & A & B & E); [intros; auto|]. rewrite E. exists v. auto.
Qed.
Lemma converted_own : forall t w, cell t w -> converted t (value t w) = Some (value t w).
Proof.
  intros t w C. destruct (integral_case t) as [D|D].
  - rewrite (value_integral t w D), (converted_int t _ D), Ztrunc_IZR, (proj2 (inside_cell t w D) C). reflexivity.
  - rewrite <- (value_own t w D) at 2. destruct D as [-> | [-> | ->]]; reflexivity.
Qed.

(** * Tensors *)
Lemma castAll_ok : forall f (P : Z -> Z -> Prop) l, (forall w, In w l -> exists v, f w = Ok v /\ P w v) ->
  exists vs, castAll f l = Ok vs /\ Forall2 P l vs.
Proof.
  intros f P l. induction l as [|w l IH]; intros H; [exists []; cbn; auto|].
  destruct (H w (or_introl eq_refl)) as (v & A & B). destruct IH as (vs & C & D); [intros w' I; apply H; right; exact I|].
  exists (v :: vs). cbn [castAll]. rewrite A, C. auto.
Qed.
Lemma castAll_ub : forall f l w, In w l -> f w = UB -> castAll f l = UB.
Proof.
  intros f l w. induction l as [|x l IH]; intros I U; [destruct I|]. cbn [castAll]. destruct I as [-> | I]; [rewrite U; reflexivity|].
  rewrite (IH I U). destruct (f x); reflexivity.
Qed.
Lemma castAll_inv : forall f l vs, castAll f l = Ok vs -> Forall2 (fun w v => f w = Ok v) l vs.
Proof.
  intros f l. induction l as [|w l IH]; intros vs E; cbn [castAll] in E; [injection E as <-; constructor|].
  destruct (f w) eqn:A; try discriminate. destruct (castAll f l) eqn:B; try discriminate. injection E as <-. constructor; auto.
Qed.
Lemma type_eq : forall a b, (dtypeNum a =? dtypeNum b)%nat = true <-> a = b.
Proof. intros [] []; cbn; split; intro; auto; discriminate. Qed.
Lemma to_ok : forall t s x (P : Z -> Z -> Prop),
  (forall w, In w (els x) -> (dt x = t -> P w w) /\ (dt x <> t -> exists v, cast (dt x) t w = Ok v /\ P w v)) ->
  exists y, to t s x = Ok y /\ dt y = t /\ sh y = sh x /\ Forall2 P (els x) (els y).
Proof.
  intros t s x P H. unfold to. destruct (dtypeNum (dt x) =? dtypeNum t)%nat eqn:E.
  - apply type_eq in E. exists x. split; [reflexivity|]. split; [exact E|]. split; [reflexivity|].
    assert (K : forall w, In w (els x) -> P w w) by (intros w I; apply (H w I); exact E). clear -K.
    induction (els x) as [|w l IH]; constructor; [apply K; left; reflexivity|]. apply IH. intros w' I. apply K. right. exact I.
  - assert (N : dt x <> t) by (intros A; apply type_eq in A; congruence).
    destruct (castAll_ok (cast (dt x) t) P (els x)) as (vs & A & B); [intros w I; apply (H w I); exact N|].
    rewrite A. eexists. split; [reflexivity|]. cbn. auto.
Qed.
Lemma to_converts_lemma : forall x t s,
  (forall w, In w (els x) -> cell (dt x) w /\ regular (dt x) t w /\ converted t (value (dt x) w) <> None) ->
  exists y, to t s x = Ok y /\ dt y = t /\ sh y = sh x
    /\ Forall2 (fun w v => cell t v /\ converted t (value (dt x) w) = Some (value t v)) (els x) (els y).
Proof.
  intros x t s H. apply to_ok. intros w I. destruct (H w I) as (C & R & N). split.
  - intros E. rewrite E in *. split; [exact C|]. apply converted_own. exact C.
  - intros _. pose proof (cast_regular _ _ _ C R) as K. destruct (converted t (value (dt x) w)) as [n|]; [|destruct (N eq_refl)].
    destruct K as (v & A & B & D). exists v. split; [exact A|]. split; [exact B|]. congruence.
Qed.
Lemma to_keeps_lemma : forall x t s, (forall w, In w (els x) -> cell (dt x) w /\ has_too (dt x) t w) ->
  exists y, to t s x = Ok y /\ dt y = t /\ sh y = sh x
    /\ Forall2 (fun w v => cell t v /\ value t v = value (dt x) w) (els x) (els y).
Proof.
  intros x t s H. apply to_ok. intros w I. destruct (H w I) as (C & U). split.
  - intros E. rewrite E in *. auto.
  - intros _. apply cast_keeps; auto.
Qed.
Lemma Forall2_in_r : forall (P : Z -> Z -> Prop) l l' v, Forall2 P l l' -> In v l' -> exists w, In w l /\ P w v.
Proof.
  intros P l l' v F. induction F as [|a b l l' Hp F IH]; intros I; [destruct I|]. destruct I as [-> | I]; [exists a; split; [left; reflexivity|exact Hp]|].
  destruct (IH I) as (w & A & B). exists w. split; [right; exact A|exact B].
Qed.
Lemma Forall2_trans3 : forall (P Q R : Z -> Z -> Prop) l l' l'', (forall a b c, In a l -> P a b -> Q b c -> R a c) -> Forall2 P l l' -> Forall2 Q l' l'' -> Forall2 R l l''.
Proof.
  intros P Q R l l' l'' H F. revert l'' H. induction F as [|a b l l' Hp F IH]; intros l'' H G; inversion G as [|b' c m m' Hq G']; subst; constructor.
  - eapply H; eauto. left. reflexivity.
  - apply IH; [|exact G']. intros; eapply H; eauto. right. assumption.
Qed.
Lemma round_trip_lemma : forall x t s s', (forall w, In w (els x) -> cell (dt x) w /\ has_too (dt x) t w) ->
  exists y z, to t s x = Ok y /\ to (dt x) s' y = Ok z /\ dt z = dt x /\ sh z = sh x /\ Forall2 (fun w v => value (dt x) v = value (dt x) w) (els x) (els z).
Proof.
  intros x t s s' H. destruct (to_keeps_lemma x t s H) as (y & A & B & C & D).
  destruct (to_keeps_lemma y (dt x) s') as (z & E & F & G & K).
  { intros v I. destruct (Forall2_in_r _ _ _ _ D I) as (w & J & (V & W)). rewrite B. split; [exact V|]. destruct (H w J) as [L _]. exists w. auto. }
  exists y, z. split; [exact A|]. split; [exact E|]. split; [exact F|]. split; [congruence|].
  eapply Forall2_trans3; [|exact D|exact K]. cbn beta. rewrite B. intros a b c _ [_ P] [_ Q]. congruence.
Qed.
Lemma to_inv : forall t s x y, to t s x = Ok y -> dt x <> t ->
  dt y = t /\ sh y = sh x /\ stor y = s /\ rg y = rg x /\ hist y = false /\ Forall2 (fun w v => cast (dt x) t w = Ok v) (els x) (els y).
Proof.
  intros t s x y E N. unfold to in E. destruct (dtypeNum (dt x) =? dtypeNum t)%nat eqn:T; [apply type_eq in T; contradiction|].
  destruct (castAll (cast (dt x) t) (els x)) eqn:A; try discriminate. injection E as <-. cbn. repeat (split; [reflexivity|]). apply castAll_inv. exact A.
Qed.
Lemma to_refused_lemma : forall x t s w, floating (dt x) -> integral t -> In w (els x) -> cell (dt x) w ->
  converted t (value (dt x) w) = None -> to t s x = UB.
Proof.
  intros x t s w F D I C N. unfold to. destruct (dtypeNum (dt x) =? dtypeNum t)%nat eqn:T.
  { apply type_eq in T. rewrite T in F. destruct D as [-> | [-> | ->]], F as [F|[F|F]]; discriminate. }
  rewrite (castAll_ub _ _ w I); [reflexivity|]. pose proof (cast_chop _ _ _ C F D) as K. rewrite N in K. exact K.
Qed.
