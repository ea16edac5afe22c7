From Coq Require Import ZArith Reals List Bool Arith String Ascii Lia Lra.
From Flocq Require Import Core IEEE754.BinarySingleNaN IEEE754.Binary IEEE754.Bits.
From Verif Require Import DispatchModel StoreModel StoreSpec StoreProofs CastModel PrintModel PrintSpec PrintSpec2 PrintProofs PrintProofs2.
Import ListNotations.
Open Scope Z_scope.

Lemma number_nonneg ds : Forall is_digit ds -> forall a, 0 <= a -> 0 <= fold_left (fun a d => 10 * a + (d - 48)) ds a.
Proof. induction 1 as [|d ds H _ IH]; intros a A; cbn [fold_left]; [exact A|]. apply IH. unfold is_digit in H. lia. Qed.
Lemma nonneg_digits i n : is_decimal i n -> 0 <= n -> Forall is_digit i /\ i <> [].
Proof.
  intros (ds & F & N & _ & [[-> _]|[_ [E Z0]]]) H; [split; assumption|]. exfalso. pose proof (number_nonneg ds F 0 ltac:(lia)) as P. unfold number_of in E. lia.
Qed.
Lemma six_same s s' v v' t : sixDecimals s v t -> sixDecimals s' v' t -> s = s' /\ (Rabs (Rabs v - Rabs v') <= / 1000000)%R.
Proof.
  intros (i & f & n & E & Di & N & Ff & L & B) (i' & f' & n' & E' & Di' & N' & Ff' & L' & B'). subst t. destruct (nonneg_digits i n Di N) as [Fi Ni]. destruct (nonneg_digits i' n' Di' N') as [Fi' Ni'].
  assert (S : s = s'). { destruct s, s'; try reflexivity; cbn [app] in E'. - destruct i' as [|c i']; [contradiction|]. injection E' as <- _. inversion Fi'; subst. unfold is_digit in *. lia. - destruct i as [|c i]; [contradiction|]. injection E' as -> _. inversion Fi; subst. unfold is_digit in *. lia. }
  split; [exact S|]. subst s'. apply app_inv_head in E'. cbn [app] in E'.
  assert (D : forall x, Forall is_digit x -> Forall (fun c => ~ c = 46) x) by (intros x; apply Forall_impl; unfold is_digit; intros; lia). destruct (cut_at (fun c => c = 46) _ _ _ _ _ _ (D i Fi) (D i' Fi') eq_refl eq_refl E') as (<- & _ & <-). rewrite <- (decimal_same _ _ _ Di Di') in B'.
  set (q := (IZR (n * 1000000 + number_of f) / 1000000)%R) in *. clearbody q. apply Rabs_le_inv in B, B'. apply Rabs_le. lra.
Qed.
Lemma six_dot s v t : sixDecimals s v t -> In 46 t.
Proof. intros (i & f & n & -> & _). apply in_or_app. right. apply in_or_app. right. left. reflexivity. Qed.
Lemma sign_le (x : binary32) : if Bsign 24 128 x then (B2R 24 128 x <= 0)%R else (0 <= B2R 24 128 x)%R.
Proof. destruct x as [s|s|s pl h|s m e h]; cbn [Bsign B2R]; try (destruct s; lra). destruct s; [apply F2R_le_0; cbn; lia|apply F2R_ge_0; cbn; lia]. Qed.
Lemma finite_shown (x : binary32) t : is_finite 24 128 x = true -> floatShown x t -> sixDecimals (Bsign 24 128 x) (B2R 24 128 x) t.
Proof. destruct x; cbn [is_finite floatShown]; intros F; try discriminate F; exact (fun H => H). Qed.
Lemma other_shown (x : binary32) t : is_finite 24 128 x = false -> floatShown x t -> t = (if Bsign 24 128 x then [45] else []) ++ (if is_nan 24 128 x then [110; 97; 110] else [105; 110; 102]).
Proof. destruct x; cbn [is_finite floatShown Bsign is_nan]; intros F; try discriminate F; exact (fun H => H). Qed.
Lemma float_alike x y t : floatShown x t -> floatShown y t -> alike x y.
Proof.
  intros X Y. unfold alike. destruct (is_finite 24 128 x) eqn:FX, (is_finite 24 128 y) eqn:FY.
  - destruct (six_same _ _ _ _ _ (finite_shown x t FX X) (finite_shown y t FY Y)) as [S B]. split; [exact S|]. left. split; [reflexivity|]. split; [reflexivity|]. pose proof (sign_le x) as P. pose proof (sign_le y) as Q. rewrite <- S in Q.
    destruct (Bsign 24 128 x); [rewrite (Rabs_left1 _ P), (Rabs_left1 _ Q) in B|rewrite (Rabs_pos_eq _ P), (Rabs_pos_eq _ Q) in B]; apply Rabs_le_inv in B; apply Rabs_le; lra.
  - exfalso. pose proof (six_dot _ _ _ (finite_shown x t FX X)) as D. rewrite (other_shown y t FY Y) in D. clear - D. destruct (Bsign 24 128 y), (is_nan 24 128 y); cbn in D; lia.
  - exfalso. pose proof (six_dot _ _ _ (finite_shown y t FY Y)) as D. rewrite (other_shown x t FX X) in D. clear - D. destruct (Bsign 24 128 x), (is_nan 24 128 x); cbn in D; lia.
  - pose proof (other_shown x t FX X) as E. rewrite (other_shown y t FY Y) in E. clear - E. destruct (Bsign 24 128 x), (is_nan 24 128 x), (Bsign 24 128 y), (is_nan 24 128 y); try discriminate E; (split; [reflexivity|right; repeat split]).
Qed.
Lemma f2_alike t l : isInt t = false -> forall v v', Forall2 (elementShown t) v l -> Forall2 (elementShown t) v' l -> Forall2 (fun a b => alike (toFloat t a) (toFloat t b)) v v'.
Proof.
  intros N. induction l as [|s l IH]; intros v v' H H'; inversion H; subst; inversion H'; subst; [constructor|]. unfold elementShown in *. rewrite N in *. constructor; [eapply float_alike; eassumption|]. apply IH; assumption.
Qed.
Lemma shown_alike t full v v' l : isInt t = false -> shownAs t full v l -> shownAs t full v' l -> Forall2 (fun a b => alike (toFloat t a) (toFloat t b)) (seenElements full v) (seenElements full v').
Proof.
  intros N. unfold shownAs, seenElements. destruct full; cbn [orb]; [intros H H'; exact (f2_alike t l N v v' H H')|]. destruct (Nat.leb_spec (List.length v) 16) as [L|L], (Nat.leb_spec (List.length v') 16) as [L'|L'].
  - intros H H'. exact (f2_alike t l N v v' H H').
  - intros H (a & b & -> & A & B). apply f2_length in H, A, B. rewrite app_length in H. rewrite firstn_length in A. rewrite skipn_length in B. cbn [app List.length] in H. unfold text in *. lia.
  - intros (a & b & -> & A & B) H. apply f2_length in H, A, B. rewrite app_length in H. rewrite firstn_length in A. rewrite skipn_length in B. cbn [app List.length] in H. unfold text in *. lia.
  - intros (a & b & -> & A & B) (a' & b' & E & A' & B'). pose proof (f2_length _ _ _ A) as K. pose proof (f2_length _ _ _ A') as K'. rewrite firstn_length in K, K'. unfold text in *. assert (La : List.length a = List.length a') by lia.
    assert (AE : a = a' /\ b = b'). { clear - E La. revert a' La E. induction a as [|x a IH]; intros [|x' a'] La E; try discriminate La; [injection E as ->; auto|]. injection E as -> E. injection La as La. destruct (IH a' La E) as [-> ->]. auto. }
    destruct AE as [<- <-]. apply Forall2_app; [exact (f2_alike t a N _ _ A A')|exact (f2_alike t b N _ _ B B')].
Qed.
