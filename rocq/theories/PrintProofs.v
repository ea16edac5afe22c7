From Coq Require Import ZArith Reals List Bool Arith String Ascii Lia Lra Psatz.
From Flocq Require Import Core IEEE754.BinarySingleNaN IEEE754.Binary IEEE754.Bits.
From Verif Require Import DispatchModel StoreModel StoreSpec StoreProofs CastModel PrintModel PrintSpec.
Import ListNotations.
Open Scope Z_scope.

(** * Numbers *)
Lemma to_string_ok z : int64 z -> is_decimal (to_string z) z.
Proof. intros H. apply to_string_decimal. apply in64_iff. unfold int64 in H. lia. Qed.
Lemma decimal_same v z z' : is_decimal v z -> is_decimal v z' -> z = z'.
Proof.
  intros (ds & D & N & _ & H) (ds' & D' & N' & _ & H'). destruct H as [[-> ->]|(-> & -> & _)], H' as [[E ->]|(E & -> & _)].
  - subst. reflexivity.
  - subst. inversion D as [|? ? Q]; subst. unfold is_digit in Q. lia.
  - subst. inversion D' as [|? ? Q]; subst. unfold is_digit in Q. lia.
  - injection E as ->. reflexivity.
Qed.
(** The characters of numbers. *)
Definition plain (c : Z) : Prop := 48 <= c <= 57 \/ c = 45 \/ c = 46 \/ 97 <= c <= 122.
Definition item (t : text) : Prop := t <> [] /\ Forall plain t.
Lemma digit_plain ds : Forall is_digit ds -> Forall plain ds.
Proof. apply Forall_impl. intros c H. left. exact H. Qed.
Lemma decimal_item v z : is_decimal v z -> item v.
Proof.
  intros (ds & D & N & _ & [[-> _]|(-> & _)]); split; auto; try discriminate; [apply digit_plain; auto|]. constructor; [right; left; reflexivity|apply digit_plain; auto].
Qed.
Lemma micros_ok m e : 0 <= m -> (Rabs (IZR (micros m e) - IZR m * bpow radix2 e * 1000000) <= / 2)%R.
Proof.
  intros M. unfold micros. destruct (Z.leb_spec 0 e) as [H|H].
  - rewrite !mult_IZR. rewrite <- (IZR_Zpower radix2 e H). change (radix_val radix2) with 2. change (IZR (10 ^ 6)) with 1000000%R. rewrite Rminus_diag_eq by reflexivity. rewrite Rabs_R0. lra.
  - set (d := 2 ^ (- e)). assert (D0 : 0 < d) by (apply Z.pow_pos_nonneg; lia). change (10 ^ 6) with 1000000. set (x := m * 1000000).
    assert (E : (IZR m * bpow radix2 e * 1000000 = IZR x / IZR d)%R).
    { unfold x. rewrite mult_IZR. replace e with (- (- e))%Z by lia. rewrite bpow_opp. rewrite <- (IZR_Zpower radix2 (- e)) by lia. change (radix_val radix2) with 2. fold d. assert (IZR d <> 0%R) by (apply not_0_IZR; lia). field. assumption. }
    rewrite E. clear E. assert (Q : x = d * (x / d) + x mod d) by (apply Z.div_mod; lia). pose proof (Z.mod_pos_bound x d D0) as Rb. set (q := x / d) in *. set (r := x mod d) in *. clearbody q r. cbv zeta.
    assert (X : (IZR x / IZR d = IZR q + IZR r / IZR d)%R) by (rewrite Q, plus_IZR, mult_IZR; assert (IZR d <> 0%R) by (apply not_0_IZR; lia); field; assumption). rewrite X. assert (Dp : (0 < IZR d)%R) by (apply IZR_lt; lia).
    assert (Y : (IZR r = IZR r / IZR d * IZR d)%R) by (field; lra). set (y := (IZR r / IZR d)%R) in *. clearbody y. assert (R0 : (0 <= IZR r)%R) by (apply IZR_le; lia). assert (y0 : (0 <= y)%R) by nra.
    destruct ((d <? 2 * r) || ((d =? 2 * r) && Z.odd q)) eqn:G.
    + assert (C : d <= 2 * r) by lia. apply IZR_le in C. rewrite mult_IZR in C. assert (C2 : (IZR r < IZR d)%R) by (apply IZR_lt; lia). assert (/ 2 <= y)%R by nra. assert (y < 1)%R by nra. rewrite plus_IZR. apply Rabs_le. split; lra.
    + assert (C : 2 * r <= d) by lia. apply IZR_le in C. rewrite mult_IZR in C. assert (y <= / 2)%R by nra. apply Rabs_le. split; lra.
Qed.
Lemma micros_pos m e : 0 <= m -> 0 <= micros m e.
Proof.
  intros M. unfold micros. destruct (Z.leb_spec 0 e) as [H|H]; [apply Z.mul_nonneg_nonneg; [apply Z.mul_nonneg_nonneg; [lia|apply Z.pow_nonneg; lia]|lia]|]. cbv zeta. assert (0 <= m * 10 ^ 6 / 2 ^ (- e)) by (apply Z.div_pos; [lia|apply Z.pow_pos_nonneg; lia]). destruct (_ || _); lia.
Qed.
Lemma six_ok r : 0 <= r < 1000000 -> Forall is_digit (six r) /\ List.length (six r) = 6%nat /\ number_of (six r) = r.
Proof.
  intros H. split; [|split; [reflexivity|]].
  - unfold six. apply Forall_forall. intros c Hc. apply in_map_iff in Hc. destruct Hc as (p & <- & _). unfold is_digit. pose proof (Z.mod_pos_bound (r / p) 10 ltac:(lia)). lia.
  - unfold six, number_of. cbn [map fold_left]. rewrite Z.div_1_r. pose proof (Z.div_mod r 10 ltac:(lia)). replace (r / 100) with (r / 10 / 10) by (rewrite Z.div_div by lia; reflexivity). replace (r / 1000) with (r / 10 / 10 / 10) by (rewrite !Z.div_div by lia; reflexivity). replace (r / 10000) with (r / 10 / 10 / 10 / 10) by (rewrite !Z.div_div by lia; reflexivity). replace (r / 100000) with (r / 10 / 10 / 10 / 10 / 10) by (rewrite !Z.div_div by lia; reflexivity).
    set (a := r / 10) in *. pose proof (Z.div_mod a 10 ltac:(lia)). set (b := a / 10) in *. pose proof (Z.div_mod b 10 ltac:(lia)). set (c := b / 10) in *. pose proof (Z.div_mod c 10 ltac:(lia)). set (d := c / 10) in *. pose proof (Z.div_mod d 10 ltac:(lia)). set (f := d / 10) in *.
    assert (f mod 10 = f). { apply Z.mod_small. split; [|]. - unfold f, d, c, b, a. repeat apply Z.div_pos; lia. - unfold f, d, c, b, a. repeat (apply Z.div_lt_upper_bound; [lia|]). lia. } lia.
Qed.
Lemma whole_ok n : 0 <= n < 10 ^ 60 -> is_decimal (whole n) n.
Proof.
  intros H. destruct (digits_ok 59 n []) as (ds & E & H1 & H2 & H3 & H4 & H5); [exact H|]. rewrite app_nil_r in E. exists ds. unfold whole. rewrite E. repeat split; auto.
Qed.
Lemma floatText_shown x : floatShown x (floatText x).
Proof.
  destruct x as [s|s|s pl h|s m e h]; cbn [floatShown floatText].
  - exists [48], [48; 48; 48; 48; 48; 48], 0. split; [destruct s; reflexivity|]. split; [exists [48]; split; [repeat constructor; unfold is_digit; lia|]; split; [discriminate|]; split; [auto|]; left; split; reflexivity|]. split; [lia|]. split; [repeat constructor; unfold is_digit; lia|]. split; [reflexivity|].
    cbn [B2R]. rewrite Rabs_R0. change (number_of [48; 48; 48; 48; 48; 48]) with 0. change (0 * 1000000 + 0) with 0. replace (0 / 1000000 - 0)%R with 0%R by lra. rewrite Rabs_R0. lra.
  - destruct s; reflexivity.
  - destruct s; reflexivity.
  - cbv zeta. set (n := micros (Z.pos m) e). pose proof (micros_ok (Z.pos m) e ltac:(lia)) as M. fold n in M. pose proof (micros_pos (Z.pos m) e ltac:(lia)) as N0. fold n in N0.
    assert (V : Rabs (B2R 24 128 (B754_finite 24 128 s m e h)) = (IZR (Z.pos m) * bpow radix2 e)%R).
    { cbn [B2R]. unfold F2R. cbn [Fnum Fexp]. rewrite Rabs_mult. rewrite (Rabs_pos_eq (bpow radix2 e)) by apply bpow_ge_0. f_equal. rewrite <- abs_IZR. f_equal. destruct s; reflexivity. }
    assert (B : (IZR (Z.pos m) * bpow radix2 e < bpow radix2 128)%R) by (rewrite <- V; apply abs_B2R_lt_emax).
    assert (NB : n < 10 ^ 66).
    { apply lt_IZR. apply Rabs_le_inv in M. change (bpow radix2 128) with (IZR (2 ^ 128)) in B. assert (K : (IZR (2 ^ 128) * 1000000 + / 2 < IZR (10 ^ 66))%R). { apply Rlt_trans with (IZR (2 ^ 128 * 1000000 + 1)); [rewrite plus_IZR, mult_IZR; lra|]. apply IZR_lt. reflexivity. } lra. }
    change (10 ^ 6) with 1000000. pose proof (Z.mod_pos_bound n 1000000 ltac:(lia)) as R6. destruct (six_ok _ R6) as (S1 & S2 & S3). exists (whole (n / 1000000)), (six (n mod 1000000)), (n / 1000000).
    assert (P : 0 <= n / 1000000) by (apply Z.div_pos; lia). split; [destruct s; reflexivity|]. split; [apply whole_ok; split; [exact P|]; apply Z.div_lt_upper_bound; [lia|]; change (1000000 * 10 ^ 60) with (10 ^ 66); exact NB|]. split; [exact P|]. split; [exact S1|]. split; [exact S2|].
    rewrite V, S3. replace (n / 1000000 * 1000000 + n mod 1000000) with n by (rewrite (Z.div_mod n 1000000) at 1 by lia; lia). apply Rabs_le_inv in M. apply Rabs_le. lra.
Qed.
Lemma sixDecimals_item s v t : sixDecimals s v t -> item t.
Proof.
  intros (i & f & n & -> & D & _ & F & L & _). destruct (decimal_item i n D) as [N P]. split.
  - intros E. apply app_eq_nil in E. destruct E as [_ E]. apply app_eq_nil in E. destruct E as [E _]. contradiction.
  - apply Forall_app. split; [destruct s; repeat constructor; unfold plain; lia|]. apply Forall_app. split; [exact P|]. constructor; [unfold plain; lia|apply digit_plain; exact F].
Qed.
Lemma floatShown_item x t : floatShown x t -> item t.
Proof.
  destruct x as [s|s|s pl h|s m e h]; cbn [floatShown].
  - apply sixDecimals_item.
  - intros ->. clear. split; [destruct s; discriminate|destruct s; cbn [app]; repeat (apply Forall_cons; [unfold plain; lia|]); apply Forall_nil].
  - intros ->. clear. split; [destruct s; discriminate|destruct s; cbn [app]; repeat (apply Forall_cons; [unfold plain; lia|]); apply Forall_nil].
  - apply sixDecimals_item.
Qed.
Lemma element_shown t w : (isInt t = true -> int64 w) -> elementShown t w (elementText t w).
Proof. intros H. unfold elementShown, elementText. destruct (isInt t); [apply to_string_ok; auto|apply floatText_shown]. Qed.
Lemma element_item t w s : elementShown t w s -> item s.
Proof. unfold elementShown. destruct (isInt t); [apply decimal_item|apply floatShown_item]. Qed.

(** * Arrays *)
Lemma elements_ok {A} (f : A -> text) : forall n v i last, (i + n <= List.length v)%nat -> (last = i + n - 1)%nat ->
  elements f v i n last = Some (joined (map f (firstn n (skipn i v)))).
Proof.
  induction n as [|n IH]; intros v i last L E; [reflexivity|]. cbn [elements]. destruct (nth_error v i) as [x|] eqn:X; [|apply nth_error_None in X; lia].
  assert (K : skipn i v = x :: skipn (S i) v). { clear - X. revert i X. induction v as [|y v IHv]; intros [|i] X; try discriminate; [injection X as ->; reflexivity|]. cbn in X |- *. apply IHv. exact X. }
  rewrite K. cbn [firstn map]. destruct n as [|n].
  - cbn [elements firstn map joined]. assert (Q : (i =? last)%nat = true) by (apply Nat.eqb_eq; lia). rewrite Q. cbn [app]. rewrite app_nil_r. reflexivity.
  - rewrite (IH v (S i) last) by lia. assert (Q : (i =? last)%nat = false) by (apply Nat.eqb_neq; lia). rewrite Q. destruct (firstn (S n) (skipn (S i) v)) as [|y r] eqn:Y.
    + exfalso. apply (f_equal (@List.length A)) in Y. rewrite firstn_length, skipn_length in Y. cbn [List.length] in Y. lia.
    + reflexivity.
Qed.
Lemma joined_app a b : a <> [] -> b <> [] -> joined (a ++ b) = joined a ++ [44; 32] ++ joined b.
Proof.
  intros Na Nb. induction a as [|x a IH]; [contradiction|]. destruct a as [|y a].
  - cbn [app joined]. destruct b as [|z b]; [contradiction|]. reflexivity.
  - change ((x :: y :: a) ++ b) with (x :: (y :: a) ++ b). change (joined (x :: y :: a)) with (x ++ [44; 32] ++ joined (y :: a)). change (joined (x :: (y :: a) ++ b)) with (x ++ [44; 32] ++ joined ((y :: a) ++ b)). rewrite IH by discriminate. rewrite <- !app_assoc. reflexivity.
Qed.
Lemma forall2_map {A B} (R : A -> B -> Prop) (f : A -> B) l : Forall (fun x => R x (f x)) l -> Forall2 R l (map f l).
Proof. induction 1; cbn; constructor; auto. Qed.
Lemma firstn_forall {A} (P : A -> Prop) n l : Forall P l -> Forall P (firstn n l).
Proof. intros H. apply Forall_forall. intros x I. rewrite Forall_forall in H. apply H. rewrite <- (firstn_skipn n l). apply in_or_app. left. exact I. Qed.
Lemma skipn_forall {A} (P : A -> Prop) n l : Forall P l -> Forall P (skipn n l).
Proof. intros H. apply Forall_forall. intros x I. rewrite Forall_forall in H. apply H. rewrite <- (firstn_skipn n l). apply in_or_app. right. exact I. Qed.
Lemma printArray_ok t v full : Forall (fun w => isInt t = true -> int64 w) v -> exists items, printArray (elementText t) v full = Some ([91] ++ joined items ++ [93]) /\ shownAs t full v items.
Proof.
  intros H. assert (SH : forall l, Forall (fun w => isInt t = true -> int64 w) l -> Forall2 (elementShown t) l (map (elementText t) l)).
  { intros l Hl. apply forall2_map. revert Hl. apply Forall_impl. intros w. apply element_shown. }
  unfold printArray, shownAs. destruct (full || (List.length v <=? 16)%nat) eqn:G.
  - exists (map (elementText t) v). rewrite elements_ok by lia. cbn [skipn]. rewrite firstn_all. split; [reflexivity|apply SH; exact H].
  - apply orb_false_iff in G. destruct G as [_ G]. apply Nat.leb_gt in G. rewrite (elements_ok _ 8 v 0 7), (elements_ok _ 8 v (List.length v - 8)) by lia. cbn [skipn]. set (a := map (elementText t) (firstn 8 v)). set (b := map (elementText t) (firstn 8 (skipn (List.length v - 8) v))).
    set (dots := [[46; 46; 46; 32]] : list text). exists (a ++ dots ++ b). split.
    + assert (Na : a <> []) by (unfold a; destruct v; [cbn in G; lia|discriminate]). assert (Nb : b <> []). { unfold b. intros E. apply (f_equal (@List.length text)) in E. rewrite map_length, firstn_length, skipn_length in E. cbn [List.length] in E. lia. }
      rewrite (joined_app a (dots ++ b)) by (auto; discriminate). rewrite (joined_app dots b) by (auto; discriminate). change (joined dots) with [46; 46; 46; 32]. change (str ", ... , ") with [44; 32; 46; 46; 46; 32; 44; 32]. rewrite <- !app_assoc. reflexivity.
    + exists a, b. split; [reflexivity|]. split; [apply SH; apply firstn_forall; exact H|]. unfold b. rewrite (firstn_all2 (skipn _ v)) by (rewrite skipn_length; lia). apply SH. apply skipn_forall. exact H.
Qed.
Lemma printShape_ok v : Forall int64 v -> exists items, printArray to_string v true = Some ([91] ++ joined items ++ [93]) /\ Forall2 (fun z s => is_decimal s z) v items.
Proof.
  intros H. exists (map to_string v). unfold printArray. cbn [orb]. rewrite elements_ok by lia. cbn [skipn]. rewrite firstn_all. split; [reflexivity|]. apply forall2_map. revert H. apply Forall_impl. intros z. apply to_string_ok.
Qed.
(** * Reading the text back *)
Lemma cut_at (P : Z -> Prop) x x' c c' r r' : Forall (fun z => ~ P z) x -> Forall (fun z => ~ P z) x' -> P c -> P c' -> x ++ c :: r = x' ++ c' :: r' -> x = x' /\ c = c' /\ r = r'.
Proof.
  intros H. revert x'. induction H as [|a x Ha H IH]; intros x' H' C C' E.
  - destruct x' as [|a' x']; [injection E as -> ->; auto|]. injection E as -> _. inversion H'; subst. contradiction.
  - destruct x' as [|a' x']; [injection E as -> _; contradiction|]. injection E as -> E. inversion H'; subst. destruct (IH x') as (-> & -> & ->); auto.
Qed.
Definition sep (c : Z) : Prop := c = 44 \/ c = 93.
(** Pieces that can be told apart. *)
Definition piece (t : text) : Prop := t <> [] /\ Forall (fun c => ~ sep c) t.
Lemma item_piece t : item t -> piece t.
Proof. intros [N P]. split; [exact N|]. revert P. apply Forall_impl. intros c. unfold plain, sep. lia. Qed.
Lemma joined_cut : forall l l' r r', Forall piece l -> Forall piece l' -> joined l ++ 93 :: r = joined l' ++ 93 :: r' -> l = l' /\ r = r'.
Proof.
  assert (Head : forall x m r, exists c y, joined (x :: m) ++ 93 :: r = x ++ c :: y /\ sep c /\ (m = [] -> c = 93 /\ y = r) /\ (m <> [] -> c = 44 /\ y = 32 :: joined m ++ 93 :: r)).
  { intros x [|z m] r; [exists 93, r; cbn [joined]; unfold sep; repeat split; auto; contradiction|]. exists 44, (32 :: joined (z :: m) ++ 93 :: r). split; [change (joined (x :: z :: m)) with (x ++ [44; 32] ++ joined (z :: m)); rewrite <- !app_assoc; reflexivity|]. unfold sep. repeat split; auto; discriminate. }
  induction l as [|x l IH]; intros [|x' l'] r r' H H' E.
  - injection E as ->. auto.
  - destruct (Head x' l' r') as (c & y & Q & _). rewrite Q in E. inversion H' as [|? ? [N F] _]; subst. destruct x' as [|a x']; [contradiction|]. injection E as <- _. inversion F; subst. unfold sep in *. tauto.
  - destruct (Head x l r) as (c & y & Q & _). rewrite Q in E. inversion H as [|? ? [N F] _]; subst. destruct x as [|a x]; [contradiction|]. injection E as -> _. inversion F; subst. unfold sep in *. tauto.
  - inversion H as [|? ? [N F] Hl]; subst. inversion H' as [|? ? [N' F'] Hl']; subst. destruct (Head x l r) as (c & y & Q & C & C1 & C2). destruct (Head x' l' r') as (c' & y' & Q' & C' & C1' & C2'). rewrite Q, Q' in E.
    destruct (cut_at sep _ _ _ _ _ _ F F' C C' E) as (-> & -> & ->). destruct l as [|z l], l' as [|z' l'].
    + destruct (C1 eq_refl) as [_ ->]. destruct (C1' eq_refl) as [_ ->]. auto.
    + destruct (C1 eq_refl) as [-> _]. destruct (C2' ltac:(discriminate)) as [? _]. discriminate.
    + destruct (C2 ltac:(discriminate)) as [-> _]. destruct (C1' eq_refl) as [? _]. discriminate.
    + destruct (C2 ltac:(discriminate)) as [_ ->]. destruct (C2' ltac:(discriminate)) as [_ E2]. injection E2 as E2. destruct (IH (z' :: l') r r' Hl Hl' E2) as [-> ->]. auto.
Qed.
