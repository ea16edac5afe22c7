(** Which category the kernels of multinomial select. *)
From Coq Require Import ZArith Reals List Arith Bool Lia Lra Permutation.
From Flocq Require Import Core IEEE754.BinarySingleNaN IEEE754.Binary IEEE754.Bits.
From Verif Require Import ShapeModel ShapeSpec ShapeProofs TensorModel TensorSpec TensorLemmas BcastModel BufModel MultiModel MultiSpec MultiProofs MultiProofs2 CudaMultiModel CudaMultiSpec CudaMultiProofs.
Import ListNotations.
Open Scope R_scope.
Local Notation fin w := (is_finite 24 128 w = true).
Local Notation fexp := (FLT_exp (-149) 24).
Local Notation fmt := (generic_format radix2 fexp).

Local Instance vexp : Valid_exp fexp. Proof. apply FLT_exp_valid. reflexivity. Qed.
Lemma plain_ordinary w : plain w -> ordinary w.
Proof. intros [F [E|[E1 E2]]]; split; auto. right. split; auto. apply Rlt_le_trans with (2 := E1). apply bpow_lt. lia. Qed.
Lemma plain_nonneg w : plain w -> 0 <= val w.
Proof. intros [_ [E|[E1 E2]]]; [lra|]. pose proof (bpow_gt_0 radix2 (-116)). lra. Qed.
Lemma plain_pos w : plain w -> 0 < val w -> bpow radix2 (-116) <= val w.
Proof. intros [_ [E|[E1 E2]]] H; lra. Qed.
Lemma f0_plain : plain f0.
Proof. split; [reflexivity|left; reflexivity]. Qed.
Lemma fge_ok a b : fin a -> fin b -> fge a b = true <-> val b <= val a.
Proof.
  intros Fa Fb. unfold fge, b32_compare, val. rewrite (Bcompare_correct 24 128) by auto. destruct (Rcompare_spec (B2R 24 128 a) (B2R 24 128 b)); split; try discriminate; auto; lra.
Qed.
(** The scaled random number. *)
Lemma scaled u t : in_unit_right u -> fin t -> bpow radix2 (-116) <= val t ->
  let r := b32_mult mode_NE u t in fin r /\ val r = rnd32 (val u * val t) /\ 0 < val r <= val t.
Proof.
  intros [Fu Hu] Ft Ht r. pose proof (bpow_gt_0 radix2 (-116)). pose proof (bpow_gt_0 radix2 (-33)).
  destruct (mult_ok u t) as [Fr Er]; auto; try lra. fold r in Fr, Er. split; auto. split; auto. rewrite Er. split.
  - apply Rlt_le_trans with (bpow radix2 (-149)); [apply bpow_gt_0|]. rewrite <- (rnd_fmt (bpow radix2 (-149))) by (apply fmt_bpow; lia). apply rnd_mono.
    change (-149)%Z with (-33 + -116)%Z. rewrite bpow_plus. apply Rmult_le_compat; lra.
  - rewrite <- (rnd_fmt (val t)) at 2 by apply fmt_val. apply rnd_mono. nra.
Qed.

(** ** Searching in a cumulated sum *)
Lemma searchF_spec c r : fin r -> forall fuel left right, (left <= right)%nat -> (right <= left + fuel)%nat -> (forall i, (i < right)%nat -> fin (c i)) ->
  let x := searchF fuel c left right r in ((left < x)%nat -> val (c (x - 1)%nat) < val r) /\ ((x < right)%nat -> val r <= val (c x)).
Proof.
  intros Fr. induction fuel as [|fuel IH]; intros left right L1 L2 F x; subst x; cbn [searchF]; destruct (Nat.ltb_spec left right) as [L|L]; try (split; lia).
  assert (M : (left + (right - left) / 2 < right)%nat) by (pose proof (Nat.div_lt (right - left) 2); lia). set (mid := (left + (right - left) / 2)%nat) in *.
  assert (LM : (left <= mid)%nat) by (unfold mid; lia). destruct (flt (c mid) r) eqn:E.
  - apply flt_ok in E; auto. destruct (IH (mid + 1)%nat right) as [A B]; auto; try lia. cbv zeta in A, B. pose proof (searchF_range fuel c (mid + 1) right r). split; auto. intros _.
    set (x := searchF fuel c (mid + 1) right r) in *. destruct (Nat.eq_dec x (mid + 1)) as [->|N]; [replace (mid + 1 - 1)%nat with mid by lia; auto|apply A; lia].
  - assert (E' : val r <= val (c mid)) by (apply Rnot_lt_le; intro Q; apply flt_ok in Q; auto; congruence).
    destruct (IH left mid) as [A B]; auto; try lia; [intros; apply F; lia|]. cbv zeta in A, B. pose proof (searchF_range fuel c left mid r). split; auto. intros _.
    set (x := searchF fuel c left mid r) in *. destruct (Nat.eq_dec x mid) as [->|N]; [auto|apply B; lia].
Qed.
Lemma withF_pick c n u : (0 < n)%nat -> (forall i, (i < n)%nat -> fin (c i)) -> bpow radix2 (-116) <= val (c (n - 1)%nat) -> in_unit_right u ->
  let d := withF c n u in let r := rnd32 (val u * val (c (n - 1)%nat)) in (d < n)%nat /\ 0 < r /\ match d with O => 0 | S d' => val (c d') end < r <= val (c d).
Proof.
  intros Hn F Ht Hu d r. destruct (scaled u (c (n - 1)%nat) Hu (F (n - 1)%nat ltac:(lia)) Ht) as (Fr & Er & Hr). set (r' := b32_mult mode_NE u (c (n - 1)%nat)) in *.
  fold r in Er. pose proof (bpow_gt_0 radix2 (-116)).
  assert (Ed : d = searchF n c 0 (n - 1) r').
  { unfold d, withF. rewrite (proj2 (flt_ok f0 (c (n - 1)%nat) (proj1 f0_ok) (F (n - 1)%nat ltac:(lia)))); [reflexivity|]. rewrite (proj2 f0_ok). lra. }
  split; [apply withF_lt; auto|]. split; [lra|]. rewrite Ed. destruct (searchF_spec c r' Fr n 0 (n - 1)) as [A B]; try lia; [intros; apply F; lia|]. cbv zeta in A, B.
  pose proof (searchF_range n c 0 (n - 1) r'). set (x := searchF n c 0 (n - 1) r') in *. split.
  - destruct x as [|x]; [lra|]. rewrite <- Er. replace x with (S x - 1)%nat by lia. apply A. lia.
  - destruct (Nat.eq_dec x (n - 1)) as [E|N]; [rewrite E; lra|]. rewrite <- Er. apply B. lia.
Qed.

(** ** Sums from the left *)
Lemma fsum_S w i : fsum w (S i) = rnd32 (fsum w i + w i).
Proof. unfold fsum. rewrite seq_S, fold_left_app. reflexivity. Qed.
Lemma fsum_fmt w i : fmt (fsum w i).
Proof. destruct i; [apply generic_format_0|]. rewrite fsum_S. apply generic_format_round; typeclasses eauto. Qed.
Lemma fsum_zero w i : w i = 0 -> fsum w (S i) = fsum w i.
Proof. intro E. rewrite fsum_S, E, Rplus_0_r. apply rnd_fmt, fsum_fmt. Qed.
Lemma acc_ok (w : nat -> f32) n : (forall i, (i < n)%nat -> plain (w i)) -> forall i, (i <= n)%nat ->
  let a := fold_left (fun acc j => b32_plus mode_NE acc (w j)) (seq 0 i) f0 in okacc a /\ val a = fsum (fun j => val (w j)) i /\ forall j, (j < i)%nat -> val (w j) <= val a.
Proof.
  intros H. induction i as [|i IH]; intros Hi a.
  - unfold a. cbn [seq fold_left]. split; [apply ordinary_acc, plain_ordinary, f0_plain|]. split; [reflexivity|intros; lia].
  - destruct (IH ltac:(lia)) as (A & B & C). cbv zeta in A, B, C. unfold a. rewrite seq_S, fold_left_app. cbn [fold_left Nat.add]. set (a' := fold_left _ (seq 0 i) f0) in *.
    pose proof (plain_ordinary _ (H i ltac:(lia))) as Hw. destruct (step_ok a' (w i) A Hw) as (S1 & S2 & S3 & _). split; auto. split.
    + rewrite fsum_S, <- B. destruct A as [Fa Ha]. apply ordinary_range in Hw. destruct Hw as [Fx Hx]. pose proof (plus_bounded (val a') (val (w i)) Ha Hx). assert (bpow radix2 127 < bpow radix2 128) by (apply bpow_lt; lia).
      apply (plus_ok a' (w i) Fa Fx); lra.
    + intros j Hj. destruct (Nat.eq_dec j i) as [->|N]; [auto|]. specialize (C j ltac:(lia)). lra.
Qed.
Lemma findF_spec (w : nat -> f32) n r : (forall i, (i < n)%nat -> plain (w i)) -> fin r -> val r <= fsum (fun j => val (w j)) n ->
  forall rest i acc, (i + rest = n)%nat -> acc = fold_left (fun acc j => b32_plus mode_NE acc (w j)) (seq 0 i) f0 -> val acc < val r ->
  let d := findF rest w i r acc in (i <= d < n)%nat /\ fsum (fun j => val (w j)) d < val r <= fsum (fun j => val (w j)) (S d).
Proof.
  intros H Fr Hr. induction rest as [|rest IH]; intros i acc Hi Ea La d; subst d.
  - exfalso. destruct (acc_ok w n H i ltac:(lia)) as (_ & B & _). cbv zeta in B. rewrite <- Ea in B. replace i with n in B by lia. lra.
  - cbn [findF]. destruct (acc_ok w n H (S i) ltac:(lia)) as (A' & B' & _). destruct (acc_ok w n H i ltac:(lia)) as (_ & B & _). cbv zeta in A', B', B. rewrite <- Ea in B.
    assert (Es : fold_left (fun acc j => b32_plus mode_NE acc (w j)) (seq 0 (S i)) f0 = b32_plus mode_NE acc (w i)) by (rewrite seq_S, fold_left_app, Ea; reflexivity).
    rewrite Es in A', B'. destruct (fge (b32_plus mode_NE acc (w i)) r) eqn:E.
    + apply fge_ok in E; auto; [|apply A']. rewrite <- B, <- B'. split; [lia|]. lra.
    + assert (E' : val (b32_plus mode_NE acc (w i)) < val r) by (apply Rnot_le_lt; intro Q; apply fge_ok in Q; auto; [congruence|apply A']).
      destruct (IH (i + 1)%nat (b32_plus mode_NE acc (w i))) as [X Y]; auto; try lia; [rewrite Nat.add_1_r; auto|]. cbv zeta in X, Y. split; [lia|auto].
Qed.
Lemma drawable_plain n W : (forall i, (i < n)%nat -> plain (W i)) -> (1 <= length (drawable n W))%nat -> exists i, (i < n)%nat /\ bpow radix2 (-116) <= val (W i).
Proof.
  intros H L. destruct (drawable n W) as [|i r] eqn:E; [simpl in L; lia|]. assert (Q : In i (drawable n W)) by (rewrite E; left; auto). apply drawable_in in Q. destruct Q as [Li P].
  exists i. split; auto. apply plain_pos; auto.
Qed.
(** One draw without replacement. *)
Lemma no_pick (w : nat -> f32) n u : (forall i, (i < n)%nat -> plain (w i)) -> in_unit_right u -> (1 <= length (drawable n w))%nat ->
  flt f0 (totalF w n) = true /\ let d := findF n w 0 (b32_mult mode_NE u (totalF w n)) f0 in
  (d < n)%nat /\ fsum (fun j => val (w j)) d < rnd32 (val u * fsum (fun j => val (w j)) n) <= fsum (fun j => val (w j)) (S d).
Proof.
  intros H Hu Ha. destruct (drawable_plain n w H Ha) as (i & Hi & Wi). destruct (acc_ok w n H n ltac:(lia)) as ([Ft Ht] & B & C). cbv zeta in Ft, Ht, B, C. fold (totalF w n) in Ft, Ht, B, C.
  specialize (C i Hi). destruct (scaled u (totalF w n) Hu Ft ltac:(lra)) as (Fr & Er & Hr). pose proof (bpow_gt_0 radix2 (-116)). split.
  - apply (proj2 (flt_ok f0 (totalF w n) (proj1 f0_ok) Ft)). rewrite (proj2 f0_ok). lra.
  - destruct (findF_spec w n _ H Fr) with (rest := n) (i := 0%nat) (acc := f0) as [X Y]; [rewrite <- B; lra|lia|reflexivity|rewrite (proj2 f0_ok); lra|]. cbv zeta in X, Y. cbv zeta. rewrite <- B, <- Er. split; [lia|auto].
Qed.
Lemma clear_plain n w d : (forall i, (i < n)%nat -> plain (w i)) -> forall i, (i < n)%nat -> plain (clearF w d i).
Proof. intros H i Hi. unfold clearF. destruct (i =? d)%nat; auto. apply f0_plain. Qed.
Lemma avail_clear n w d : In d (drawable n w) -> length (drawable n w) = S (length (drawable n (clearF w d))).
Proof.
  intro H. pose proof H as H'. apply drawable_in in H'. destruct H' as [Li P].
  assert (Q : Permutation (drawable n w) (d :: drawable n (clearF w d))); [|apply Permutation_length in Q; exact Q].
  apply NoDup_Permutation.
  - apply drawable_nodup.
  - constructor; [|apply drawable_nodup]. rewrite drawable_in. unfold clearF. rewrite Nat.eqb_refl, (proj2 f0_ok). intros [_ Q]. lra.
  - intro j. cbn [In]. rewrite !drawable_in. unfold clearF. destruct (Nat.eqb_spec j d) as [->|N]; [tauto|]. split; [intros [? ?]; right; auto|intros [E|[? ?]]; [congruence|auto]].
Qed.
Lemma by_weight_pos n w d x : (forall i, (i < n)%nat -> 0 <= w i) -> (d < n)%nat -> fsum w d < x <= fsum w (S d) -> 0 < w d.
Proof. intros H Hd Hx. destruct (Req_dec (w d) 0) as [E|N]; [rewrite (fsum_zero _ _ E) in Hx; lra|]. specialize (H d Hd). lra. Qed.
Lemma noF_law n us : (forall s, in_unit_right (us s)) -> forall k W drawn, (forall i, (i < n)%nat -> plain (W i)) -> (k <= length (drawable n W))%nat ->
  draws_by_weight_right false k n W (fun s => us (drawn + s)%nat) (fun s => nth s (noF k W n us drawn) 0%nat).
Proof.
  intros Hu. induction k as [|k IH]; intros W drawn H Ha s Hs w; [lia|]. destruct (no_pick W n (us drawn) H (Hu drawn) ltac:(lia)) as (E & Ld & PK). cbn [noF] in *. subst w. rewrite E.
  set (d := findF n W 0 (b32_mult mode_NE (us drawn) (totalF W n)) f0) in *. destruct s as [|s].
  - cbn [nth]. rewrite Nat.add_0_r. unfold weights_at. cbn [seq existsb negb andb]. exact PK.
  - assert (Hd : In d (drawable n W)).
    { apply drawable_in. split; auto. apply (by_weight_pos n (fun j => val (W j)) d _) in PK; auto. intros i Hi. apply plain_nonneg, H, Hi. }
    pose proof (avail_clear n W d Hd). specialize (IH (clearF W d) (drawn + 1)%nat (clear_plain n W d H) ltac:(lia) s ltac:(lia)). cbv zeta in IH. cbn [nth].
    replace (drawn + S s)%nat with (drawn + 1 + s)%nat by lia. set (r' := noF k (clearF W d) n us (drawn + 1)) in *.
    assert (Ew : forall j, weights_at false (clearF W d) (fun s => nth s r' 0%nat) s j = weights_at false W (fun s => nth s (d :: r') 0%nat) (S s) j).
    { intro j. assert (EX : existsb (fun s' => (nth s' (d :: r') 0 =? j)%nat) (seq 0 (S s)) = ((d =? j)%nat || existsb (fun s' => (nth s' r' 0 =? j)%nat) (seq 0 s))).
      { change (seq 0 (S s)) with (0%nat :: seq 1 s). cbn [existsb]. f_equal. rewrite <- seq_shift. generalize (seq 0 s) as ss. clear. induction ss as [|a ss IHl]; [reflexivity|]. cbn [map existsb]. rewrite IHl. reflexivity. }
      unfold weights_at. cbn [negb andb]. rewrite EX. unfold clearF. rewrite (Nat.eqb_sym d j). destruct (Nat.eqb_spec j d); cbn [orb].
      - match goal with |- (if ?b then 0 else val f0) = _ => destruct b; reflexivity end.
      - reflexivity. }
    rewrite !(fsum_ext (weights_at false W (fun s => nth s (d :: r') 0%nat) (S s)) (weights_at false (clearF W d) (fun s => nth s r' 0%nat) s)) by (intros; symmetry; apply Ew). exact IH.
Qed.
(** Draws by weight are valid. *)
Lemma law_valid rep k n W u d : (forall i, (i < n)%nat -> 0 <= val (W i)) -> (forall s, (s < k)%nat -> (d s < n)%nat) -> draws_by_weight_right rep k n W u d -> valid_draws rep k n W d.
Proof.
  intros H L D. assert (P : forall s, (s < k)%nat -> 0 < weights_at rep W d s (d s)).
  { intros s Hs. specialize (D s Hs). cbv zeta in D. apply (by_weight_pos n _ _ _) in D; auto. intros i Hi. unfold weights_at. destruct (negb rep && _); [lra|auto]. }
  split; auto. split.
  - intros s Hs. specialize (P s Hs). unfold weights_at in P. destruct (negb rep && _); [lra|auto].
  - intros -> . assert (Q : forall s s', (s < s')%nat -> (s' < k)%nat -> d s <> d s').
    { intros s s' H1 H2 E. specialize (P s' H2). unfold weights_at in P. cbn [negb andb] in P. replace (existsb (fun s0 => (d s0 =? d s')%nat) (seq 0 s')) with true in P; [lra|].
      symmetry. apply existsb_exists. exists s. split; [apply in_seq; lia|]. apply Nat.eqb_eq, E. }
    intros s s' H1 H2 E. destruct (Nat.lt_trichotomy s s') as [Q1|[Q1|Q1]]; auto; exfalso; [apply (Q s s')|apply (Q s' s)]; auto.
Qed.

(** ** With replacement *)
Lemma nth_map0 (W : nat -> f32) n i : (i < n)%nat -> nth i (map W (seq 0 n)) zero32 = W i.
Proof. intro H. rewrite (nth_indep _ zero32 (W 0%nat)) by (rewrite map_length, seq_length; lia). rewrite (map_nth W), seq_nth by lia. auto. Qed.
Lemma with_valid scan n k W (us : nat -> f32) : (0 < n)%nat -> (forall i, (i < n)%nat -> plain (W i)) -> (1 <= length (drawable n W))%nat -> (forall s, in_unit_right (us s)) ->
  usable_on scan (map W (seq 0 n)) -> valid_draws true k n W (fun s => withF (fun i => nth i (scan (map W (seq 0 n))) f0) n (us s)).
Proof.
  intros Hn H Ha Hu [L U]. rewrite map_length, seq_length in *. change zero32 with f0 in U. set (c := fun i => nth i (scan (map W (seq 0 n))) f0) in *.
  assert (F : forall i, (i < n)%nat -> fin (c i)) by (intros i Hi; destruct (U i Hi) as (F & _); exact F).
  destruct (drawable_plain n W H Ha) as (i & Hi & Wi). assert (T : bpow radix2 (-116) <= val (c (n - 1)%nat)).
  { destruct (U (n - 1)%nat ltac:(lia)) as (_ & G & _). specialize (G i ltac:(lia)). change f0 with zero32 in G. rewrite nth_map0 in G by auto. apply (Rle_trans _ _ _ Wi G). }
  split; [|split]; [| |discriminate].
  - intros s _. apply withF_lt; auto.
  - intros s _. destruct (withF_pick c n (us s) Hn F T (Hu s)) as (Ld & R0 & PK). set (d := withF c n (us s)) in *. cbv zeta in R0, PK.
    destruct (Req_dec (val (W d)) 0) as [E|N]; [|pose proof (plain_nonneg _ (H d Ld)); lra]. exfalso.
    destruct (U d Ld) as (_ & _ & Z0). change f0 with zero32 in Z0. rewrite nth_map0 in Z0 by auto. specialize (Z0 E). fold c in Z0. change (nth d (scan (map W (seq 0 n))) zero32) with (c d) in Z0. rewrite Z0 in PK.
    destruct d as [|d']; [lra|]. change (nth d' (scan (map W (seq 0 n))) zero32) with (c d') in PK. lra.
Qed.
Lemma with_law scan n k W (us : nat -> f32) : (0 < n)%nat -> (forall i, (i < n)%nat -> plain (W i)) -> (1 <= length (drawable n W))%nat -> (forall s, in_unit_right (us s)) ->
  from_left_on scan (map W (seq 0 n)) -> draws_by_weight_right true k n W us (fun s => withF (fun i => nth i (scan (map W (seq 0 n))) f0) n (us s)).
Proof.
  intros Hn H Ha Hu [L U]. rewrite map_length, seq_length in *. change zero32 with f0 in U. set (c := fun i => nth i (scan (map W (seq 0 n))) f0) in *.
  assert (F : forall i, (i < n)%nat -> fin (c i)) by (intros i Hi; apply (U i Hi)).
  assert (V : forall i, (i < n)%nat -> val (c i) = fsum (fun j => val (W j)) (S i)).
  { intros i Hi. destruct (U i Hi) as [_ E]. unfold c. rewrite E. apply fsum_ext. intros j Hj. change f0 with zero32. rewrite nth_map0 by lia. auto. }
  destruct (drawable_plain n W H Ha) as (i & Hi & Wi). assert (T : bpow radix2 (-116) <= val (c (n - 1)%nat)).
  { rewrite V by lia. replace (S (n - 1)) with n by lia. destruct (acc_ok W n H n ltac:(lia)) as (_ & B & C). cbv zeta in B, C. rewrite <- B. specialize (C i Hi). lra. }
  intros s Hs w. destruct (withF_pick c n (us s) Hn F T (Hu s)) as (Ld & R0 & PK). set (d := withF c n (us s)) in *. cbv zeta in R0, PK. unfold w, weights_at. cbn [negb andb].
  rewrite !V in PK by lia. replace (S (n - 1)) with n in PK by lia. split; [|apply PK]. destruct PK as [PK _]. destruct d as [|d']; [exact PK|]. rewrite V in PK by lia. exact PK.
Qed.

(** ** Cumulated sums *)
Lemma from_left_usable scan l : Forall plain l -> from_left_on scan l -> usable_on scan l.
Proof.
  intros Hl [L U]. split; auto. intros i Hi entry. assert (HW : forall j, (j < length l)%nat -> plain (nth j l zero32)) by (intros j Hj; rewrite Forall_forall in Hl; apply Hl, nth_In, Hj).
  destruct (U i Hi) as [F E]. cbv zeta in F, E. unfold entry. split; auto. split.
  - intros j Hj. rewrite E. destruct (acc_ok (fun i => nth i l zero32) (length l) HW (S i) ltac:(lia)) as (_ & B & C). cbv zeta in B, C. rewrite <- B. apply C. lia.
  - intros Z0. rewrite E, (fsum_zero _ i Z0). destruct i as [|i]; [reflexivity|]. destruct (U i ltac:(lia)) as [_ E']. cbv zeta in E'. symmetry. exact E'.
Qed.
Lemma left_from_left l : Forall plain l -> from_left_on partialSum l.
Proof. intros Hl. apply part_val. eapply Forall_impl; [|exact Hl]. apply plain_ordinary. Qed.

(** Whole numbers: every order of the additions gives the same. *)
Definition whole (z : Z) (a : f32) : Prop := fin a /\ val a = IZR z.
Lemma fmt_whole z : (0 <= z <= 2 ^ 24)%Z -> fmt (IZR z).
Proof.
  intros H. destruct (Z.eq_dec z (2 ^ 24)) as [->|N]; [apply (fmt_bpow 24); lia|]. apply generic_format_FLT. exists (Float radix2 z 0); [unfold F2R; cbn; lra|cbn [Fnum]; rewrite Z.abs_eq by lia; cbn; lia|cbn; lia].
Qed.
Lemma whole_plus x y a b : (0 <= x)%Z -> (0 <= y)%Z -> (x + y <= 2 ^ 24)%Z -> whole x a -> whole y b -> whole (x + y) (b32_plus mode_NE a b).
Proof.
  intros Hx Hy H [Fa Ea] [Fb Eb]. assert (R0 : rnd32 (val a + val b) = IZR (x + y)) by (rewrite Ea, Eb, <- plus_IZR; apply rnd_fmt, fmt_whole; lia).
  destruct (plus_ok a b Fa Fb) as [F E].
  - rewrite Ea. apply (IZR_le 0), Hx.
  - rewrite Eb. apply (IZR_le 0), Hy.
  - change (rnd32 (val a + val b) < bpow radix2 128). rewrite R0. apply Rle_lt_trans with (IZR (2 ^ 24)); [apply IZR_le, H|]. change (IZR (2 ^ 24)) with (bpow radix2 24). apply bpow_lt. lia.
  - split; auto. rewrite E. exact R0.
Qed.
Local Notation zsum := (fold_right Z.add 0%Z).
Local Notation counted := (Forall2 (fun w z => is_finite 24 128 w = true /\ val w = IZR z /\ (0 <= z)%Z)).
Lemma zsum_app a b : zsum (a ++ b) = (zsum a + zsum b)%Z.
Proof. induction a as [|x a IH]; cbn [app fold_right]; [lia|]. rewrite IH. lia. Qed.
Lemma counted_nonneg l zs : counted l zs -> (0 <= zsum zs)%Z.
Proof. induction 1 as [|w z l zs (_ & _ & H) _ IH]; cbn [fold_right]; lia. Qed.
Lemma sums_whole l a : sums_to l a -> forall zs, counted l zs -> (zsum zs <= 2 ^ 24)%Z -> whole (zsum zs) a.
Proof.
  induction 1 as [x|l1 l2 a b H1 IH1 H2 IH2]; intros zs C B.
  - inversion C as [|w z l zs' (F & E & _) C' E1 E2]; subst. inversion C'; subst. cbn [fold_right]. rewrite Z.add_0_r. split; auto.
  - apply Forall2_app_inv_l in C. destruct C as (z1 & z2 & C1 & C2 & ->). rewrite zsum_app in *. pose proof (counted_nonneg _ _ C1). pose proof (counted_nonneg _ _ C2).
    apply whole_plus; auto; [apply IH1; auto; lia|apply IH2; auto; lia].
Qed.
Lemma fsum_whole l : forall zs, counted l zs -> (zsum zs <= 2 ^ 24)%Z -> fsum (fun j => val (nth j l zero32)) (length l) = IZR (zsum zs).
Proof.
  induction l as [|x l IH] using rev_ind; intros zs C B; [inversion C; subst; reflexivity|].
  apply Forall2_app_inv_l in C. destruct C as (z1 & z2 & C1 & C2 & ->). inversion C2 as [|w z l' zs' (F & E & Z0) C' E1 E2]; subst. inversion C'; subst. rewrite zsum_app in *. cbn [fold_right] in *. rewrite Z.add_0_r in *.
  rewrite app_length. cbn [length]. rewrite Nat.add_1_r, fsum_S, app_nth2, Nat.sub_diag by lia. cbn [nth].
  pose proof (counted_nonneg _ _ C1). rewrite (fsum_ext _ (fun j => val (nth j l zero32))) by (intros j Hj; rewrite app_nth1 by auto; reflexivity).
  rewrite IH with (zs := z1) by (auto; lia). rewrite E, <- plus_IZR. apply rnd_fmt, fmt_whole. lia.
Qed.
Lemma counted_firstn l zs : counted l zs -> forall i, counted (firstn i l) (firstn i zs).
Proof. induction 1 as [|w z l zs H F IH]; intros [|i]; cbn [firstn]; constructor; auto. Qed.
Lemma zsum_firstn l zs : counted l zs -> forall i, (zsum (firstn i zs) <= zsum zs)%Z.
Proof. induction 1 as [|w z l zs (_ & _ & H) F IH]; intros [|i]; cbn [firstn fold_right]; try lia; [pose proof (counted_nonneg _ _ F); lia|specialize (IH i); lia]. Qed.
Lemma nth_first (l : list f32) : forall i j, (j < i)%nat -> nth j (firstn i l) zero32 = nth j l zero32.
Proof. induction l as [|x l IH]; intros [|i] [|j] H; cbn [firstn nth]; auto; try lia. apply IH. lia. Qed.
Lemma counts_from_left scan l : any_order scan -> counts l -> from_left_on scan l.
Proof.
  intros A (zs & C & B). destruct (A l) as [L T]. split; auto. intros i Hi entry. pose proof (counted_firstn _ _ C (S i)) as Ci. pose proof (zsum_firstn _ _ C (S i)) as Bi.
  destruct (sums_whole _ _ (T i Hi) _ Ci ltac:(lia)) as [F E]. split; auto. unfold entry. rewrite E. rewrite <- (fsum_whole _ _ Ci ltac:(lia)). rewrite firstn_length_le by (exact Hi).
  apply fsum_ext. intros j Hj. rewrite nth_first by auto. auto.
Qed.
Lemma counts_plain l : counts l -> Forall plain l.
Proof.
  intros (zs & C & B). assert (Q : (zsum zs <= 2 ^ 24)%Z) by exact B. clear B. induction C as [|w z l zs (F & E & Z0) C IH]; constructor.
  - split; auto. cbn [fold_right] in Q. pose proof (counted_nonneg _ _ C). destruct (Z.eq_dec z 0) as [->|N]; [left; rewrite E; auto|]. right. rewrite E. split.
    + apply Rle_trans with 1; [apply (bpow_le radix2 (-116) 0); lia|apply (IZR_le 1); lia].
    + apply Rle_lt_trans with (IZR (2 ^ 24)); [apply IZR_le; lia|]. change (IZR (2 ^ 24)) with (bpow radix2 24). apply bpow_lt. lia.
  - apply IH. cbn [fold_right] in Q. lia.
Qed.
