(** Bounds of sums and dot products. *)
From Coq Require Import ZArith Reals List Bool Arith Lia Lra Psatz.
From Flocq Require Import Core Plus_error Relative IEEE754.BinarySingleNaN IEEE754.Binary IEEE754.Bits.
From Verif Require Import FloatModel FloatSpec AccModel AccSpec AccProofs2.
Import ListNotations.
Open Scope R_scope.

Definition adds (k : fkind) (g : Z -> Z -> Z) : Prop := g = fadd k \/ g = (fun a x => fadd k x a).
Lemma adds_step k g a x : adds k g -> word k a -> word k x -> word k (g a x) /\
  (finite k (g a x) = true -> finite k a = true /\ finite k x = true /\ value k (g a x) = rnd k (value k a + value k x)) /\
  (finite k a = true -> finite k x = true -> Rabs (rnd k (value k a + value k x)) < bpow radix2 (emaxOf k) -> finite k (g a x) = true).
Proof.
  intros [->| ->] Wa Wx.
  - exact (one_step k true a x Wa Wx).
  - destruct (one_step k true x a Wx Wa) as (P & Q & S). cbn [fop rop] in *. rewrite (Rplus_comm (value k a)). split; [exact P|]. split; [|auto]. intros F. destruct (Q F) as (Q1 & Q2 & Q3). auto.
Qed.
Lemma growth_S k n : growth k (S n) = (1 + unit k) * growth k n + unit k.
Proof. unfold growth. cbn [pow]. ring. Qed.
Lemma pow_ge1 k n : 1 <= (1 + unit k) ^ n.
Proof. apply pow_R1_Rle. pose proof (unit_pos k). lra. Qed.
Lemma growth_nonneg k n : 0 <= growth k n.
Proof. unfold growth. pose proof (pow_ge1 k n). lra. Qed.
Lemma magnitude_nonneg l : 0 <= magnitude l.
Proof. induction l as [|x l IH]; cbn [magnitude fold_right]; [lra|]. fold (magnitude l). pose proof (Rabs_pos x). lra. Qed.
Lemma total_cons x l : total (x :: l) = x + total l.
Proof. reflexivity. Qed.
Lemma magnitude_cons x l : magnitude (x :: l) = Rabs x + magnitude l.
Proof. reflexivity. Qed.

Lemma fold_bound k g (G : adds k g) : forall l a, word k a -> Forall (word k) l ->
  word k (fold_left g l a) /\
  (finite k (fold_left g l a) = true -> finite k a = true /\ Forall (fun x => finite k x = true) l /\
     Rabs (value k (fold_left g l a) - (value k a + total (map (value k) l))) <= growth k (length l) * (Rabs (value k a) + magnitude (map (value k) l))) /\
  (finite k a = true -> Forall (fun x => finite k x = true) l -> (1 + unit k) ^ length l * (Rabs (value k a) + magnitude (map (value k) l)) < bpow radix2 (emaxOf k) ->
     finite k (fold_left g l a) = true).
Proof.
  induction l as [|x l IH]; intros a Wa Wl.
  - cbn [fold_left map length]. split; [exact Wa|]. split.
    + intros F. split; [exact F|]. split; [constructor|]. unfold growth. cbn. replace (value k a - (value k a + 0)) with 0 by ring. rewrite Rabs_R0. lra.
    + auto.
  - inversion Wl as [|? ? Wx Wl']; subst. destruct (adds_step k g a x G Wa Wx) as (S1 & S2 & S3). destruct (IH (g a x) S1 Wl') as (I1 & I2 & I3). cbn [fold_left map length].
    destruct (add_error k a x) as (d & D & E). pose proof (unit_pos k) as U. pose proof (growth_nonneg k (length l)) as GN. pose proof (magnitude_nonneg (map (value k) l)) as MN.
    set (T := total (map (value k) l)) in *. set (M := magnitude (map (value k) l)) in *. rewrite total_cons, magnitude_cons. fold T M.
    pose proof (Rabs_triang (value k a) (value k x)) as TR. pose proof (Rabs_pos (value k a + value k x)) as P0.
    assert (ED : Rabs (rnd k (value k a + value k x)) <= (1 + unit k) * Rabs (value k a + value k x)).
    { rewrite E, Rabs_mult. rewrite Rmult_comm. apply Rmult_le_compat_r; [exact P0|]. eapply Rle_trans; [apply Rabs_triang|]. rewrite Rabs_R1. lra. }
    split; [exact I1|]. split.
    + intros F. destruct (I2 F) as (F1 & F2 & B). destruct (S2 F1) as (Fa & Fx & V). split; [exact Fa|]. split; [constructor; assumption|].
      rewrite V in B. set (s := value k a + value k x) in *. set (w := value k (fold_left g l (g a x))) in *.
      replace (w - (value k a + (value k x + T))) with ((w - (rnd k s + T)) + (rnd k s - s)) by (unfold s; ring).
      eapply Rle_trans; [apply Rabs_triang|]. rewrite growth_S.
      assert (ER : Rabs (rnd k s - s) <= unit k * Rabs s).
      { rewrite E. replace (s * (1 + d) - s) with (d * s) by ring. rewrite Rabs_mult. apply Rmult_le_compat_r; [apply Rabs_pos|exact D]. }
      assert (H : growth k (length l) * (Rabs (rnd k s) + M) <= growth k (length l) * ((1 + unit k) * Rabs s + M)) by (apply Rmult_le_compat_l; [exact GN|lra]).
      assert (H2 : ((1 + unit k) * growth k (length l) + unit k) * Rabs s <= ((1 + unit k) * growth k (length l) + unit k) * (Rabs (value k a) + Rabs (value k x))).
      { apply Rmult_le_compat_l; [nra|]. exact TR. }
      assert (H3 : growth k (length l) * M <= ((1 + unit k) * growth k (length l) + unit k) * M) by (apply Rmult_le_compat_r; [exact MN|nra]).
      nra.
    + intros Fa Fl B. inversion Fl as [|? ? Fx Fl']; subst. pose proof (pow_ge1 k (length l)) as PG. cbn [pow] in B.
      assert (AB : Rabs (rnd k (value k a + value k x)) <= (1 + unit k) * (Rabs (value k a) + Rabs (value k x))) by nra.
      assert (F1 : finite k (g a x) = true).
      { apply S3; auto. eapply Rle_lt_trans; [|exact B]. eapply Rle_trans; [exact AB|].
        assert (0 <= Rabs (value k a) + Rabs (value k x)) by (pose proof (Rabs_pos (value k a)); pose proof (Rabs_pos (value k x)); lra).
        set (q := Rabs (value k a) + Rabs (value k x)) in *. set (P := (1 + unit k) ^ length l) in *. replace (Rabs (value k a) + (Rabs (value k x) + M)) with (q + M) by (unfold q; ring).
        rewrite Rmult_assoc. apply Rmult_le_compat_l; [lra|]. assert (1 * (q + M) <= P * (q + M)) by (apply Rmult_le_compat_r; lra). lra. }
      apply I3; auto. destruct (S2 F1) as (_ & _ & V). rewrite V. eapply Rle_lt_trans; [|exact B]. rewrite (Rmult_comm (1 + unit k)), Rmult_assoc. apply Rmult_le_compat_l; [lra|]. nra.
Qed.
Lemma zero_word k : word k fzero.
Proof. destruct k; unfold word, fzero; lia. Qed.
Lemma zero_finite k : finite k fzero = true.
Proof. destruct k; vm_compute; reflexivity. Qed.
Lemma zero_value k : value k fzero = 0.
Proof. destruct k; vm_compute; reflexivity. Qed.
Lemma value_bound k w : Rabs (value k w) < bpow radix2 (emaxOf k).
Proof. destruct k; unfold value; cbn [emaxOf]; apply abs_B2R_lt_emax. Qed.

Lemma sum_lemma k g l : adds k g -> Forall (word k) l -> accurateSum k (fold_left g l fzero) l /\ safeSum k (fold_left g l fzero) l.
Proof.
  intros G W. destruct l as [|x l].
  - cbn [fold_left]. split; [split; [apply zero_word|]|].
    + intros _. split; [constructor|]. cbn. rewrite zero_value, Rminus_0_r, Rabs_R0. unfold growth. cbn. lra.
    + intros _ _. apply zero_finite.
  - inversion W as [|? ? Wx Wl]; subst. destruct (adds_step k g fzero x G (zero_word k) Wx) as (S1 & S2 & S3). rewrite zero_value, Rplus_0_l, rnd_exact in S2, S3. cbn [fold_left].
    destruct (fold_bound k g G l (g fzero x) S1 Wl) as (I1 & I2 & I3). split; [split; [exact I1|]|].
    + intros F. destruct (I2 F) as (F1 & F2 & B). destruct (S2 F1) as (_ & Fx & V). split; [constructor; assumption|]. cbn [length map]. rewrite total_cons, magnitude_cons, Nat.sub_succ, Nat.sub_0_r, <- V. exact B.
    + intros Fl B. inversion Fl as [|? ? Fx Fl']; subst. assert (F1 : finite k (g fzero x) = true) by (apply S3; auto using zero_finite, value_bound).
      apply I3; auto. destruct (S2 F1) as (_ & _ & V). rewrite V. eapply Rle_lt_trans; [|exact B]. cbn [length map pow]. rewrite magnitude_cons.
      pose proof (unit_pos k). pose proof (pow_ge1 k (length l)). pose proof (magnitude_nonneg (map (value k) l)). pose proof (Rabs_pos (value k x)).
      assert (0 <= (1 + unit k) ^ length l * (Rabs (value k x) + magnitude (map (value k) l))) by (apply Rmult_le_pos; lra). nra.
Qed.

(** * Products *)
Lemma mul_step k x y : word k x -> word k y -> word k (fmul k x y) /\
  (finite k (fmul k x y) = true -> finite k x = true /\ finite k y = true /\ value k (fmul k x y) = rnd k (value k x * value k y)) /\
  (finite k x = true -> finite k y = true -> Rabs (rnd k (value k x * value k y)) < bpow radix2 (emaxOf k) -> finite k (fmul k x y) = true).
Proof. exact (one_step k false x y). Qed.
Lemma tiny_pos k : 0 < tiny k.
Proof. apply bpow_gt_0. Qed.
Lemma rnd_abs k v : Rabs (rnd k v - v) <= unit k * Rabs v + tiny k /\ Rabs (rnd k v) <= (1 + unit k) * Rabs v + tiny k.
Proof.
  destruct (round_error k v) as (d & t & D & T & E). assert (H : Rabs (rnd k v - v) <= unit k * Rabs v + tiny k).
  { rewrite E. replace (v * (1 + d) + t - v) with (d * v + t) by ring. eapply Rle_trans; [apply Rabs_triang|]. rewrite Rabs_mult. pose proof (Rabs_pos v). nra. }
  split; [exact H|]. replace (rnd k v) with ((rnd k v - v) + v) by ring. eapply Rle_trans; [apply Rabs_triang|]. lra.
Qed.
Definition wordPair (k : fkind) (p : Z * Z) : Prop := word k (fst p) /\ word k (snd p).
Definition prods (k : fkind) (l : list (Z * Z)) : list Z := map (fun p => fmul k (fst p) (snd p)) l.
Lemma prods_word k l : Forall (wordPair k) l -> Forall (word k) (prods k l).
Proof. intros H. apply Forall_forall. intros w Hw. apply in_map_iff in Hw. destruct Hw as (p & <- & Hp). rewrite Forall_forall in H. destruct (H p Hp). apply mul_step; assumption. Qed.
Lemma prods_error k l : Forall (wordPair k) l -> Forall (fun x => finite k x = true) (prods k l) ->
  Forall (fun p => finite k (fst p) = true /\ finite k (snd p) = true) l /\
  Rabs (total (map (value k) (prods k l)) - total (products k l)) <= unit k * magnitude (products k l) + INR (length l) * tiny k /\
  magnitude (map (value k) (prods k l)) <= (1 + unit k) * magnitude (products k l) + INR (length l) * tiny k.
Proof.
  induction l as [|p l IH]; intros W F.
  - split; [constructor|]. cbn. rewrite Rminus_0_r, Rabs_R0. lra.
  - inversion W as [|? ? [W1 W2] Wl]; subst. cbn [prods map] in F. inversion F as [|? ? Fp Fl]; subst. destruct (IH Wl Fl) as (I1 & I2 & I3).
    destruct (mul_step k (fst p) (snd p) W1 W2) as (_ & S2 & _). destruct (S2 Fp) as (F1 & F2 & V). split; [constructor; auto|].
    cbn [prods products map length]. rewrite !total_cons, !magnitude_cons, S_INR, V. destruct (rnd_abs k (value k (fst p) * value k (snd p))) as [R1 R2]. fold (prods k l) (products k l).
    set (q := value k (fst p) * value k (snd p)) in *. split; [|lra].
    replace (rnd k q + total (map (value k) (prods k l)) - (q + total (products k l))) with ((rnd k q - q) + (total (map (value k) (prods k l)) - total (products k l))) by ring.
    eapply Rle_trans; [apply Rabs_triang|]. lra.
Qed.
Lemma dot_lemma k g l : adds k g -> Forall (wordPair k) l -> accurateDot k (fold_left g (prods k l) fzero) l /\ safeDot k (fold_left g (prods k l) fzero) l.
Proof.
  intros G W. destruct (sum_lemma k g (prods k l) G (prods_word k l W)) as [[A1 A2] SS]. split; [split; [exact A1|]|].
  - intros F. destruct (A2 F) as [F1 B]. destruct (prods_error k l W F1) as (F2 & E1 & E2). split; [exact F2|].
    assert (LN : length (prods k l) = length l) by apply map_length. rewrite LN in B. destruct l as [|p l'].
    { cbn in *. rewrite zero_value, Rminus_0_r, Rabs_R0. unfold growth. cbn. lra. }
    cbn [length] in *. rewrite Nat.sub_succ, Nat.sub_0_r in B. set (n := length l') in *. set (L := p :: l') in *. rewrite growth_S. cbn [pow].
    pose proof (unit_pos k) as U. pose proof (tiny_pos k) as T. pose proof (pow_ge1 k n) as PG. pose proof (growth_nonneg k n) as GN. pose proof (pos_INR (S n)) as NN.
    set (w := value k (fold_left g (prods k L) fzero)) in *. set (Q := total (map (value k) (prods k L))) in *. set (M := magnitude (map (value k) (prods k L))) in *. set (P := magnitude (products k L)) in *.
    replace (w - total (products k L)) with ((w - Q) + (Q - total (products k L))) by ring. eapply Rle_trans; [apply Rabs_triang|].
    assert (H : growth k n * M <= growth k n * ((1 + unit k) * P + INR (S n) * tiny k)) by (apply Rmult_le_compat_l; assumption).
    assert (H2 : growth k n * (INR (S n) * tiny k) + INR (S n) * tiny k = (1 + unit k) ^ n * (INR (S n) * tiny k)) by (unfold growth; ring).
    assert (H3 : 0 <= unit k * ((1 + unit k) ^ n * (INR (S n) * tiny k))) by (apply Rmult_le_pos; [lra|]; apply Rmult_le_pos; [lra|]; apply Rmult_le_pos; lra).
    replace (INR (S n) * ((1 + unit k) * (1 + unit k) ^ n) * tiny k) with ((1 + unit k) ^ n * (INR (S n) * tiny k) + unit k * ((1 + unit k) ^ n * (INR (S n) * tiny k))) by ring.
    replace (growth k n * ((1 + unit k) * P + INR (S n) * tiny k)) with ((1 + unit k) * growth k n * P + growth k n * (INR (S n) * tiny k)) in H by ring. lra.
  - intros F B. assert (PF : Forall (fun x => finite k x = true) (prods k l)).
    { apply Forall_forall. intros w Hw. apply in_map_iff in Hw. destruct Hw as (p & <- & Hp). rewrite Forall_forall in F, W. destruct (F p Hp) as [F1 F2]. destruct (W p Hp) as [W1 W2]. apply mul_step; auto.
      eapply Rle_lt_trans; [apply rnd_abs|]. eapply Rle_lt_trans; [|exact B].
      pose proof (unit_pos k) as U. pose proof (tiny_pos k) as T. pose proof (pow_ge1 k (length l)) as PG.
      assert (X : Rabs (value k (fst p) * value k (snd p)) <= magnitude (products k l) /\ 1 <= INR (length l)).
      { clear - Hp. induction l as [|y l IH]; [destruct Hp|]. cbn [products map length]. rewrite magnitude_cons, S_INR. fold (products k l). pose proof (pos_INR (length l)). pose proof (magnitude_nonneg (products k l)). pose proof (Rabs_pos (value k (fst y) * value k (snd y))).
        destruct Hp as [->|Hp]; [lra|]. destruct (IH Hp). lra. }
      destruct X as [X1 X2]. pose proof (Rabs_pos (value k (fst p) * value k (snd p))).
      assert (Y : (1 + unit k) * Rabs (value k (fst p) * value k (snd p)) + tiny k <= (1 + unit k) * magnitude (products k l) + INR (length l) * tiny k) by nra.
      set (Z0 := (1 + unit k) * magnitude (products k l) + INR (length l) * tiny k) in *. assert (0 <= Z0) by nra. nra. }
    apply SS; [exact PF|]. destruct (prods_error k l W PF) as (_ & _ & E). unfold prods at 1. rewrite map_length. eapply Rle_lt_trans; [|exact B]. apply Rmult_le_compat_l; [|exact E]. pose proof (pow_ge1 k (length l)). lra.
Qed.
