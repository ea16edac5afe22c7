(** Whole numbers; the growth; the tensors. *)
From Coq Require Import ZArith Reals List Bool Arith Lia Lra Psatz.
From Flocq Require Import Core IEEE754.Binary.
From Verif Require Import ShapeModel ShapeSpec ShapeProofs TensorModel TensorSpec TensorLemmas BcastModel BcastSpec BufModel CutSpec ReduceModel ReduceSpec ReduceProofs LinalgModel LinalgSpec LineModel SampleModel
  AccModel AccSpec AccProofs AccProofs2 AccProofs3 AccProofs4.
Import ListNotations.
Open Scope R_scope.

Lemma signed_format k n : (Z.abs n <= 2 ^ precision k)%Z -> rnd k (IZR n) = IZR n.
Proof.
  intros H. destruct (Z_le_gt_dec 0 n) as [L|L]; [apply int_format; lia|].
  replace n with (- Z.abs n)%Z by lia. rewrite opp_IZR. unfold rnd. rewrite round_NE_opp. f_equal. apply int_format. lia.
Qed.
Lemma max_whole k n : (Z.abs n <= 2 ^ precision k)%Z -> Rabs (IZR n) < bpow radix2 (emaxOf k).
Proof.
  intros H. rewrite <- abs_IZR. rewrite <- (IZR_Zpower radix2 (emaxOf k)) by (destruct k; cbn; lia). apply IZR_lt. change (radix_val radix2) with 2%Z.
  eapply Z.le_lt_trans; [exact H|]. apply Z.pow_lt_mono_r; destruct k; cbn; lia.
Qed.
Lemma whole_fold k g (G : adds k g) : forall l a, word k a -> Forall (word k) l -> finite k a = true -> Forall (fun x => finite k x = true) l ->
  whole (value k a) -> Forall (fun x => whole (value k x)) l -> Rabs (value k a) + magnitude (map (value k) l) <= bpow radix2 (precision k) ->
  finite k (fold_left g l a) = true /\ value k (fold_left g l a) = value k a + total (map (value k) l).
Proof.
  induction l as [|x l IH]; intros a Wa Wl Fa Fl Ia Il B.
  - cbn. split; [exact Fa|lra].
  - inversion Wl; inversion Fl; inversion Il; subst. destruct Ia as [za Za]. match goal with H : whole (value k x) |- _ => destruct H as [zx Zx] end.
    cbn [map] in B. rewrite magnitude_cons in B. pose proof (magnitude_nonneg (map (value k) l)) as MN.
    assert (AB : Rabs (IZR (za + zx)) <= Rabs (value k a) + Rabs (value k x)) by (rewrite plus_IZR, Za, Zx; apply Rabs_triang).
    assert (ZB : (Z.abs (za + zx) <= 2 ^ precision k)%Z).
    { apply le_IZR. rewrite abs_IZR. change 2%Z with (radix_val radix2). rewrite IZR_Zpower by (pose proof (prec_pos k); lia). lra. }
    destruct (adds_step k g a x G Wa) as (S1 & S2 & S3); [assumption|]. assert (E : value k a + value k x = IZR (za + zx)) by (rewrite plus_IZR, Za, Zx; reflexivity).
    rewrite E, (signed_format k _ ZB) in S2, S3. assert (F : finite k (g a x) = true) by (apply S3; auto using max_whole). destruct (S2 F) as (_ & _ & V).
    cbn [fold_left map]. rewrite total_cons. destruct (IH (g a x)) as [I1 I2]; auto.
    + exists (za + zx)%Z. exact V.
    + rewrite V. lra.
    + split; [exact I1|]. rewrite I2, V, <- E. ring.
Qed.
Lemma whole_lemma k g l : adds k g -> Forall (word k) l -> Forall (fun x => finite k x = true) l -> Forall (fun x => whole (value k x)) l -> magnitude (map (value k) l) <= bpow radix2 (precision k) ->
  exactSum k (fold_left g l fzero) l.
Proof.
  intros G W F I B. destruct (whole_fold k g G l fzero (zero_word k) W (zero_finite k) F) as [A C]; auto.
  - exists 0%Z. apply zero_value.
  - rewrite zero_value, Rabs_R0. lra.
  - split; [exact A|]. rewrite C, zero_value. ring.
Qed.

Lemma growth_linear k n : INR n * unit k <= 1 / 2 -> growth k n <= 2 * (INR n * unit k).
Proof.
  intros H. pose proof (unit_pos k) as U. set (u := unit k) in *.
  assert (B : forall m, INR m * u <= 1 -> (1 - INR m * u) * (1 + u) ^ m <= 1).
  { induction m as [|m IH]; intros L; [cbn; lra|]. rewrite S_INR in *. cbn [pow]. assert (INR m * u <= 1) by nra. specialize (IH H0).
    assert (P : 0 < (1 + u) ^ m) by (apply pow_lt; lra). pose proof (pos_INR m).
    replace ((1 - (INR m + 1) * u) * ((1 + u) * (1 + u) ^ m)) with ((1 - INR m * u) * (1 + u) ^ m - (INR m + 1) * (u * u) * (1 + u) ^ m) by ring.
    assert (0 <= (INR m + 1) * (u * u) * (1 + u) ^ m) by (apply Rmult_le_pos; [apply Rmult_le_pos; nra|lra]). lra. }
  specialize (B n). unfold growth. fold u. set (s := INR n * u) in *. assert (0 <= s) by (unfold s; apply Rmult_le_pos; [apply pos_INR|lra]). specialize (B ltac:(lra)). set (p := (1 + u) ^ n) in *.
  assert (p * (1 - s) <= (1 + 2 * s) * (1 - s)) by nra. apply Rmult_le_reg_r with (1 - s); [lra|]. nra.
Qed.

(** * Tensors *)
Definition allWords (k : fkind) (sh : list nat) (F : list nat -> Z) : Prop := forall idx, valid sh idx -> word k (F idx).
Lemma words_map k sh F l : allWords k sh F -> (forall i, In i l -> In i (indices sh)) -> Forall (word k) (map F l).
Proof. intros H S. apply Forall_forall. intros w Hw. apply in_map_iff in Hw. destruct Hw as (i & <- & Hi). apply H. apply indices_in. apply S. exact Hi. Qed.
Lemma group_sub ax keep sh r i : In i (group ax keep sh r) -> In i (indices sh).
Proof. unfold group. intros H. apply filter_In in H. apply H. Qed.
Lemma fsum_run k sh F : sh <> [] -> fsum k (tensor_of sh F) = Ok (mkT [] [fold_left (fun v x => fadd k x v) (map F (indices sh)) fzero]).
Proof. intros H. unfold fsum. rewrite sumAll_order by first [exact H|exact (fmul k)]. reflexivity. Qed.
Lemma fsumOnDims_run k sh dims ax keep F : sh <> [] -> dims <> [] -> axes_named (length sh) dims ax ->
  fsumOnDims k (tensor_of sh F) dims keep = Ok (tensor_of (reduced_shape ax keep sh) (fun r => fold_left (fadd k) (map F (group ax keep sh r)) fzero)).
Proof.
  intros Hs Hd Ha. unfold fsumOnDims, sumOnDimsOf, isScalar. cbn [tshape tensor_of]. destruct sh as [|x sh]; [congruence|]. destruct dims as [|z dims]; [congruence|].
  rewrite (marks_named _ _ _ Ha). fold (tensor_of (x :: sh) F). rewrite (sumDims_order fzero (fadd k) (fmul k)) by apply Ha. reflexivity.
Qed.
Lemma adds1 k : adds k (fadd k).
Proof. left. reflexivity. Qed.
Lemma adds2 k : adds k (fun v x => fadd k x v).
Proof. right. reflexivity. Qed.
Lemma fmean_run k sh F : sh <> [] -> fmean k (tensor_of sh F) = Ok (mkT [] [fmul k (fold_left (fun v x => fadd k x v) (map F (indices sh)) fzero) (ffloat k (ratio 1 (numel sh)))]).
Proof. intros H. unfold fmean. rewrite fsum_run by exact H. unfold isScalar. cbn [tshape tensor_of]. destruct sh; [congruence|]. reflexivity. Qed.
Lemma fmeanOnDims_run k sh dims ax keep F : sh <> [] -> dims <> [] -> axes_named (length sh) dims ax ->
  fmeanOnDims k (tensor_of sh F) dims keep = Ok (tensor_of (reduced_shape ax keep sh) (fun r => fmul k (fold_left (fadd k) (map F (group ax keep sh r)) fzero) (ffloat k (ratio (numel (reduced_shape ax keep sh)) (numel sh))))).
Proof.
  intros Hs Hd Ha. unfold fmeanOnDims. rewrite (fsumOnDims_run k sh dims ax) by assumption. unfold isScalar. cbn [tshape tensor_of]. destruct sh as [|x sh]; [congruence|]. destruct dims as [|z dims]; [congruence|]. cbn [length Nat.eqb].
  unfold scaleBy, tensor_of, tnumel. cbn [tshape tdata]. rewrite map_map. reflexivity.
Qed.
Lemma fdot_run k sh F G : fdot k (tensor_of sh F) (tensor_of sh G) = Ok (mkT [] [fold_left (fadd k) (prods k (map (fun i => (F i, G i)) (indices sh))) fzero]).
Proof. unfold fdot. rewrite dot_order. unfold addUp, prods. rewrite map_map. reflexivity. Qed.
Lemma fcumsum_run k sh F dim a : dim_is (length sh) dim a ->
  fcumsum k (tensor_of sh F) dim = Ok (tensor_of sh (fun idx => fold_left (fadd k) (map (fun j => F (with_coord true a idx j)) (seq 0 (S (nth a idx 0%nat)))) fzero)).
Proof. intros H. unfold fcumsum. rewrite (cumsum_order fzero (fadd k) (fmul k) sh F dim a H). reflexivity. Qed.
Definition at2 (F : list nat -> Z) (t : bool) (i p : nat) : Z := if t then F [p; i] else F [i; p].
Lemma fmatmul_run k m q n (ta tb : bool) F G :
  fmatmul k (tensor_of (if ta then [q; m] else [m; q]) F) (tensor_of (if tb then [n; q] else [q; n]) G) ta tb
  = Ok (tensor_of [m; n] (fun ij => fold_left (fadd k) (prods k (map (fun p => (at2 F ta (nth 0 ij 0%nat) p, at2 G tb p (nth 1 ij 0%nat))) (seq 0 q))) fzero)).
Proof.
  unfold fmatmul, matmulOf. cbn [tshape tensor_of tdata].
  assert (E : forall r c (H : list nat -> Z) i p, (i < r)%nat -> (p < c)%nat -> nth_error (map H (indices [r; c])) (i * c + p) = Some (H [i; p])).
  { intros r c H i p Hi Hp. rewrite nth_error_map. assert (V : valid [r; c] [i; p]) by (repeat constructor; assumption).
    replace (i * c + p)%nat with (ravel [r; c] [i; p]) by (rewrite !ravel_cons, ravel_nil, !numel_cons, numel_nil; nia). rewrite indices_nth by (apply ravel_lt; exact V). rewrite o2i_ravel by exact V. reflexivity. }
  assert (R : gemmOf fzero (fadd k) (fmul k) (map F (indices (if ta then [q; m] else [m; q]))) 0 (map G (indices (if tb then [n; q] else [q; n]))) 0 m q n ta tb
    = Some (map (fun ij => fold_left (fadd k) (prods k (map (fun p => (at2 F ta (nth 0 ij 0%nat) p, at2 G tb p (nth 1 ij 0%nat))) (seq 0 q))) fzero) (indices [m; n]))).
  { rewrite (gemm_order _ _ _ _ _ 0 0 m q n ta tb (at2 F ta) (at2 G tb)).
    - f_equal. apply map_ext. intros ij. unfold addUp, prods. rewrite map_map. reflexivity.
    - intros i p Hi Hp. cbn [Nat.add]. destruct ta; apply E; assumption.
    - intros p j Hp Hj. cbn [Nat.add]. destruct tb; apply E; assumption. }
  destruct ta, tb; rewrite Nat.eqb_refl; cbn [negb]; rewrite R; reflexivity.
Qed.
