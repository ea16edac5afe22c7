(** C102: softmax and log-softmax of float, Half and BFloat16 tensors, with their
    roundings, infinities and NaN. *)
From Coq Require Import ZArith Reals List Bool Arith Lia Lra.
From Flocq Require Import Core IEEE754.Binary IEEE754.Bits.
From Verif Require Import ShapeModel ShapeSpec ShapeProofs TensorModel TensorSpec TensorLemmas BcastModel BcastSpec BufModel CutSpec ReduceModel ReduceSpec ReduceProofs BufProofs LineModel SoftmaxModel SoftmaxProofs
  AccModel AccSpec AccProofs2 AccProofs3 AccProofs4 FsoftModel FsoftSpec FsoftSpec2 FsoftProofs FsoftProofs2 FsoftProofs3 FsoftProofs4 FsoftProofs5 FsoftProofs6 FsoftProofs7.
Import ListNotations.
Open Scope R_scope.

Lemma soft_lift k ex sh F dim a : dim_is (length sh) dim a ->
  fsoftmax k ex (tensor_of sh F) dim = Ok (tensor_of sh (fun idx => softAt k ex (line F true a (nth a sh 0%nat) idx) (F idx))).
Proof. intros H. unfold fsoftmax. apply (softmaxWith_ok 0%Z); [exact H|]. intros idx _. rewrite softLine_map. reflexivity. Qed.
Lemma log_lift k ex lg sh F dim a : dim_is (length sh) dim a ->
  flogSoftmax k ex lg (tensor_of sh F) dim = Ok (tensor_of sh (fun idx => logAt k ex lg (line F true a (nth a sh 0%nat) idx) (F idx))).
Proof. intros H. unfold flogSoftmax. apply (softmaxWith_ok 0%Z); [exact H|]. intros idx _. rewrite logLine_map. reflexivity. Qed.
Lemma line_self {A} (F : list nat -> A) sh a idx : valid sh idx -> (a < length sh)%nat -> In (F idx) (line F true a (nth a sh 0%nat) idx).
Proof. intros V L. unfold line. apply in_map_iff. exists (nth a idx 0%nat). rewrite with_coord_self. split; [reflexivity|]. apply in_seq. pose proof (coord_lt sh a idx V L). lia. Qed.
Lemma line_at {A} (F : list nat -> A) n a idx j : (j < n)%nat -> In (F (with_coord true a idx j)) (line F true a n idx).
Proof. intros L. unfold line. apply in_map_iff. exists j. split; [reflexivity|]. apply in_seq. lia. Qed.
Lemma line_words k sh F a idx : (forall i, valid sh i -> word k (F i)) -> valid sh idx -> (a < length sh)%nat -> Forall (word k) (line F true a (nth a sh 0%nat) idx).
Proof. intros W V L. apply Forall_forall. intros x Hx. unfold line in Hx. apply in_map_iff in Hx. destruct Hx as (j & <- & Hj). apply in_seq in Hj. apply W. apply valid_coord; auto. lia. Qed.
Lemma line_soft k ex sh F a idx : let n := nth a sh 0%nat in
  line (fun i => softAt k ex (line F true a n i) (F i)) true a n idx = map (softAt k ex (line F true a n idx)) (line F true a n idx).
Proof. cbv zeta. unfold line at 1. rewrite (eq_refl : line F true a (nth a sh 0%nat) idx = map _ _) at 2. rewrite map_map. apply map_ext. intros j. rewrite line_twice. reflexivity. Qed.

Lemma one_num k : meaning k (oneWord k) = Num 1.
Proof. apply meaning_num. split; [apply one_word|apply one_value]. Qed.

(** A line of numbers and minus infinities with at least one number gives numbers
    from 0 to 1, exactly 0 at minus infinity, and the largest elements get at least 2^-24, 2^-11
    or 2^-8; every other line (a NaN, a plus infinity or nothing but minus infinities) gives NaN throughout. *)
Theorem C102_softmax_values : forall k ex sh F dim a, exp_ok ex -> dim_is (length sh) dim a -> (forall idx, valid sh idx -> word k (F idx)) ->
  exists G, fsoftmax k ex (tensor_of sh F) dim = Ok (tensor_of sh G) /\
    forall idx, valid sh idx -> let l := line F true a (nth a sh 0%nat) idx in
      (proper k l -> exists y, meaning k (G idx) = Num y /\ 0 <= y <= 1 /\ (meaning k (F idx) = Inf true -> y = 0)
         /\ ((forall w, In w l -> atMost (meaning k w) (meaning k (F idx))) -> bpow radix2 (- precision k) <= y))
      /\ (~ proper k l -> meaning k (G idx) = NaN).
Proof.
  intros k ex sh F dim a X D W. eexists. split; [apply soft_lift; exact D|]. intros idx V. cbv beta zeta. destruct D as [Ha _]. pose proof (line_words k sh F a idx W V Ha) as LW. pose proof (line_self F sh a idx V Ha) as I. split.
  - intros P. destruct (y_range k ex X _ LW P _ I) as (y & E & B). exists y. split; [exact E|]. split; [exact B|]. split.
    + intros M. pose proof (y_masked k ex X _ LW P _ I M). congruence.
    + intros U. destruct (y_largest k ex X _ LW P _ I U) as (y' & E' & B'). assert (y' = y) by congruence. subst. exact B'.
  - intros P. apply (y_bad k ex X _ LW _ P I).
Qed.
(** The results of a line are in the order of its elements. *)
Theorem C102_softmax_order : forall k ex sh F dim a, exp_ok ex -> dim_is (length sh) dim a -> (forall idx, valid sh idx -> word k (F idx)) ->
  exists G, fsoftmax k ex (tensor_of sh F) dim = Ok (tensor_of sh G) /\
    forall idx j, valid sh idx -> (j < nth a sh 0)%nat -> proper k (line F true a (nth a sh 0%nat) idx) ->
      let idx' := with_coord true a idx j in atMost (meaning k (F idx)) (meaning k (F idx')) -> atMost (meaning k (G idx)) (meaning k (G idx')).
Proof.
  intros k ex sh F dim a X D W. eexists. split; [apply soft_lift; exact D|]. intros idx j V J P. cbv beta zeta. intros O. destruct D as [Ha _]. pose proof (line_words k sh F a idx W V Ha) as LW. rewrite line_twice.
  destruct (y_order k ex X _ LW P _ _ (line_self F sh a idx V Ha) (line_at F _ a idx j J) O) as (y & y' & -> & -> & L). exact L.
Qed.
(** The results of a line of [n] elements add up to 1, up to [n + 4] roundings and the
    underflow of each. *)
Theorem C102_softmax_total : forall k ex sh F dim a, exp_ok ex -> dim_is (length sh) dim a -> (forall idx, valid sh idx -> word k (F idx)) ->
  exists G, fsoftmax k ex (tensor_of sh F) dim = Ok (tensor_of sh G) /\
    forall idx, valid sh idx -> let n := nth a sh 0%nat in proper k (line F true a n idx) ->
      Rabs (total (map (value k) (line G true a n idx)) - 1) <= growth k (n + 4) + INR n * tiny k.
Proof.
  intros k ex sh F dim a X D W. eexists. split; [apply soft_lift; exact D|]. intros idx V. cbv zeta. intros P. destruct D as [Ha _]. pose proof (line_words k sh F a idx W V Ha) as LW. rewrite line_soft.
  pose proof (y_total k ex X _ LW P) as T. rewrite line_length in T. exact T.
Qed.
(** The results are the exact softmax of the elements, up to a factor that is close to 1
    for lines that are neither too long nor too spread, and underflow. *)
Theorem C102_softmax_close : forall k ex eps D sh F dim a, exp_ok ex -> 0 <= eps -> exp_within ex eps -> D <= bpow radix2 (emaxOf k - 1) ->
  dim_is (length sh) dim a -> (forall idx, valid sh idx -> word k (F idx)) ->
  exists G, fsoftmax k ex (tensor_of sh F) dim = Ok (tensor_of sh G) /\
    forall idx, valid sh idx -> let n := nth a sh 0%nat in let l := line F true a n idx in proper k l -> spread k l D ->
      exists y, meaning k (G idx) = Num y /\ close k (factor k eps D n) y (share k l (F idx)).
Proof.
  intros k ex eps D sh F dim a X E0 EW DB A W. eexists. split; [apply soft_lift; exact A|]. intros idx V. cbv zeta beta. intros P SD. destruct A as [Ha _]. pose proof (line_words k sh F a idx W V Ha) as LW.
  pose proof (y_close k ex X eps E0 EW _ LW P D SD DB (F idx) (line_self F sh a idx V Ha)) as C. rewrite line_length in C. exact C.
Qed.
(** Log-softmax: such a line gives numbers that are not positive, or minus
    infinity, in the order of the elements; minus infinity at minus infinity; numbers for elements
    of at most a quarter of the range; every other line gives NaN throughout. *)
Theorem C102_log_softmax_partial : forall k ex lg sh F dim a, exp_ok ex -> log_ok lg -> dim_is (length sh) dim a -> (forall idx, valid sh idx -> word k (F idx)) ->
  exists G, flogSoftmax k ex lg (tensor_of sh F) dim = Ok (tensor_of sh G) /\
    forall idx, valid sh idx -> let l := line F true a (nth a sh 0%nat) idx in
      (proper k l -> atMost (meaning k (G idx)) (Num 0) /\ (meaning k (F idx) = Inf true -> meaning k (G idx) = Inf true)
         /\ (forall v, meaning k (F idx) = Num v -> (forall w v', In w l -> meaning k w = Num v' -> Rabs v' <= bpow radix2 (emaxOf k - 2)) -> exists y, meaning k (G idx) = Num y)
         /\ (forall j, (j < nth a sh 0)%nat -> let idx' := with_coord true a idx j in atMost (meaning k (F idx)) (meaning k (F idx')) -> atMost (meaning k (G idx)) (meaning k (G idx'))))
      /\ (~ proper k l -> meaning k (G idx) = NaN).
Proof.
  intros k ex lg sh F dim a X L D W. eexists. split; [apply log_lift; exact D|]. intros idx V. cbv beta zeta. destruct D as [Ha _]. pose proof (line_words k sh F a idx W V Ha) as LW. pose proof (line_self F sh a idx V Ha) as I. split.
  - intros P. split; [|split; [|split]].
    + pose proof (z_below k ex X _ LW lg L _ P I) as B. destruct (meaning k (logAt k ex lg (line F true a (nth a sh 0%nat) idx) (F idx))) as [|[]|]; cbn in *; auto.
    + apply (z_masked k ex X _ LW lg L _ P I).
    + intros v Hv Q. destruct (z_num k ex X _ LW lg L _ v P I Hv Q) as (y & E & _). exists y. exact E.
    + intros j J O. rewrite line_twice. apply (z_order k ex X _ LW lg L _ _ P I (line_at F _ a idx j J) O).
  - intros P. apply (z_bad k ex X _ LW lg L _ P I).
Qed.
(** Its numbers are those of the exact log-softmax, up to a factor close to 1 and the
    logarithm of the factor of the sum. *)
Theorem C102_log_softmax_close : forall k ex eps lg epl D sh F dim a, exp_ok ex -> 0 <= eps -> exp_within ex eps -> log_ok lg -> 0 <= epl -> log_within lg epl ->
  D <= bpow radix2 (emaxOf k - 1) -> dim_is (length sh) dim a -> (forall idx, valid sh idx -> word k (F idx)) ->
  exists G, flogSoftmax k ex lg (tensor_of sh F) dim = Ok (tensor_of sh G) /\
    forall idx, valid sh idx -> let n := nth a sh 0%nat in let l := line F true a n idx in proper k l -> spread k l D ->
      (forall w v, In w l -> meaning k w = Num v -> Rabs v <= bpow radix2 (emaxOf k - 2)) -> forall v, meaning k (F idx) = Num v ->
      exists y, meaning k (G idx) = Num y /\ near ((1 + unit k) ^ 2 * (1 + epl)) (ln (sumFactor k eps D n) + 2 * tiny k) (- y) (ln (total (map (weight k) l)) - v).
Proof.
  intros k ex eps lg epl D sh F dim a X E0 EW L EL LW DB A W. eexists. split; [apply log_lift; exact A|]. intros idx V. cbv zeta beta. intros P SD B v M. destruct A as [Ha _]. pose proof (line_words k sh F a idx W V Ha) as LWd.
  pose proof (z_close k ex X eps E0 EW _ LWd P D SD DB lg L epl EL LW (F idx) v (line_self F sh a idx V Ha) M B) as C. rewrite line_length in C. exact C.
Qed.
(** A dimension the tensor does not have is refused. *)
Theorem C102_rejects : forall k ex lg sh F dim, (forall a, ~ dim_is (length sh) dim a) ->
  fsoftmax k ex (tensor_of sh F) dim = Fail /\ flogSoftmax k ex lg (tensor_of sh F) dim = Fail.
Proof.
  intros k ex lg sh F dim H. unfold fsoftmax, flogSoftmax, softmaxWith. cbn [tshape tensor_of]. destruct (axis (length sh) dim) as [a|] eqn:E; [|split; reflexivity]. apply axis_some in E. destruct (H a). exact E.
Qed.

(** False: "the results of a line add up to about 1, however long it is".  The sum of the
    exponentials stops growing at 2^24, 2^11 or 2^8, so a line of [n] equal numbers, [n] at
    least that, adds up to [n] times 2^-24, 2^-11 or 2^-8: already 2 for 512 elements of BFloat16 or 4096 of Half. *)
Theorem C102_long_lines_refuted : forall k ex c v n, exp_ok ex -> word k c -> meaning k c = Num v -> (2 ^ precision k <= Z.of_nat n)%Z ->
  exists G, fsoftmax k ex (tensor_of [n] (fun _ => c)) 0 = Ok (tensor_of [n] G) /\ total (map (value k) (line G true 0 n [0%nat])) = INR n * bpow radix2 (- precision k).
Proof.
  intros k ex c v n X Wc Mc N. assert (D : dim_is (length [n]) 0 0) by (split; [cbn; lia|left; reflexivity]). eexists. split; [apply (soft_lift k ex [n] (fun _ => c) 0 0 D)|].
  cbn [nth]. pose proof (line_soft k ex [n] (fun _ => c) 0 [0%nat]) as LS. cbv zeta in LS. cbn [nth] in LS. rewrite LS. clear LS. set (l := line (fun _ : list nat => c) true 0 n [0%nat]).
  assert (Ll : length l = n) by apply line_length. assert (Fc : forall w, In w l -> w = c) by (intros w Hw; unfold l, line in Hw; apply in_map_iff in Hw; destruct Hw as (j & <- & _); reflexivity).
  assert (E : forall w, In w l -> value k (softAt k ex l w) = bpow radix2 (- precision k)).
  { intros w I. apply meaning_num. apply (equal_line k ex l v w X); auto; [apply Forall_forall; intros z Hz; rewrite (Fc z Hz); exact Wc|apply Forall_forall; intros z Hz; rewrite (Fc z Hz); exact Mc|]. rewrite Ll. exact N. }
  assert (T : forall l', (forall w, In w l' -> In w l) -> total (map (value k) (map (softAt k ex l) l')) = INR (length l') * bpow radix2 (- precision k)).
  { induction l' as [|w l' IH]; intros H; cbn [map length]; [cbn; lra|]. rewrite total_cons, S_INR, IH by (intros z Hz; apply H; right; exact Hz). rewrite E by (apply H; left; reflexivity). lra. }
  rewrite T by auto. rewrite Ll. reflexivity.
Qed.
(** In particular the total can be 2. *)
Example C102_total_two : forall ex, exp_ok ex -> exists G, fsoftmax BF16 ex (tensor_of [512%nat] (fun _ => 16256%Z)) 0 = Ok (tensor_of [512%nat] G) /\ total (map (value BF16) (line G true 0 512 [0%nat])) = 2.
Proof.
  intros ex X. destruct (C102_long_lines_refuted BF16 ex 16256%Z 1 512 X) as (G & E & T).
  - split; [discriminate|reflexivity].
  - apply (one_num BF16).
  - cbn [precision]. lia.
  - exists G. split; [exact E|]. rewrite T. rewrite INR_IZR_INZ. replace (Z.of_nat 512) with 512%Z by lia. cbn [precision]. change (-8)%Z with (- (8))%Z. rewrite bpow_opp. cbn. lra.
Qed.
(** False: "log-softmax of numbers gives numbers".  [FLT_MAX; -FLT_MAX] gives minus
    infinity at the second element. *)
Theorem C102_log_finite_refuted : exists sh F idx, valid sh idx /\ (forall i, valid sh i -> word F32 (F i) /\ exists v, meaning F32 (F i) = Num v) /\
  forall ex lg, exp_ok ex -> log_ok lg -> exists G, flogSoftmax F32 ex lg (tensor_of sh F) 0 = Ok (tensor_of sh G) /\ meaning F32 (G idx) = Inf true.
Proof.
  exists [2%nat], (fun i => nth (nth 0 i 0%nat) [2139095039; 4286578687]%Z 0%Z), [1%nat]. split; [repeat constructor; lia|]. split.
  - intros i V. destruct i as [|j [|]]; try (inversion V; fail). { assert (j = 0 \/ j = 1)%nat as [-> | ->] by (inversion V; subst; lia); cbn [nth]; (split; [split; [discriminate|reflexivity]|]); eexists; cbn [meaning]; vm_compute; reflexivity. } inversion V; subst. match goal with H : Forall2 _ _ _ |- _ => inversion H end.
  - intros ex lg X L. assert (D : dim_is (length [2%nat]) 0 0) by (split; [cbn; lia|left; reflexivity]). eexists. split; [apply (log_lift F32 ex lg [2%nat] _ 0 0 D)|]. apply (log_overflow ex lg X L).
Qed.

(** The hypotheses hold of the correctly rounded exponential and logarithm. *)
Example C102_functions : exp_ok roundedExp /\ exp_within roundedExp (unit F32) /\ log_ok roundedLog /\ log_within roundedLog (unit F32).
Proof. split; [exact roundedExp_ok|]. split; [exact roundedExp_within|]. split; [exact roundedLog_ok|exact roundedLog_within]. Qed.
(** A row of Half [1; -inf; 0] is proper, and its spread is 1. *)
Example C102_row : let F := fun i => nth (nth 1 i 0%nat) [15360; 64512; 0]%Z 0%Z in
  (forall i, valid [1; 3]%nat i -> word F16 (F i)) /\ proper F16 (line F true 1 3 [0; 0]%nat) /\ spread F16 (line F true 1 3 [0; 0]%nat) 1.
Proof.
  cbv zeta. assert (M1 : meaning F16 15360 = Num 1) by (apply (one_num F16)). assert (M2 : meaning F16 64512 = Inf true) by (vm_compute; reflexivity). assert (M3 : meaning F16 0 = Num 0) by (apply (zero_num F16)). split; [|split].
  - intros i V. inversion V as [|x y xs ys _ V2]; subst. inversion V2 as [|x2 y2 xs2 ys2 L _]; subst. cbn [nth]. destruct x2 as [|[|[|]]]; cbn [nth]; split; try discriminate; try reflexivity; lia.
  - cbn. split.
    + constructor; [right; exists 1; exact M1|]. constructor; [left; exact M2|]. constructor; [right; exists 0; exact M3|]. constructor.
    + constructor. exists 1. exact M1.
  - intros w w' v v' I I'. cbn [line seq map with_coord set_nth nth In] in I, I'. destruct I as [<-|[<-|[<-|[]]]], I' as [<-|[<-|[<-|[]]]]; rewrite ?M1, ?M2, ?M3; intros A B; try discriminate; injection A as <-; injection B as <-; lra.
Qed.
Print Assumptions C102_softmax_values.
Print Assumptions C102_softmax_order.
Print Assumptions C102_softmax_total.
Print Assumptions C102_softmax_close.
Print Assumptions C102_log_softmax_partial.
Print Assumptions C102_log_softmax_close.
Print Assumptions C102_rejects.
Print Assumptions C102_long_lines_refuted.
Print Assumptions C102_log_finite_refuted.
