(** C96: floating-point sums, dot products, matrix products, running sums and
    means have the error bounds of recursive summation. *)
From Coq Require Import ZArith Reals List Bool Arith Lia Lra.
From Flocq Require Import Core.
From Verif Require Import ShapeModel ShapeSpec ShapeProofs TensorModel TensorSpec TensorLemmas BcastModel BcastSpec BufModel CutSpec ReduceModel ReduceSpec ReduceProofs LinalgModel LinalgSpec LineModel SampleModel SoftmaxProofs
  AccModel AccSpec AccProofs AccProofs2 AccProofs3 AccProofs4 AccProofs5.
Import ListNotations.
Open Scope R_scope.

(** The sum of all elements. *)
Theorem C96_sum : forall k sh F, sh <> [] -> (forall idx, valid sh idx -> word k (F idx)) ->
  exists w, fsum k (tensor_of sh F) = Ok (mkT [] [w]) /\ accurateSum k w (map F (indices sh)) /\ safeSum k w (map F (indices sh)).
Proof. intros k sh F N W. eexists. split; [apply fsum_run; exact N|]. apply sum_lemma; [apply adds2|]. apply (words_map k sh); auto. Qed.
(** The sum over some dimensions: each element is an accurate sum of its group. *)
Theorem C96_sum_dims : forall k sh dims ax keep F, sh <> [] -> dims <> [] -> axes_named (length sh) dims ax -> (forall idx, valid sh idx -> word k (F idx)) ->
  exists R, fsumOnDims k (tensor_of sh F) dims keep = Ok (tensor_of (reduced_shape ax keep sh) R)
    /\ forall r, accurateSum k (R r) (map F (group ax keep sh r)) /\ safeSum k (R r) (map F (group ax keep sh r)).
Proof.
  intros k sh dims ax keep F N D A W. eexists. split; [apply fsumOnDims_run; assumption|]. intros r. cbv beta. apply sum_lemma; [apply adds1|]. apply (words_map k sh); [exact W|]. apply group_sub.
Qed.
(** Dot products. *)
Theorem C96_dot : forall k sh F G, (forall idx, valid sh idx -> word k (F idx) /\ word k (G idx)) ->
  exists w, fdot k (tensor_of sh F) (tensor_of sh G) = Ok (mkT [] [w])
    /\ accurateDot k w (map (fun i => (F i, G i)) (indices sh)) /\ safeDot k w (map (fun i => (F i, G i)) (indices sh)).
Proof.
  intros k sh F G W. eexists. split; [apply fdot_run|]. apply dot_lemma; [apply adds1|]. apply Forall_forall. intros p Hp. apply in_map_iff in Hp. destruct Hp as (i & <- & Hi). apply W. apply indices_in. exact Hi.
Qed.
(** Matrix products: each entry is an accurate dot product of its row and
    its column. *)
Theorem C96_matmul : forall k m q n (ta tb : bool) F G,
  (forall idx, valid (if ta then [q; m] else [m; q]) idx -> word k (F idx)) -> (forall idx, valid (if tb then [n; q] else [q; n]) idx -> word k (G idx)) ->
  exists R, fmatmul k (tensor_of (if ta then [q; m] else [m; q]) F) (tensor_of (if tb then [n; q] else [q; n]) G) ta tb = Ok (tensor_of [m; n] R)
    /\ forall i j, (i < m)%nat -> (j < n)%nat ->
       let l := map (fun p => ((if ta then F [p; i] else F [i; p]), (if tb then G [j; p] else G [p; j]))) (seq 0 q) in accurateDot k (R [i; j]) l /\ safeDot k (R [i; j]) l.
Proof.
  intros k m q n ta tb F G WF WG. eexists. split; [apply fmatmul_run|]. intros i j Hi Hj. cbv zeta beta. cbn [nth]. unfold at2. apply dot_lemma; [apply adds1|].
  apply Forall_forall. intros x Hx. apply in_map_iff in Hx. destruct Hx as (p & <- & Hp). apply in_seq in Hp. split; cbn [fst snd].
  - destruct ta; apply WF; repeat constructor; lia.
  - destruct tb; apply WG; repeat constructor; lia.
Qed.
(** Running sums: element [j] of a line is an accurate sum of the first [j + 1]
    elements of that line. *)
Theorem C96_cumsum : forall k sh F dim a, dim_is (length sh) dim a -> (forall idx, valid sh idx -> word k (F idx)) ->
  exists R, fcumsum k (tensor_of sh F) dim = Ok (tensor_of sh R)
    /\ forall idx, valid sh idx -> let l := map (fun j => F (with_coord true a idx j)) (seq 0 (S (nth a idx 0%nat))) in accurateSum k (R idx) l /\ safeSum k (R idx) l.
Proof.
  intros k sh F dim a D W. eexists. split; [apply fcumsum_run; exact D|]. intros idx V. cbv zeta beta. apply sum_lemma; [apply adds1|].
  apply Forall_forall. intros x Hx. apply in_map_iff in Hx. destruct Hx as (j & <- & Hj). apply in_seq in Hj. apply W. destruct D as [Ha _]. pose proof (coord_lt sh a idx V Ha). apply valid_coord; try assumption. lia.
Qed.
(** The mean of all elements, of up to 2^14 elements. *)
Theorem C96_mean : forall k sh F, sh <> [] -> (1 <= numel sh)%nat -> (Z.of_nat (numel sh) <= 2 ^ 14)%Z -> (forall idx, valid sh idx -> word k (F idx)) ->
  exists w, fmean k (tensor_of sh F) = Ok (mkT [] [w]) /\ accurateMean k w (map F (indices sh)).
Proof.
  intros k sh F N L1 L2 W. eexists. split; [apply fmean_run; exact N|]. assert (E : length (map F (indices sh)) = numel sh) by (rewrite map_length; apply indices_length).
  apply mean_lemma; rewrite ?E; try lia. apply sum_lemma; [apply adds2|]. apply (words_map k sh); auto.
Qed.
(** The mean over some dimensions, with up to 2^14 elements in a group and 2^24 in
    the tensor. *)
Theorem C96_mean_dims : forall k sh dims ax keep F, sh <> [] -> dims <> [] -> axes_named (length sh) dims ax -> (1 <= numel sh)%nat -> (Z.of_nat (numel sh) <= 2 ^ 24)%Z ->
  (forall idx, valid sh idx -> word k (F idx)) ->
  exists R, fmeanOnDims k (tensor_of sh F) dims keep = Ok (tensor_of (reduced_shape ax keep sh) R)
    /\ forall r, valid (reduced_shape ax keep sh) r -> (Z.of_nat (length (group ax keep sh r)) <= 2 ^ 14)%Z -> accurateMean k (R r) (map F (group ax keep sh r)).
Proof.
  intros k sh dims ax keep F N D A L1 L2 W. eexists. split; [apply fmeanOnDims_run; assumption|]. intros r V L. cbv beta. destruct A as [La A].
  pose proof (dropped_numel keep sh ax La) as DN. pose proof (group_length keep sh ax r La V) as GL.
  apply mean_lemma; rewrite ?map_length, ?GL; try nia. apply sum_lemma; [apply adds1|]. apply (words_map k sh); [exact W|]. apply group_sub.
Qed.
(** Whole numbers whose sizes add up to at most 2^precision are added without error. *)
Theorem C96_whole_sum : forall k sh F, sh <> [] -> (forall idx, valid sh idx -> word k (F idx) /\ finite k (F idx) = true /\ whole (value k (F idx))) ->
  magnitude (map (value k) (map F (indices sh))) <= bpow radix2 (precision k) ->
  exists w, fsum k (tensor_of sh F) = Ok (mkT [] [w]) /\ exactSum k w (map F (indices sh)).
Proof.
  intros k sh F N W B. eexists. split; [apply fsum_run; exact N|]. apply whole_lemma; [apply adds2|apply (words_map k sh); [intros idx V; apply W; exact V|auto]|..|exact B];
    apply Forall_forall; intros x Hx; apply in_map_iff in Hx; destruct Hx as (i & <- & Hi); apply W; apply indices_in; exact Hi.
Qed.
Theorem C96_whole_sum_dims : forall k sh dims ax keep F, sh <> [] -> dims <> [] -> axes_named (length sh) dims ax ->
  (forall idx, valid sh idx -> word k (F idx) /\ finite k (F idx) = true /\ whole (value k (F idx))) ->
  exists R, fsumOnDims k (tensor_of sh F) dims keep = Ok (tensor_of (reduced_shape ax keep sh) R)
    /\ forall r, magnitude (map (value k) (map F (group ax keep sh r))) <= bpow radix2 (precision k) -> exactSum k (R r) (map F (group ax keep sh r)).
Proof.
  intros k sh dims ax keep F N D A W. eexists. split; [apply fsumOnDims_run; assumption|]. intros r B. cbv beta. apply whole_lemma; [apply adds1|apply (words_map k sh); [intros idx V; apply W; exact V|apply group_sub]|..|exact B];
    apply Forall_forall; intros x Hx; apply in_map_iff in Hx; destruct Hx as (i & <- & Hi); apply W; apply indices_in; eapply group_sub; exact Hi.
Qed.
(** The growth in plain figures. *)
Theorem C96_growth : forall k n, INR n * unit k <= 1 / 2 -> growth k n <= 2 * (INR n * unit k).
Proof. exact growth_linear. Qed.
(** The bounds cannot be relative to the sum or free of the number of terms: adding ones
    stops at 2^precision (256 for BFloat16, 2048 for Half, 16777216 for float). *)
Theorem C96_ones_stop_refuted : forall k sh, sh <> [] ->
  exists w, fsum k (tensor_of sh (fun _ => oneWord k)) = Ok (mkT [] [w]) /\ value k (oneWord k) = 1
    /\ finite k w = true /\ value k w = IZR (Z.min (Z.of_nat (numel sh)) (2 ^ precision k)).
Proof.
  intros k sh N. eexists. split; [apply fsum_run; exact N|]. split; [apply one_value|]. destruct (ones_lemma k _ (adds2 k) (numel sh)) as (_ & F & V).
  assert (E : map (fun _ : list nat => oneWord k) (indices sh) = repeat (oneWord k) (numel sh)).
  { rewrite <- (indices_length sh). induction (indices sh) as [|x l IH]; [reflexivity|]. cbn [map length repeat]. f_equal. exact IH. }
  rewrite E. split; assumption.
Qed.
Theorem C96_mean_of_ones_refuted : exists w, fmean BF16 (tensor_of [512%nat] (fun _ => oneWord BF16)) = Ok (mkT [] [w]) /\ value BF16 (oneWord BF16) = 1 /\ value BF16 w = 1 / 2.
Proof.
  eexists. split; [apply fmean_run; discriminate|]. split; [apply one_value|]. destruct (ones_lemma BF16 _ (adds2 BF16) 512) as (W & F & V).
  assert (E : map (fun _ : list nat => oneWord BF16) (indices [512%nat]) = repeat (oneWord BF16) 512).
  { assert (Q : forall l : list (list nat), map (fun _ => oneWord BF16) l = repeat (oneWord BF16) (length l)) by (induction l as [|x l IH]; [reflexivity|]; cbn [map length repeat]; f_equal; exact IH). rewrite Q, indices_length. reflexivity. }
  rewrite E. set (s := fold_left _ _ _) in *. assert (EF : ffloat BF16 (ratio 1 (numel [512%nat])) = 15104%Z) by (vm_compute; reflexivity). rewrite EF.
  assert (WF : word BF16 15104) by (unfold word; lia). assert (FF : finite BF16 15104 = true) by (vm_compute; reflexivity).
  assert (VF : value BF16 15104 = / 512). { unfold value. rewrite (from_FF 8 128 _ 128 (-16)) by (vm_compute; reflexivity). cbn. lra. }
  destruct (mul_step BF16 s 15104 W WF) as (_ & S2 & S3). rewrite V, VF in S2, S3. change (Z.min (Z.of_nat 512) (2 ^ precision BF16)) with 256%Z in *.
  assert (R : rnd BF16 (256 * / 512) = 1 / 2).
  { replace (256 * / 512) with (bpow radix2 (-1)) by (cbn; lra). unfold rnd. rewrite round_generic; [cbn; lra|apply valid_rnd_N|]. apply generic_format_bpow. cbn. lia. }
  rewrite R in S2, S3. assert (Ff : finite BF16 (fmul BF16 s 15104) = true). { apply S3; auto. rewrite Rabs_pos_eq by lra. pose proof (one_lt_max BF16). lra. }
  apply S2 in Ff. apply Ff.
Qed.

(** Not vacuous: 1.0, -1.5 and 2 as Half and BFloat16; the units. *)
Example ex_words : word F16 15360 /\ finite F16 15360 = true /\ word BF16 49088 /\ finite BF16 49088 = true /\ value F16 15360 = 1.
Proof. split; [unfold word; lia|]. split; [vm_compute; reflexivity|]. split; [unfold word; lia|]. split; [vm_compute; reflexivity|]. exact (one_value F16). Qed.
Example ex_units : unit BF16 = / 256 /\ unit F16 = / 2048 /\ unit F32 = / 16777216.
Proof. unfold unit. cbn. repeat split; lra. Qed.
Example ex_sum_runs : fsum F16 (tensor_of [2%nat; 2%nat] (fun i => if (nth 0 i 0 =? nth 1 i 0)%nat then 15360%Z else 15872%Z)) = Ok (mkT [] [17664%Z]).
Proof. vm_compute. reflexivity. Qed.
Example ex_matmul_runs : fmatmul BF16 (tensor_of [1%nat; 2%nat] (fun _ => 16256%Z)) (tensor_of [2%nat; 1%nat] (fun _ => 49088%Z)) false false = Ok (mkT [1%nat; 1%nat] [49216%Z]).
Proof. vm_compute. reflexivity. Qed.
Example ex_mean_runs : fmean BF16 (tensor_of [2%nat] (fun i => if (nth 0 i 0 =? 0)%nat then 16256%Z else 16448%Z)) = Ok (mkT [] [16384%Z]).
Proof. vm_compute. reflexivity. Qed.
Example ex_dims : axes_named 2 [(-1)%Z] [false; true].
Proof.
  split; [reflexivity|]. split.
  - intros d [<-|[]]. exists 1%nat. unfold dim_is. lia.
  - intros [|[|j]]; cbn.
    + split; [discriminate|]. intros (d & [<-|[]] & H). unfold dim_is in H. lia.
    + split; [|reflexivity]. intros _. exists (-1)%Z. split; [left; reflexivity|]. unfold dim_is. lia.
    + split; [destruct j; discriminate|]. intros (d & [<-|[]] & H). unfold dim_is in H. lia.
Qed.
Print Assumptions C96_sum.
Print Assumptions C96_sum_dims.
Print Assumptions C96_dot.
Print Assumptions C96_matmul.
Print Assumptions C96_cumsum.
Print Assumptions C96_mean.
Print Assumptions C96_mean_dims.
Print Assumptions C96_whole_sum.
Print Assumptions C96_whole_sum_dims.
Print Assumptions C96_growth.
Print Assumptions C96_ones_stop_refuted.
Print Assumptions C96_mean_of_ones_refuted.
