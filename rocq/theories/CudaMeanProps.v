(* C74: means and variances of CUDA tensors, over the real numbers.  average and
   variance are the textbook ones (ReduceSpec); `always_all`, `computes_all` range
   over every schedule of the launches. *)
From Coq Require Import List Arith ZArith Bool Lia Reals Lra.
From Verif Require Import ShapeModel ShapeSpec ShapeProofs TensorModel TensorSpec BcastModel BcastSpec BcastProofs BcastProofs2 BufModel BufProofs CutSpec ReduceModel ReduceSpec ReduceProofs
  GpuModel GpuSpec GpuProofs GpuLemmas GpuOrder CudaModel CudaSpec CudaProofs CudaProps CudaFillModel CudaItems CudaFillProofs CudaFillProps CudaReduceModel CudaReduceSpec CudaReduceProofs3 CudaReduceMulti CudaReduceGroup CudaReduceProps CudaMeanModel CudaMeanProofs CudaMeanProofs2 CudaMeanProofs3.
Import ListNotations.
Local Open Scope nat_scope.

(* ---- of all elements ---- *)

(* Up to 512 * 512 elements: above it the sum is wrong (cuda_sum_all_large_refuted). *)
Theorem cuda_mean_all_partial : forall sh (F : list nat -> R) m p out tmp s,
  sh <> [] -> 0 < size sh <= 512 * 512 -> tmp <> p -> out <> tmp -> s <> out -> s <> tmp ->
  has m p sh F -> room m tmp ((size sh + 511) / 512) -> room m out (size []) -> room m s 1 ->
  exists ls, meanCuda (mkD p sh) out tmp s = Ok (mkD out [], ls) /\
    computes_all ls m out [s; tmp] [] (fun _ => average F (indices sh)).
Proof. exact mean_all. Qed.

Theorem cuda_var_all_partial : forall sh unbiased (F : list nat -> R) m p mo mt ms sq vo vt vs,
  sh <> [] -> 0 < size sh <= 512 * 512 -> (unbiased = true -> size sh <> 1) -> NoDup [p; mo; mt; ms; sq; vo; vt; vs] ->
  has m p sh F -> room m mo 1 -> room m mt ((size sh + 511) / 512) -> room m ms 1 -> room m sq (size sh) ->
  room m vo 1 -> room m vt ((size sh + 511) / 512) -> room m vs 1 ->
  exists ls, varMeanCuda (mkD p sh) unbiased mo mt ms sq vo vt vs = Ok (mkD vo [], mkD mo [], ls) /\
    always_all ls m (fun m' =>
      has m' vo [] (fun _ => variance unbiased F (indices sh)) /\
      has m' mo [] (fun _ => average F (indices sh)) /\
      forall q, ~ In q [mo; mt; ms; sq; vo; vt; vs] -> forall i, m' (q, i) = m (q, i)).
Proof. intros sh u F m p mo mt ms sq vo vt vs H1 H2 _. apply (var_all sh u F m p mo mt ms sq vo vt vs H1 H2). Qed.

(* A scalar is its own mean, whatever the dimensions, and its variance is 0. *)
Theorem cuda_mean_scalar : forall p dims keep out tmp tr s,
  meanCuda (mkD p []) out tmp s = Ok (mkD p [], []) /\ meanDimsCuda (mkD p []) dims keep out tmp tr s = Ok (mkD p [], []).
Proof. split; reflexivity. Qed.

Theorem cuda_var_scalar : forall p dims unbiased keep mo mt mtr ms sq vo vt vs m, room m vo 1 ->
  exists ls, varMeanCuda (mkD p []) unbiased mo mt ms sq vo vt vs = Ok (mkD vo [], mkD p [], ls) /\
    varMeanDimsCuda (mkD p []) dims unbiased keep mo mt mtr ms vo vs = Ok (mkD vo [], mkD p [], ls) /\
    computes_all ls m vo [] [] (fun _ => 0%R).
Proof.
  intros p dims u keep mo mt mtr ms sq vo vt vs m HR. eexists. split; [reflexivity|]. split; [reflexivity|].
  cbn [always_all computes_all]. unfold computes_all. cbn [always_all]. eapply always_mono; [apply (cuda_fill_partial R 0%R [] vo m); [cbn; lia|exact HR]|].
  intros m' [A S]. split; [exact A|]. intros q Hq _ i. apply S. exact Hq.
Qed.

(* ---- over a dimension ---- *)

(* The conditions on the first and the last dimension are those of the sum. *)
Theorem cuda_mean_dim_partial : forall sh (F : list nat -> R) dim k keep m p out tmp tr s,
  let n := nth k sh 0 in
  let rest := size (without_dim false k sh) in
  dim_is (length sh) dim k -> (0 < Z.of_nat (size sh) <= 2 ^ 32)%Z ->
  (k = 0 \/ k = length sh - 1 -> n < 512 \/ (n = 512 /\ (Z.of_nat rest * 512 < 2 ^ 32)%Z) \/ (rest = 1 /\ n <= 512 * 512)) ->
  has m p sh F -> room m out rest -> room m tmp (rest * ((n + 511) / 512)) -> room m tr (size sh) -> room m s 1 ->
  NoDup [p; out; tmp; tr; s] ->
  exists ls, meanDimsCuda (mkD p sh) [dim] keep out tmp tr s = Ok (mkD out (without_dim keep k sh), ls) /\
    computes_all ls m out [s; tmp; tr] (without_dim keep k sh) (fun ridx => average (fun j => F (with_coord keep k ridx j)) (seq 0 n)).
Proof. exact mean_dim. Qed.

(* The mean that is returned along with the variance keeps the dimension, even
   when the variance does not. *)
Theorem cuda_var_dim_partial : forall sh (F : list nat -> R) dim k unbiased keep m p mo mt mtr ms vo vs,
  let n := nth k sh 0 in
  let rest := size (without_dim false k sh) in
  dim_is (length sh) dim k -> (0 < Z.of_nat (size sh) <= 2 ^ 32)%Z -> (unbiased = true -> n <> 1) ->
  (k = 0 \/ k = length sh - 1 -> n < 512 \/ (n = 512 /\ (Z.of_nat rest * 512 < 2 ^ 32)%Z) \/ (rest = 1 /\ n <= 512 * 512)) ->
  has m p sh F -> room m mo rest -> room m mt (rest * ((n + 511) / 512)) -> room m mtr (size sh) -> room m ms 1 -> room m vo rest -> room m vs 1 ->
  NoDup [p; mo; mt; mtr; ms; vo; vs] ->
  exists ls, varMeanDimsCuda (mkD p sh) [dim] unbiased keep mo mt mtr ms vo vs = Ok (mkD vo (without_dim keep k sh), mkD mo (without_dim true k sh), ls) /\
    always_all ls m (fun m' =>
      has m' vo (without_dim keep k sh) (fun ridx => variance unbiased (fun j => F (with_coord keep k ridx j)) (seq 0 n)) /\
      has m' mo (without_dim true k sh) (fun ridx => average (fun j => F (with_coord true k ridx j)) (seq 0 n)) /\
      forall q, ~ In q [mo; mt; mtr; ms; vo; vs] -> forall i, m' (q, i) = m (q, i)).
Proof. intros sh F dim k u keep m p mo mt mtr ms vo vs n rest H1 H2 _. apply (var_dim sh F dim k u keep m p mo mt mtr ms vo vs H1 H2). Qed.

(* ---- over several dimensions ---- *)

Theorem cuda_mean_dims_rejects : forall sh dims unbiased keep p out tmp tr s vo vs, sh <> [] ->
  dims = [] \/ (exists d, In d dims /\ forall k, ~ dim_is (length sh) d k) ->
  meanDimsCuda (mkD p sh) dims keep out tmp tr s = Fail /\ varMeanDimsCuda (mkD p sh) dims unbiased keep out tmp tr s vo vs = Fail.
Proof.
  intros sh dims u keep p out tmp tr s vo vs HS HD. destruct dims as [|d dims]; [destruct sh; [congruence|]; split; reflexivity|]. split.
  - pose proof (cuda_sum_dims_rejects Rring sh (d :: dims) keep p out tmp tr HS HD) as E. unfold meanDimsCuda. cbn [dshape]. change (fun n => _) with (fun n => INR n / INR (numel sh))%R.
    rewrite E. destruct sh; [congruence|reflexivity].
  - rewrite var_dims_unfold by exact HS. destruct HD as [|(x & Hx & Hn)]; [discriminate|].
    pose proof (marks_spec (length sh) (d :: dims)) as M. destruct (marks (length sh) (d :: dims)) as [ax|]; [|reflexivity].
    exfalso. destruct M as (_ & A & _). destruct (A x Hx) as (k & Hk). apply (Hn k Hk).
Qed.

Lemma rshape_le : forall sh ax, Forall (fun d => 0 < d) sh -> length ax = length sh -> numel (reduced_shape ax false sh) <= numel sh.
Proof.
  induction sh as [|d sh IH]; intros [|a ax] HP HL; try discriminate; [cbn; lia|]. inversion HP; subst. rewrite rsize_cons, numel_cons. cbn in HL.
  pose proof (IH ax H2 ltac:(lia)). destruct a; nia.
Qed.

Lemma named_pos : forall sh dims ax keep, axes_named (length sh) dims ax -> Forall (fun d => 0 < d) sh -> (Z.of_nat (size sh) <= 2 ^ 31 - 1)%Z ->
  (0 < Z.of_nat (numel (reduced_shape ax keep sh)) <= 2 ^ 32)%Z.
Proof.
  intros sh dims ax keep HA HP HG. pose proof (proj1 HA) as L. pose proof (proj1 (rsize_pos sh ax HP L)) as P. pose proof (rshape_le sh ax HP L) as Q. rewrite size_numel in HG.
  assert (numel (reduced_shape ax keep sh) = numel (reduced_shape ax false sh)) as -> by (destruct keep; [apply rshape_numel, L|reflexivity]). lia.
Qed.

(* Over two dimensions or more the sum that the mean starts with writes past the
   end of its result (cuda_sum_dims_refuted), for every tensor. *)
Theorem cuda_mean_dims_refuted : forall sh dims ax keep (F : list nat -> R) m p out tmp tr s,
  axes_named (length sh) dims ax -> 2 <= length dims -> Forall (fun d => 0 < d) sh ->
  size (reduced_shape ax keep sh) < size sh -> (Z.of_nat (size sh) <= 2 ^ 31 - 1)%Z -> out <> p -> s <> out ->
  has m p sh F -> room m out (size (reduced_shape ax keep sh)) ->
  exists l1 l2 ls, meanDimsCuda (mkD p sh) dims keep out tmp tr s = Ok (mkD out (reduced_shape ax keep sh), l1 :: l2 :: ls) /\
    always l1 m (fun m' => may_crash l2 m').
Proof.
  intros sh dims ax keep F m p out tmp tr s HA HD HP Hn HG N1 N2 HF HR.
  destruct (cuda_sum_dims_refuted Rring sh dims ax keep F m p out tmp tr HA HD HP Hn HG N1 HF HR) as (l1 & l2 & E & C).
  destruct (scale_runs out (reduced_shape ax keep sh) (INR (numel (reduced_shape ax keep sh)) / INR (numel sh))%R s) as (l & E').
  - apply (named_pos sh dims ax keep HA HP); lia.
  - exact N2.
  - exists l1, l2, l. split; [|exact C]. unfold meanDimsCuda. cbn [dshape]. change (fun n => _) with (fun n => INR n / INR (numel sh))%R. rewrite E. unfold afterSum. rewrite E'.
    destruct sh; [cbn in Hn; lia|]. destruct dims; [cbn in HD; lia|reflexivity].
Qed.

Theorem cuda_var_dims_refuted : forall sh dims ax unbiased keep (F : list nat -> R) m p mo mt mtr ms vo vs,
  axes_named (length sh) dims ax -> 2 <= length dims -> Forall (fun d => 0 < d) sh ->
  size (reduced_shape ax true sh) < size sh -> (Z.of_nat (size sh) <= 2 ^ 31 - 1)%Z -> mo <> p -> ms <> mo -> vs <> vo ->
  has m p sh F -> room m mo (size (reduced_shape ax true sh)) ->
  exists l1 l2 ls, varMeanDimsCuda (mkD p sh) dims unbiased keep mo mt mtr ms vo vs = Ok (mkD vo (reduced_shape ax keep sh), mkD mo (reduced_shape ax true sh), l1 :: l2 :: ls) /\
    always l1 m (fun m' => may_crash l2 m').
Proof.
  intros sh dims ax u keep F m p mo mt mtr ms vo vs HA HD HP Hn HG N1 N2 N3 HF HR.
  destruct (cuda_mean_dims_refuted sh dims ax true F m p mo mt mtr ms HA HD HP Hn HG N1 N2 HF HR) as (l1 & l2 & ls & E & C).
  destruct (scale_runs vo (reduced_shape ax keep sh) (varFactor (INR (numel sh) / INR (numel (reduced_shape ax keep sh))) u) vs) as (l & E'); [|exact N3|].
  - apply (named_pos sh dims ax keep HA HP). lia.
  - eexists l1, l2, _. split; [|exact C]. destruct dims as [|d dims]; [cbn in HD; lia|]. rewrite var_dims_unfold by (intros ->; cbn in Hn; lia). rewrite (marks_named _ _ _ HA), E.
    change (getReduceShape sh ax keep) with (reduced_shape ax keep sh). rewrite E'. reflexivity.
Qed.

(* ---- the hypotheses can be met ---- *)

Local Open Scope R_scope.

Example cuda_mean_all_ex : let m := mem_of [map Some [1; 2; 3; 4; 5; 6]; [None]; [None]; [None]] in
  exists ls, meanCuda (mkD 0 [2; 3]%nat) 1 2 3 = Ok (mkD 1 [], ls) /\ always_all ls m (fun m' => m' (1%nat, 0%Z) = Some (Some (21 / 6))).
Proof.
  cbv zeta. set (m := mem_of _).
  destruct (cuda_mean_all_partial [2; 3]%nat (fun idx => nth (nth 0 idx 0 * 3 + nth 1 idx 0)%nat [1; 2; 3; 4; 5; 6] 0) m 0 1 2 3) as (ls & E & C);
    try discriminate; try (apply holds_of; reflexivity); try (apply room_of; reflexivity); [split; apply Nat.leb_le; reflexivity|].
  exists ls. split; [exact E|]. eapply always_all_mono; [|exact C]. intros m' [A _]. rewrite (A 0%Z). cbn. do 2 f_equal. unfold average, sum. cbn. lra.
Qed.

Example cuda_var_dim_ex : let m := mem_of [map Some [1; 2; 3; 4; 5; 9]; repeat None 3; repeat None 3; repeat None 6; [None]; repeat None 3; [None]] in
  exists ls, varMeanDimsCuda (mkD 0 [2; 3]%nat) [-2]%Z true false 1 2 3 4 5 6 = Ok (mkD 5 [3]%nat, mkD 1 [1; 3]%nat, ls) /\
    always_all ls m (fun m' => m' (5%nat, 2%Z) = Some (Some 18) /\ m' (1%nat, 2%Z) = Some (Some 6)).
Proof.
  cbv zeta. set (m := mem_of _).
  destruct (cuda_var_dim_partial [2; 3]%nat (fun idx => nth (nth 0 idx 0 * 3 + nth 1 idx 0)%nat [1; 2; 3; 4; 5; 9] 0) (-2)%Z 0 true false m 0 1 2 3 4 5 6) as (ls & E & C);
    try (apply holds_of; reflexivity); try (apply room_of; reflexivity); try discriminate.
  - split; cbn; lia.
  - cbn. lia.
  - intros _. left. cbn [nth]. apply Nat.ltb_lt. reflexivity.
  - repeat constructor; cbn; lia.
  - exists ls. split; [exact E|]. eapply always_all_mono; [|exact C]. intros m' (A & B & _). split.
    + rewrite (A 2%Z). change (Z.to_nat 2) with 2%nat. cbn. do 2 f_equal. unfold variance, average, sum. cbn. field.
    + rewrite (B 2%Z). change (Z.to_nat 2) with 2%nat. cbn. do 2 f_equal. unfold average, sum. cbn. lra.
Qed.

Print Assumptions cuda_mean_all_partial.
Print Assumptions cuda_var_all_partial.
Print Assumptions cuda_mean_scalar.
Print Assumptions cuda_var_scalar.
Print Assumptions cuda_mean_dim_partial.
Print Assumptions cuda_var_dim_partial.
Print Assumptions cuda_mean_dims_rejects.
Print Assumptions cuda_mean_dims_refuted.
Print Assumptions cuda_var_dims_refuted.
