(** C15: sums and means.  C16: extremes.  C59: variances. *)
From Coq Require Import ZArith List Bool Arith Lia Reals.
From Verif Require Import ShapeModel ShapeSpec TensorModel TensorSpec BcastModel BcastSpec CutSpec ReduceModel ReduceSpec ReduceProofs ReduceProofs2.
Import ListNotations.

(** * C15 *)
Theorem sum_adds_all : forall {K : cring} sh (F : list nat -> K),
  sumAll (tensor_of sh F) = Ok (tensor_of [] (fun _ => sum F (indices sh))).
Proof. exact @sumAll_correct. Qed.
Theorem sum_dims_adds_groups : forall {K : cring} sh dims ax keep (F : list nat -> K),
  sh <> [] -> dims <> [] -> axes_named (length sh) dims ax ->
  sumOnDims (tensor_of sh F) dims keep
  = Ok (tensor_of (reduced_shape ax keep sh) (fun ridx => sum F (group ax keep sh ridx))).
Proof. exact @sumOnDims_correct. Qed.
(** keepdims changes the shape, not the data. *)
Theorem sum_keepdims : forall {K : cring} sh dims ax (F : list nat -> K),
  sh <> [] -> dims <> [] -> axes_named (length sh) dims ax ->
  exists d, sumOnDims (tensor_of sh F) dims true = Ok (mkT (reduced_shape ax true sh) d)
         /\ sumOnDims (tensor_of sh F) dims false = Ok (mkT (reduced_shape ax false sh) d).
Proof.
  intros K sh dims ax F Hs Hd Ha. eexists. rewrite !(sumOnDims_correct sh dims ax) by auto. split; [reflexivity|].
  unfold tensor_of. do 2 f_equal. apply (groups_keep ax false sh (sum F)). apply Ha.
Qed.
(** Several dimensions at once or one after the other. *)
Theorem sum_dims_one_by_one : forall {K : cring} sh d1 d2 (F : list nat -> K), d1 <> [] -> d2 <> [] ->
  sumOnDims (tensor_of sh F) (d1 ++ d2) true
  = match sumOnDims (tensor_of sh F) d1 true with UB => UB | Fail => Fail | Ok r => sumOnDims r d2 true end.
Proof. exact @sumOnDims_seq. Qed.
(** A missing dimension, or no dimension at all, is rejected. *)
Theorem sum_rejects : forall {K : cring} sh dims keep (F : list nat -> K), sh <> [] ->
  dims = [] \/ (exists d, In d dims /\ forall k, ~ dim_is (length sh) d k) ->
  sumOnDims (tensor_of sh F) dims keep = Fail.
Proof. exact @sumOnDims_rejects. Qed.
Theorem mean_averages_all : forall sh (F : list nat -> R), numel sh <> 0 ->
  meanAll (tensor_of sh F) = Ok (tensor_of [] (fun _ => average F (indices sh))).
Proof. exact meanAll_correct. Qed.
Theorem mean_dims_averages_groups : forall sh dims ax keep (F : list nat -> R),
  sh <> [] -> dims <> [] -> axes_named (length sh) dims ax -> numel sh <> 0 ->
  meanOnDims (tensor_of sh F) dims keep
  = Ok (tensor_of (reduced_shape ax keep sh) (fun ridx => average F (group ax keep sh ridx))).
Proof. exact meanOnDims_correct. Qed.
Theorem mean_rejects : forall sh dims keep (F : list nat -> R), sh <> [] ->
  dims = [] \/ (exists d, In d dims /\ forall k, ~ dim_is (length sh) d k) ->
  meanOnDims (tensor_of sh F) dims keep = Fail.
Proof. exact meanOnDims_rejects. Qed.

Example ex_axes : axes_named 3 [0; -1]%Z [true; false; true].
Proof.
  split; [reflexivity|]. split.
  - intros d [<-|[<-|[]]]; [exists 0|exists 2]; split; simpl; lia.
  - intro k. split.
    + destruct k as [|[|[|k]]]; simpl; try discriminate; [exists 0%Z|exists (-1)%Z|destruct k; discriminate]; (split; [auto|split; simpl; lia]).
    + intros (d & [<-|[<-|[]]] & H1 & H2); simpl in *; [assert (k = 0) as -> by lia|assert (k = 2) as -> by lia]; reflexivity.
Qed.
Example ex_sum_dims : sumOnDims (K := Zring) (mkT [2;2;3] [1;2;3;4;5;6;7;8;9;10;11;12]%Z) [0; -1]%Z false = Ok (mkT [2] [30; 48]%Z).
Proof. reflexivity. Qed.
Example ex_group : group [true; false; true] false [2;2;3] [1] = [[0;1;0];[0;1;1];[0;1;2];[1;1;0];[1;1;1];[1;1;2]].
Proof. reflexivity. Qed.
Example ex_seq : sumOnDims (K := Zring) (mkT [2;3] [1;2;3;4;5;6]%Z) ([0] ++ [1])%Z true = Ok (mkT [1;1] [21]%Z).
Proof. reflexivity. Qed.

(** * C59 *)
(** The variance over all elements, and over groups; a group of one element has
    no unbiased variance.  The mean that is returned along is right, but keeps
    the reduced dimensions whatever [keepDims] says. *)
Theorem var_mean_all : forall sh unbiased (F : list nat -> R), numel sh <> 0 -> (unbiased = true -> numel sh <> 1) ->
  varMean (tensor_of sh F) unbiased
  = Ok (tensor_of [] (fun _ => variance unbiased F (indices sh)), tensor_of [] (fun _ => average F (indices sh))).
Proof. exact varMean_correct. Qed.
Theorem var_mean_dims_partial : forall sh dims ax unbiased keep (F : list nat -> R),
  sh <> [] -> dims <> [] -> axes_named (length sh) dims ax -> numel sh <> 0 ->
  (unbiased = true -> forall ridx, valid (reduced_shape ax keep sh) ridx -> length (group ax keep sh ridx) <> 1) ->
  varMeanOnDims (tensor_of sh F) dims unbiased keep
  = Ok (tensor_of (reduced_shape ax keep sh) (fun ridx => variance unbiased F (group ax keep sh ridx)),
        tensor_of (reduced_shape ax true sh) (fun ridx => average F (group ax true sh ridx))).
Proof. exact varMeanOnDims_correct. Qed.
(** Finding: without keepDims the two results have different shapes. *)
Theorem var_mean_shapes_refuted : exists t dims v m, varMeanOnDims t dims false false = Ok (v, m) /\ tshape v = [2] /\ tshape m = [2; 1].
Proof.
  exists (tensor_of [2; 3] (fun _ => 1%R)), [1%Z]. do 2 eexists. split.
  - apply (varMeanOnDims_correct [2; 3] [1]%Z [false; true]); try discriminate.
    split; [reflexivity|]. split; [intros d [<-|[]]; exists 1; split; simpl; lia|]. intro k. split.
    + destruct k as [|[|k]]; simpl; try discriminate; [|destruct k; discriminate]. intros _. exists 1%Z. split; auto. split; simpl; lia.
    + intros (d & [<-|[]] & H1 & H2). simpl in *. assert (k = 1) as -> by lia. reflexivity.
  - split; reflexivity.
Qed.

(** * C16 *)
(** max and argmax over all elements of a non-empty tensor.  [lo] is the value
    the scan starts from (the most negative finite value): elements below it
    (minus infinity) and NaN are what is missing from C16. *)
Theorem max_all_partial : forall {A} (lt : A -> A -> bool) lo sh (F : list nat -> A),
  total_order lt -> numel sh <> 0 -> (forall idx, valid sh idx -> lt (F idx) lo = false) ->
  exists v i, extremeAll (opMax lt lo) (tensor_of sh F) = Ok (mkT [] [v])
    /\ argAll lt (opMax lt lo) (tensor_of sh F) = Ok (mkT [] [i]) /\ first_max lt (map F (indices sh)) v i.
Proof. intros A lt lo sh F O. apply (extremeAll_correct lt lt (opMax lt lo)); auto. apply picks_max. Qed.
Theorem min_all_partial : forall {A} (lt : A -> A -> bool) hi sh (F : list nat -> A),
  total_order lt -> numel sh <> 0 -> (forall idx, valid sh idx -> lt hi (F idx) = false) ->
  exists v i, extremeAll (opMin lt hi) (tensor_of sh F) = Ok (mkT [] [v])
    /\ argAll lt (opMin lt hi) (tensor_of sh F) = Ok (mkT [] [i]) /\ first_max (flip lt) (map F (indices sh)) v i.
Proof. intros A lt hi sh F O. apply (extremeAll_correct lt (flip lt) (opMin lt hi)); auto; [apply flip_total; auto|apply picks_min]. Qed.
(** The same along a dimension of non-zero size; [line F keep k n ridx] lists
    the elements that are compared for output [ridx]. *)
Theorem max_dim_partial : forall {A} (lt : A -> A -> bool) lo sh (F : list nat -> A) dim k keep,
  total_order lt -> dim_is (length sh) dim k -> nth k sh 0 <> 0 -> (forall idx, valid sh idx -> lt (F idx) lo = false) ->
  exists V I, extremeDim (opMax lt lo) (tensor_of sh F) dim keep
    = Ok (tensor_of (without_dim keep k sh) V, tensor_of (without_dim keep k sh) I)
    /\ forall ridx, valid (without_dim keep k sh) ridx -> first_max lt (line F keep k (nth k sh 0) ridx) (V ridx) (I ridx).
Proof. intros A lt lo sh F dim k keep O. apply (extremeDim_correct lt (opMax lt lo)); auto. apply picks_max. Qed.
Theorem min_dim_partial : forall {A} (lt : A -> A -> bool) hi sh (F : list nat -> A) dim k keep,
  total_order lt -> dim_is (length sh) dim k -> nth k sh 0 <> 0 -> (forall idx, valid sh idx -> lt hi (F idx) = false) ->
  exists V I, extremeDim (opMin lt hi) (tensor_of sh F) dim keep
    = Ok (tensor_of (without_dim keep k sh) V, tensor_of (without_dim keep k sh) I)
    /\ forall ridx, valid (without_dim keep k sh) ridx -> first_max (flip lt) (line F keep k (nth k sh 0) ridx) (V ridx) (I ridx).
Proof. intros A lt hi sh F dim k keep O. apply (extremeDim_correct (flip lt) (opMin lt hi)); auto; [apply flip_total; auto|apply picks_min]. Qed.
Theorem extreme_dim_rejects : forall {A} (f : functor A) sh (F : list nat -> A) dim keep,
  sh <> [] -> (forall k, ~ dim_is (length sh) dim k) -> extremeDim f (tensor_of sh F) dim keep = Fail.
Proof. exact @extremeDim_rejects. Qed.
(** Floats without NaN: the finite ones and the infinities; the scan for the
    maximum starts from the most negative finite one, here [Fin (-m)]. *)
Inductive ext := NegInf | Fin (z : Z) | PosInf.
Definition ext_lt (a b : ext) : bool :=
  match a, b with
  | NegInf, NegInf => false | NegInf, _ => true | Fin x, Fin y => (x <? y)%Z | Fin _, PosInf => true | _, _ => false end.
Theorem ext_total : total_order ext_lt.
Proof.
  split; [intros [|x|]; simpl; auto; apply Z.ltb_irrefl|]. split.
  - intros [|x|] [|y|] [|z|]; simpl; auto; try discriminate. rewrite !Z.ltb_lt. lia.
  - intros [|x|] [|y|]; simpl; auto; try discriminate. rewrite !Z.ltb_ge. intros. f_equal. lia.
Qed.
(** Finding: the maximum of (-inf, -inf) is a finite number that does not occur;
    likewise the minimum of (inf). *)
Theorem max_of_minus_infinity_refuted : forall m, exists v,
  extremeAll (opMax ext_lt (Fin (- m))) (mkT [2] [NegInf; NegInf]) = Ok (mkT [] [v]) /\ ~ In v [NegInf; NegInf].
Proof. intro m. exists (Fin (- m)). split; [reflexivity|]. intros [H|[H|[]]]; discriminate. Qed.
Theorem min_dim_of_infinity_refuted : forall m, exists v i,
  extremeDim (opMin ext_lt (Fin m)) (mkT [1] [PosInf]) 0 false = Ok (mkT [] [v], mkT [] [i]) /\ ~ In v [PosInf].
Proof. intro m. exists (Fin m), 0. split; [reflexivity|]. intros [H|[]]; discriminate. Qed.

Definition two_by_three : tensor Z := mkT [2; 3] [1; 5; 5; -2; -9; -2]%Z.
Example ex_max_dim : extremeDim (opMax Z.ltb (-100)%Z) two_by_three (-1)%Z true = Ok (mkT [2; 1] [5; -2]%Z, mkT [2; 1] [1; 0])
  /\ extremeDim (opMin Z.ltb 100%Z) two_by_three 0%Z false = Ok (mkT [3] [-2; -9; -2]%Z, mkT [3] [1; 1; 1]).
Proof. split; reflexivity. Qed.
Example ex_max_all : extremeAll (opMax Z.ltb (-100)%Z) two_by_three = Ok (mkT [] [5]%Z) /\ argAll Z.ltb (opMax Z.ltb (-100)%Z) two_by_three = Ok (mkT [] [1])
  /\ total_order Z.ltb.
Proof.
  split; [reflexivity|]. split; [reflexivity|]. split; [apply Z.ltb_irrefl|]. split; [intros x y z; rewrite !Z.ltb_lt; lia|intros x y; rewrite !Z.ltb_ge; lia].
Qed.

Print Assumptions sum_adds_all.
Print Assumptions sum_dims_adds_groups.
Print Assumptions sum_keepdims.
Print Assumptions sum_dims_one_by_one.
Print Assumptions sum_rejects.
Print Assumptions mean_averages_all.
Print Assumptions mean_dims_averages_groups.
Print Assumptions mean_rejects.
Print Assumptions var_mean_all.
Print Assumptions var_mean_dims_partial.
Print Assumptions var_mean_shapes_refuted.
Print Assumptions max_all_partial.
Print Assumptions min_all_partial.
Print Assumptions max_dim_partial.
Print Assumptions min_dim_partial.
Print Assumptions extreme_dim_rejects.
Print Assumptions max_of_minus_infinity_refuted.
Print Assumptions min_dim_of_infinity_refuted.
