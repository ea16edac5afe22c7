(** C84: sort, topk and cumsum of CUDA tensors. *)
From Coq Require Import ZArith List Bool Arith Lia Permutation.
From Verif Require Import ShapeModel ShapeSpec TensorModel TensorSpec BcastModel CutSpec ReduceSpec LineModel LineProofs SampleModel SampleSpec SampleProofs
  GpuModel GpuSpec CudaModel CudaSpec CudaReduceSpec CudaLineModel CudaSampleModel CudaSampleSpec CudaSampleProofs CudaSampleProofs2.
Import ListNotations.

(** Sort.  [P] says which values occur; operator< must be a strict weak ordering of
    them.  [ssort] is any function that keeps the promise of thrust::stable_sort_by_key.
    Besides what holds for CPU tensors (C45), elements neither of which is smaller stay
    in the order they had, in both directions. *)
Theorem cuda_sort_stable_partial : forall {A} (lt : A -> A -> bool) ssort (P : A -> Prop) sh (F : list nat -> A) dim k desc,
  stable_contract ssort -> strict_weak P lt -> (forall idx, valid sh idx -> P (F idx)) -> dim_is (length sh) dim k ->
  exists V I, sortCuda lt ssort (tensor_of sh F) dim desc = Ok (tensor_of sh V, tensor_of sh I)
  /\ forall idx, valid sh idx ->
     Permutation (line I true k (nth k sh 0) idx) (seq 0 (nth k sh 0))
     /\ V idx = F (with_coord true k idx (I idx))
     /\ forall i j, i < j < nth k sh 0 ->
        let before := V (with_coord true k idx i) in let after := V (with_coord true k idx j) in
        (if desc then lt before after else lt after before) = false /\
        (lt before after = false -> lt after before = false -> I (with_coord true k idx i) < I (with_coord true k idx j)).
Proof. intros A lt ssort P sh F dim k desc H1 H2 H3 H4. exact (sortCuda_full lt ssort P sh F dim k desc H1 H4 H2 H3). Qed.
(** Sorting the segments in place gives what sorting each row on its own gives. *)
Theorem cuda_sort_as_cpu_partial : forall {A} (lt : A -> A -> bool) ssort (P : A -> Prop) sh (F : list nat -> A) dim k desc,
  sort_contract ssort -> strict_weak P lt -> (forall idx, valid sh idx -> P (F idx)) -> dim_is (length sh) dim k ->
  sortCuda lt ssort (tensor_of sh F) dim desc = sort lt ssort (tensor_of sh F) dim desc.
Proof. intros A lt ssort P sh F dim k desc H1 H2 H3 H4. symmetry. exact (proj2 (sortCuda_ok lt ssort H1 P sh F dim k desc H4 H2 H3)). Qed.
(** topk: as for CPU tensors (C45), whatever [srt] is. *)
Theorem cuda_topk_partial : forall {A} (lt : A -> A -> bool) ssort (P : A -> Prop) sh (F : list nat -> A) dim d k largest srt,
  sort_contract ssort -> strict_weak P lt -> (forall idx, valid sh idx -> P (F idx)) ->
  dim_is (length sh) dim d -> 0 < k <= nth d sh 0 ->
  exists V I, topkCuda lt ssort (tensor_of sh F) (Z.of_nat k) dim largest srt = Ok (tensor_of (set_nth sh d k) V, tensor_of (set_nth sh d k) I)
  /\ forall idx, valid (set_nth sh d k) idx ->
     NoDup (line I true d k idx) /\ I idx < nth d sh 0
     /\ V idx = F (with_coord true d idx (I idx))
     /\ (forall i j, i < j < k ->
          let before := V (with_coord true d idx i) in let after := V (with_coord true d idx j) in
          (if largest then lt before after else lt after before) = false)
     /\ (forall p, p < nth d sh 0 -> ~ In p (line I true d k idx) ->
          let left_out := F (with_coord true d idx p) in (if largest then lt (V idx) left_out else lt left_out (V idx)) = false).
Proof.
  intros A lt ssort P sh F dim d k largest srt H1 H2 H3 H4 H5. rewrite topkCuda_eq.
  refine (topk_ok lt ssort _ H1 _ P sh F dim d k largest false H4 H2 H3 H5). exact (full_sort_partial ssort H1).
Qed.
Theorem cuda_sort_rejects : forall {A} (lt : A -> A -> bool) ssort sh (F : list nat -> A) dim desc,
  (forall k, ~ dim_is (length sh) dim k) -> sortCuda lt ssort (tensor_of sh F) dim desc = Fail.
Proof. exact @sortCuda_bad. Qed.
Theorem cuda_topk_rejects : forall {A} (lt : A -> A -> bool) ssort sh (F : list nat -> A) k dim largest srt,
  (forall d, dim_is (length sh) dim d -> ~ (0 < k <= Z.of_nat (nth d sh 0%nat))%Z) ->
  topkCuda lt ssort (tensor_of sh F) k dim largest srt = Fail.
Proof. intros. rewrite topkCuda_eq. apply topk_bad. assumption. Qed.
Theorem stable_contract_met : forall A, stable_contract (@insertion_sort A).
Proof. exact @isort_stable. Qed.

(** Running sums, whatever the schedule, over any commutative ring. *)
Theorem cuda_cumsum : forall {K : cring} (m : addr -> cell K) self out sh (F : list nat -> K) dim k,
  dim_is (length sh) dim k -> has m self sh F -> room m out (size sh) -> self <> out -> (Z.of_nat (outerSize sh k * innerSize sh k) < 2 ^ 31)%Z ->
  exists ls, cumsumCuda (mkD self sh) dim out = Ok (sh, ls) /\
    computes_all ls m out [] sh (fun idx => sum (fun j => F (with_coord true k idx j)) (seq 0 (S (nth k idx 0)))).
Proof. intros K m self out sh F dim k H1 H2 H3 H4 H5. rewrite CudaProofs.size_numel in H3. exact (cumsumCuda_ok m self out sh F dim k H1 H2 H3 H4 H5). Qed.
Theorem cuda_cumsum_rejects : forall {K : cring} self sh dim out, (forall k, ~ dim_is (length sh) dim k) -> cumsumCuda (K := K) (mkD self sh) dim out = Fail.
Proof. exact @cumsumCuda_bad. Qed.

(** With a NaN, which is not comparable to anything, a row need not come out in order. *)
Definition nan_less (a b : option Z) : bool := match a, b with Some x, Some y => (x <? y)%Z | _, _ => false end.
Theorem cuda_sort_nan_refuted : stable_contract (@insertion_sort (option Z * nat)) /\
  sortCuda nan_less insertion_sort (mkT [3] [Some 2%Z; None; Some 1%Z]) 0 false = Ok (mkT [3] [Some 2%Z; None; Some 1%Z], mkT [3] [0; 1; 2]).
Proof. split; [apply isort_stable|reflexivity]. Qed.

Example cuda_sort_case : strict_weak (fun _ => True) Z.ltb /\ dim_is (length [3; 2]) 0 0 /\
  sortCuda Z.ltb insertion_sort (mkT [3; 2] [5; 9; 7; 1; 5; 9]%Z) 0 true = Ok (mkT [3; 2] [7; 9; 5; 9; 5; 1]%Z, mkT [3; 2] [1; 0; 0; 2; 2; 1]).
Proof. split; [split; [|split]; intros; lia|]. split; [split; [simpl; lia|auto]|reflexivity]. Qed.
Example cuda_topk_case : topkCuda Z.ltb insertion_sort (mkT [3; 2] [5; 9; 5; 1; 0; 2]%Z) 2 0 true false = Ok (mkT [2; 2] [5; 9; 5; 2]%Z, mkT [2; 2] [0; 0; 1; 2]).
Proof. reflexivity. Qed.
(** The hypotheses of cuda_cumsum can be met, in both ways it works. *)
Example cuda_cumsum_case : let m := mem_of [[Some 1; Some 2; Some 3; Some 4]; [None; None; None; None]]%Z in
  has m 0 [2; 2] (fun idx => nth (nth 0 idx 0 * 2 + nth 1 idx 0) [1; 2; 3; 4]%Z 0%Z) /\ room m 1 (size [2; 2]) /\
  innerSize [2; 2] 1 = 1 /\ innerSize [2; 2] 0 = 2.
Proof. split; [apply CudaProofs.holds_of; reflexivity|]. split; [apply CudaProofs.room_of; reflexivity|]. split; reflexivity. Qed.

Print Assumptions cuda_sort_stable_partial.
Print Assumptions cuda_sort_as_cpu_partial.
Print Assumptions cuda_topk_partial.
Print Assumptions cuda_sort_rejects.
Print Assumptions cuda_topk_rejects.
Print Assumptions stable_contract_met.
Print Assumptions cuda_cumsum.
Print Assumptions cuda_cumsum_rejects.
Print Assumptions cuda_sort_nan_refuted.
