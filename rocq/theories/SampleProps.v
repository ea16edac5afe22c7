(** C45: sort and topk; C46: cumsum. *)
From Coq Require Import ZArith List Bool Arith Lia Permutation.
From Verif Require Import ShapeModel ShapeSpec TensorModel TensorSpec TensorLemmas BcastModel CutSpec ReduceSpec LineModel LineProofs SoftmaxProofs SampleModel SampleSpec SampleProofs.
Import ListNotations.

(** C46, for any commutative ring of elements. *)
Theorem cumsum_running_sum : forall {K : cring} sh (F : list nat -> K) dim k, dim_is (length sh) dim k ->
  cumsum (tensor_of sh F) dim = Ok (tensor_of sh (fun idx => sum (fun j => F (with_coord true k idx j)) (seq 0 (S (nth k idx 0))))).
Proof. exact @cumsum_ok. Qed.
Theorem cumsum_rejects : forall {K : cring} sh (F : list nat -> K) dim, (forall k, ~ dim_is (length sh) dim k) -> cumsum (tensor_of sh F) dim = Fail.
Proof. exact @cumsum_bad. Qed.
Example cumsum_case : dim_is (length [2; 2; 2]) (-2) 1 /\
  cumsum (K := Zring) (mkT [2; 2; 2] [1; 2; 3; 4; 5; 6; 7; 8]%Z) (-2) = Ok (mkT [2; 2; 2] [1; 2; 4; 6; 5; 6; 12; 14]%Z).
Proof. split; [split; [simpl; lia|right; reflexivity]|reflexivity]. Qed.

(** C45.  [P] says which values occur; operator< must be a strict weak ordering of
    them (it is, for numbers without NaN).  [ssort] and [psort] are any functions
    that keep the promises of std::sort and std::partial_sort, whatever they do
    with ties.  The row through [idx] is returned in order, [I] says where each
    element was, and every position occurs exactly once. *)
Theorem sort_row_partial : forall {A} (lt : A -> A -> bool) ssort (P : A -> Prop) sh (F : list nat -> A) dim k desc,
  sort_contract ssort -> strict_weak P lt -> (forall idx, valid sh idx -> P (F idx)) -> dim_is (length sh) dim k ->
  exists V I, sort lt ssort (tensor_of sh F) dim desc = Ok (tensor_of sh V, tensor_of sh I)
  /\ forall idx, valid sh idx ->
     Permutation (line I true k (nth k sh 0) idx) (seq 0 (nth k sh 0))
     /\ V idx = F (with_coord true k idx (I idx))
     /\ forall i j, i < j < nth k sh 0 ->
        let before := V (with_coord true k idx i) in let after := V (with_coord true k idx j) in
        (if desc then lt before after else lt after before) = false.
Proof. intros A lt ssort P sh F dim k desc H1 H2 H3 H4. exact (sort_ok lt ssort H1 P sh F dim k desc H4 H2 H3). Qed.
(** The values of a row are those of the input row. *)
Theorem sort_permutes_partial : forall {A} (lt : A -> A -> bool) ssort (P : A -> Prop) sh (F : list nat -> A) dim k desc,
  sort_contract ssort -> strict_weak P lt -> (forall idx, valid sh idx -> P (F idx)) -> dim_is (length sh) dim k ->
  exists V I, sort lt ssort (tensor_of sh F) dim desc = Ok (tensor_of sh V, tensor_of sh I)
  /\ forall idx, valid sh idx -> Permutation (line V true k (nth k sh 0) idx) (line F true k (nth k sh 0) idx).
Proof.
  intros A lt ssort P sh F dim k desc H1 H2 H3 H4. destruct (sort_ok lt ssort H1 P sh F dim k desc H4 H2 H3) as (V & I & E & H).
  exists V, I. split; auto. intros idx Vi. destruct (H idx Vi) as (Hp & _ & _).
  assert (Ev : line V true k (nth k sh 0) idx = map (fun p => F (with_coord true k idx p)) (line I true k (nth k sh 0) idx)).
  { unfold line. rewrite map_map. apply map_ext_in. intros j Hj. apply in_seq in Hj.
    destruct (H (with_coord true k idx j)) as (_ & Q & _); [apply valid_coord; auto; [apply H4|lia]|]. rewrite Q, with_coord_twice. auto. }
  rewrite Ev. unfold line at 2. apply Permutation_map. auto.
Qed.
(** topk: the [k] entries returned for a row are in order, come from different
    positions, and no element of the row that was left out beats any of them. *)
Theorem topk_row_partial : forall {A} (lt : A -> A -> bool) ssort psort (P : A -> Prop) sh (F : list nat -> A) dim d k largest srt,
  sort_contract ssort -> partial_sort_contract psort -> strict_weak P lt -> (forall idx, valid sh idx -> P (F idx)) ->
  dim_is (length sh) dim d -> 0 < k <= nth d sh 0 ->
  exists V I, topk lt ssort psort (tensor_of sh F) (Z.of_nat k) dim largest srt = Ok (tensor_of (set_nth sh d k) V, tensor_of (set_nth sh d k) I)
  /\ forall idx, valid (set_nth sh d k) idx ->
     NoDup (line I true d k idx) /\ I idx < nth d sh 0
     /\ V idx = F (with_coord true d idx (I idx))
     /\ (forall i j, i < j < k ->
          let before := V (with_coord true d idx i) in let after := V (with_coord true d idx j) in
          (if largest then lt before after else lt after before) = false)
     /\ (forall p, p < nth d sh 0 -> ~ In p (line I true d k idx) ->
          let left_out := F (with_coord true d idx p) in (if largest then lt (V idx) left_out else lt left_out (V idx)) = false).
Proof. intros A lt ssort psort P sh F dim d k largest srt H1 H2 H3 H4 H5 H6. exact (topk_ok lt ssort psort H1 H2 P sh F dim d k largest srt H5 H3 H4 H6). Qed.
Theorem sort_rejects : forall {A} (lt : A -> A -> bool) ssort sh (F : list nat -> A) dim desc,
  (forall k, ~ dim_is (length sh) dim k) -> sort lt ssort (tensor_of sh F) dim desc = Fail.
Proof. exact @sort_bad. Qed.
Theorem topk_rejects : forall {A} (lt : A -> A -> bool) ssort psort sh (F : list nat -> A) k dim largest srt,
  (forall d, dim_is (length sh) dim d -> ~ (0 < k <= Z.of_nat (nth d sh 0%nat))%Z) ->
  topk lt ssort psort (tensor_of sh F) k dim largest srt = Fail.
Proof. exact @topk_bad. Qed.
(** The promises of the library can be kept. *)
Theorem sort_contract_met : forall A, sort_contract (@insertion_sort A).
Proof. exact @isort_contract. Qed.
Theorem partial_sort_contract_met : forall A, partial_sort_contract (fun cmp (_ : nat) (l : list A) => insertion_sort cmp l).
Proof. exact @isort_partial. Qed.

(** Numbers with a NaN, which is not comparable to anything: the comparison is no
    strict weak ordering, and a row holding a NaN need not come out in order. *)
Definition nan_lt (a b : option Z) : bool := match a, b with Some x, Some y => (x <? y)%Z | _, _ => false end.
Theorem sort_nan_refuted : sort_contract (@insertion_sort (option Z * nat)) /\
  sort nan_lt insertion_sort (mkT [3] [Some 2%Z; None; Some 1%Z]) 0 false = Ok (mkT [3] [Some 2%Z; None; Some 1%Z], mkT [3] [0; 1; 2]).
Proof. split; [apply isort_contract|reflexivity]. Qed.

Example Z_weak : strict_weak (fun _ => True) Z.ltb.
Proof. split; [|split]; intros; lia. Qed.
Example sort_case : sort Z.ltb insertion_sort (mkT [2; 3] [5; 9; 5; 1; 0; 2]%Z) (-1) true = Ok (mkT [2; 3] [9; 5; 5; 2; 1; 0]%Z, mkT [2; 3] [1; 0; 2; 2; 0; 1]).
Proof. reflexivity. Qed.
Example topk_case : topk Z.ltb insertion_sort (fun cmp _ l => insertion_sort cmp l) (mkT [3; 2] [5; 9; 5; 1; 0; 2]%Z) 2 0 true true
  = Ok (mkT [2; 2] [5; 9; 5; 2]%Z, mkT [2; 2] [0; 0; 1; 2]).
Proof. reflexivity. Qed.
Example topk_case_bounds : dim_is (length [3; 2]) 0 0 /\ 0 < 2 <= nth 0 [3; 2] 0.
Proof. split; [split; [simpl; lia|auto]|simpl; lia]. Qed.

Print Assumptions cumsum_running_sum.
Print Assumptions cumsum_rejects.
Print Assumptions sort_row_partial.
Print Assumptions sort_permutes_partial.
Print Assumptions topk_row_partial.
Print Assumptions sort_rejects.
Print Assumptions topk_rejects.
Print Assumptions sort_nan_refuted.
