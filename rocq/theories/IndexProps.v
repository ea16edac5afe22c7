(** C11: integer indexing and index assignment.  C14: expand, gather, scatter,
    index_select, repeat_interleave. *)
From Coq Require Import ZArith List Bool Arith Lia.
From Verif Require Import ShapeModel ShapeSpec TensorModel TensorSpec BcastModel BcastSpec CutModel CutSpec IndexModel IndexSpec IndexProofs IndexProofs2.
Import ListNotations.

(** * C11 *)
(** index(t, idx) on a tensor that starts at the beginning of its storage is
    the sub-tensor at the named leading coordinates. *)
Theorem index_subtensor_partial : forall {A} esz (s : sten A) sh F idx pre,
  (1 <= esz)%Z -> soff s = 0%Z -> holds s sh F -> idx <> [] -> names_coords sh idx pre ->
  exists p, index esz s idx = Ok p /\ holds p (skipn (length idx) sh) (fun rest => F (pre ++ rest)).
Proof. exact @index_correct. Qed.
(** Index assignment replaces exactly that sub-tensor, by a scalar or by a
    tensor with as many elements (taken in row-major order). *)
Theorem index_put_replaces : forall {A} sh (F : list nat -> A) idx pre vsh V,
  idx <> [] -> names_coords sh idx pre ->
  vsh = [] \/ vsh <> [] /\ numel vsh = numel (skipn (length idx) sh) ->
  indexPut (tensor_of sh F) idx (tensor_of vsh V)
  = Ok (tensor_of sh (fun i => if same_idx (firstn (length idx) i) pre
          then (match vsh with [] => V [] | _ => V (offsetToIndices vsh (indicesToOffset (strides (skipn (length idx) sh)) (skipn (length idx) i))) end)
          else F i)).
Proof. exact @indexPut_correct. Qed.
(** Finding: the offset of a view is ignored.  Rows 2.. of a vector, indexed at
    0, give row 0 of the whole vector. *)
Theorem index_of_view_refuted :
  exists v p, narrow 4 (mkS [4]%Z 0%Z [10; 11; 12; 13]%Z) 0 2 2 = Ok v
  /\ contents v = Some (mkT [2] [12; 13]%Z)
  /\ index 4 v [0]%Z = Ok p /\ contents p = Some (mkT [] [10%Z]).
Proof. do 2 eexists. repeat split. Qed.
(** Finding: an index out of range is not rejected: t[5] of 3 floats gives a
    tensor outside the storage. *)
Theorem index_out_of_range_refuted :
  exists p, index 4 (mkS [3]%Z 0%Z [10; 11; 12]%Z) [5]%Z = Ok p /\ ~ in_storage p.
Proof. eexists. split; [reflexivity|]. intros [_ H]. cbn in H. apply H. reflexivity. Qed.

Example ex_index : exists p, index 4 (mkS [2; 2; 3]%Z 0%Z (seq 0 12)) [1; -2]%Z = Ok p /\ contents p = Some (mkT [3] [6; 7; 8]).
Proof. eexists. split; reflexivity. Qed.
Example ex_names : names_coords [2; 2; 3] [1; -2]%Z [1; 0].
Proof. repeat split; simpl; try lia; destruct i as [|[|i]]; simpl in *; lia. Qed.
Example ex_put : indexPut (mkT [2; 2] [1; 2; 3; 4]) [-1]%Z (mkT [2] [8; 9]) = Ok (mkT [2; 2] [1; 2; 8; 9]).
Proof. reflexivity. Qed.

(** * C14 *)
(** expand: every size-1 dimension is repeated, the others are kept, -1 keeps
    a size. *)
Theorem expand_repeats_partial : forall {A} sh sizes rsh (F : list nat -> A),
  expand_target sh sizes rsh -> bto sh rsh ->
  expand (tensor_of sh F) sizes = Ok (tensor_of rsh (fun idx => F (bidx sh idx))).
Proof. exact @expand_correct. Qed.
(** Finding: an incompatible target is not rejected; growing a dimension reads
    outside the tensor, shrinking it truncates. *)
Theorem expand_incompatible_refuted :
  expand (mkT [2] [1; 2]) [3]%Z = UB /\ expand (mkT [3] [1; 2; 3]) [2]%Z = Ok (mkT [2] [1; 2])
  /\ ~ bto [2] [3] /\ ~ bto [3] [2].
Proof.
  split; [reflexivity|]. split; [reflexivity|]. split; intros [_ H]; inversion H; lia.
Qed.
Theorem gather_reads : forall {A} sh dim d (F : list nat -> A) ish I J,
  dim_is (length sh) dim d -> length ish = length sh ->
  (forall k, k < length sh -> k <> d -> nth k ish 0 <= nth k sh 0) ->
  (forall idx, valid ish idx -> dim_is (nth d sh 0) (I idx) (J idx)) ->
  gather (tensor_of sh F) dim (tensor_of ish I) = Ok (tensor_of ish (fun idx => F (set_nth idx d (J idx)))).
Proof. exact @gather_correct. Qed.
(** scatter: the elements of [src] are written in row-major order; of several
    writes to one element the last one stays. *)
Theorem scatter_writes : forall {A} sh dim d (F : list nat -> A) ish I J V,
  dim_is (length sh) dim d -> length ish = length sh ->
  (forall k, k < length sh -> k <> d -> nth k ish 0 <= nth k sh 0) ->
  (forall idx, valid ish idx -> dim_is (nth d sh 0) (I idx) (J idx)) ->
  scatter (tensor_of sh F) dim (tensor_of ish I) (tensor_of ish V)
  = Ok (tensor_of sh (after_writes (indices ish) (fun idx => set_nth idx d (J idx)) V F)).
Proof. exact @scatter_correct. Qed.
(** A dimension or an index value out of range is rejected. *)
Theorem gather_scatter_reject : forall {A} sh dim (F : list nat -> A) ish I src,
  (forall d, dim_is (length sh) dim d -> length ish = length sh ->
     exists idx, valid ish idx /\ forall j, ~ dim_is (nth d sh 0) (I idx) j) ->
  gather (tensor_of sh F) dim (tensor_of ish I) = Fail /\ scatter (tensor_of sh F) dim (tensor_of ish I) src = Fail.
Proof. intros. unfold gather, scatter. cbn [tshape tensor_of]. rewrite (coordOffsets_fail sh dim ish I); auto. Qed.
Theorem index_select_picks : forall {A} sh dim d (F : list nat -> A) n I J,
  dim_is (length sh) dim d -> (forall k, k < n -> I [k] = Z.of_nat (J k) /\ J k < nth d sh 0) ->
  indexSelect (tensor_of sh F) dim (tensor_of [n] I)
  = Ok (tensor_of (set_nth sh d n) (fun idx => F (set_nth idx d (J (nth d idx 0))))).
Proof. exact @indexSelect_correct. Qed.
Theorem repeat_interleave_repeats : forall {A} sh dim d (F : list nat -> A) r,
  dim_is (length sh) dim d -> 0 < r ->
  repeatInterleave (tensor_of sh F) (Z.of_nat r) dim
  = Ok (tensor_of (set_nth sh d (nth d sh 0 * r)) (fun idx => F (set_nth idx d (nth d idx 0 / r)))).
Proof. exact @repeatInterleave_correct. Qed.
(** Finding: index_select does not check its indices. *)
Theorem index_select_unchecked_refuted :
  indexSelect (mkT [2; 2] [1; 2; 3; 4]) 1 (mkT [1] [2%Z]) = UB /\ indexSelect (mkT [2; 2] [1; 2; 3; 4]) 0 (mkT [1] [-1]%Z) = UB.
Proof. split; reflexivity. Qed.

Example ex_expand : expand (mkT [2; 1] [1; 2]) [2; -1; 3]%Z = Ok (mkT [2; 2; 3] [1; 1; 1; 2; 2; 2; 1; 1; 1; 2; 2; 2])
  /\ expand_target [2; 1] [2; -1; 3]%Z [2; 2; 3] /\ bto [2; 1] [2; 2; 3].
Proof.
  split; [reflexivity|]. split.
  - split; [simpl; lia|]. split; auto. intros [|[|[|p]]] H; [right; split; reflexivity|left; split; reflexivity|right; split; reflexivity|simpl in H; lia].
  - split; [simpl; lia|]. constructor; [right; reflexivity|]. constructor; [left; reflexivity|constructor].
Qed.
Example ex_gather : gather (mkT [2; 2] [1; 2; 3; 4]) 1 (mkT [2; 2] [0; 0; -1; 0]%Z) = Ok (mkT [2; 2] [1; 1; 4; 3]).
Proof. reflexivity. Qed.
Example ex_scatter : scatter (mkT [2; 3] [0; 0; 0; 0; 0; 0]) 1 (mkT [2; 2] [2; 2; 0; 1]%Z) (mkT [2; 2] [5; 6; 7; 8]) = Ok (mkT [2; 3] [0; 0; 6; 7; 8; 0]).
Proof. reflexivity. Qed.
Example ex_select : indexSelect (mkT [2; 3] [1; 2; 3; 4; 5; 6]) (-1) (mkT [2] [2; 0]%Z) = Ok (mkT [2; 2] [3; 1; 6; 4]).
Proof. reflexivity. Qed.
Example ex_interleave : repeatInterleave (mkT [2; 2] [1; 2; 3; 4]) 2 0 = Ok (mkT [4; 2] [1; 2; 1; 2; 3; 4; 3; 4]).
Proof. reflexivity. Qed.

Print Assumptions index_subtensor_partial.
Print Assumptions index_put_replaces.
Print Assumptions index_of_view_refuted.
Print Assumptions index_out_of_range_refuted.
Print Assumptions expand_repeats_partial.
Print Assumptions expand_incompatible_refuted.
Print Assumptions gather_reads.
Print Assumptions scatter_writes.
Print Assumptions gather_scatter_reject.
Print Assumptions index_select_picks.
Print Assumptions repeat_interleave_repeats.
Print Assumptions index_select_unchecked_refuted.
