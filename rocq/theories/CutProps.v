(** C10: cutting and joining. *)
From Coq Require Import ZArith List Bool Arith Lia.
From Verif Require Import ShapeModel ShapeSpec TensorModel TensorSpec BcastModel CutModel CutSpec BufProofs CutProofs CutProofs2 CutProofs3.
Import ListNotations.

(** In the theorems below [s] is any tensor (fresh or a view into a storage)
    of shape [sh] with elements [F], [esz] its element size in bytes, and [dim]
    (possibly negative) names dimension [k]. *)

(** split(size): pieces of that size, in order; put together they are [s]. *)
Theorem split_pieces : forall {A} esz (s : sten A) sh F dim k n,
  (1 <= esz)%Z -> holds s sh F -> dim_is (length sh) dim k -> 0 < n -> nth k sh 0 mod n = 0 ->
  exists ps, split esz s (Z.of_nat n) dim = Ok ps /\ are_pieces ps sh F k (repeat n (nth k sh 0 / n)).
Proof. exact @split_correct. Qed.
(** split(sections), for non-negative sections that add up to the size. *)
Theorem split_sections_partial : forall {A} esz (s : sten A) sh F dim k secs,
  (1 <= esz)%Z -> holds s sh F -> dim_is (length sh) dim k -> list_sum secs = nth k sh 0 ->
  exists ps, splitSections esz s (map Z.of_nat secs) dim = Ok ps /\ are_pieces ps sh F k secs.
Proof. exact @splitSections_correct. Qed.
(** chunk(n): pieces of ceil(size/min(n,size)), the last one shorter. *)
Theorem chunk_pieces_partial : forall {A} esz (s : sten A) sh F dim k n,
  (1 <= esz)%Z -> holds s sh F -> dim_is (length sh) dim k -> 0 < n -> 0 < nth k sh 0 ->
  exists ps, chunk esz s (Z.of_nat n) dim = Ok ps /\ are_pieces ps sh F k (chunk_sizes (nth k sh 0) n).
Proof. exact @chunk_correct. Qed.
Theorem chunk_sizes_cover : forall d n, 0 < n -> 0 < d -> list_sum (chunk_sizes d n) = d /\ length (chunk_sizes d n) <= n.
Proof. intros. split; [apply chunk_sizes_sum; auto|apply chunk_sizes_length; auto]. Qed.
(** Concatenating consecutive pieces of a tensor gives the tensor back. *)
Theorem concat_restores : forall {A} (ps : list (sten A)) sh F dim d secs,
  secs <> [] -> dim_is (length sh) dim d -> list_sum secs = nth d sh 0 -> are_pieces ps sh F d secs ->
  exists ts, map contents ps = map Some ts /\ concat ts dim = Ok (tensor_of sh F).
Proof. exact @join_pieces. Qed.
(** narrow(dim, start, len) is that index range (a negative start counts from
    the end), and anything else is rejected. *)
Theorem narrow_is_range : forall {A} esz (s : sten A) sh F dim k st len,
  (1 <= esz)%Z -> holds s sh F -> dim_is (length sh) dim k ->
  forall start, start = Z.of_nat st \/ start = (Z.of_nat st - Z.of_nat (nth k sh 0%nat))%Z -> st < nth k sh 0 -> st + len <= nth k sh 0 ->
  exists p, narrow esz s dim start (Z.of_nat len) = Ok p /\ holds p (piece_shape sh k len) (piece k st F).
Proof. exact @narrow_correct. Qed.
Theorem narrow_rejects_outside : forall {A} esz (s : sten A) sh F dim k start len,
  holds s sh F -> dim_is (length sh) dim k ->
  let d := Z.of_nat (nth k sh 0%nat) in let st := (if start <? 0 then start + d else start)%Z in
  (st < 0 \/ d <= st \/ len < 0 \/ d < st + len)%Z -> narrow esz s dim start len = Fail.
Proof. exact @narrow_rejects. Qed.

(** concat: operands that differ only in the size of dimension [d]; the result
    contains each operand, one after the other. *)
Theorem concat_contains : forall {A} sh (ps : list (nat * (list nat -> A))) dim d,
  ps <> [] -> dim_is (length sh) dim d ->
  exists G, concat (map (fun p => tensor_of (piece_shape sh d (fst p)) (snd p)) ps) dim
            = Ok (tensor_of (piece_shape sh d (list_sum (map fst ps))) G)
  /\ forall i l F, nth_error ps i = Some (l, F) -> agree (piece_shape sh d l) (piece d (start_of (map fst ps) i) G) F.
Proof. exact @concat_parts. Qed.
(** Splitting the result at the same boundaries gives the operands back. *)
Theorem split_concat_restores : forall {A} esz sh (ps : list (nat * (list nat -> A))) dim d,
  (1 <= esz)%Z -> ps <> [] -> dim_is (length sh) dim d ->
  exists t rs, concat (map (fun p => tensor_of (piece_shape sh d (fst p)) (snd p)) ps) dim = Ok t
  /\ splitSections esz (mkS (map Z.of_nat (tshape t)) 0 (tdata t)) (map Z.of_nat (map fst ps)) dim = Ok rs
  /\ map contents rs = map (fun p => Some (tensor_of (piece_shape sh d (fst p)) (snd p))) ps.
Proof. exact @split_of_concat. Qed.
Theorem concat_rejects_mismatch : forall {A} (t0 : tensor A) rest dim,
  (forall d, dim_is (length (tshape t0)) dim d ->
    exists t, In t rest /\ (length (tshape t) <> length (tshape t0)
      \/ exists k, k < length (tshape t0) /\ k <> d /\ nth k (tshape t) 0 <> nth k (tshape t0) 0)) ->
  concat (t0 :: rest) dim = Fail.
Proof. exact @concat_rejects. Qed.
(** stack: one new dimension, whose slices are the operands. *)
Theorem stack_adds_dimension : forall {A} sh (Fs : list (list nat -> A)) dim d,
  Fs <> [] -> dim_is (S (length sh)) dim d ->
  exists G, stack (map (tensor_of sh) Fs) dim = Ok (tensor_of (firstn d sh ++ length Fs :: skipn d sh) G)
  /\ forall i F, nth_error Fs i = Some F -> agree sh (fun idx => G (firstn d idx ++ i :: skipn d idx)) F.
Proof. exact @stack_slices. Qed.
Theorem stack_rejects_mismatch : forall {A} (t0 : tensor A) rest dim,
  (forall d, ~ dim_is (S (length (tshape t0))) dim d) \/ (exists t, In t rest /\ tshape t <> tshape t0) ->
  stack (t0 :: rest) dim = Fail.
Proof. exact @stack_rejects. Qed.
(** vstack: vectors become the rows of a matrix; other tensors are joined along
    dimension 0.  hstack: vectors are joined, other tensors along dimension 1. *)
Theorem vstack_makes_rows : forall {A} n (Fs : list (list nat -> A)), Fs <> [] ->
  exists G, vstack (map (tensor_of [n]) Fs) = Ok (tensor_of [length Fs; n] G)
  /\ forall i F, nth_error Fs i = Some F -> forall j, j < n -> G [i; j] = F [j].
Proof. exact @vstack_vectors. Qed.
Theorem vstack_joins_rows : forall {A} sh (ps : list (nat * (list nat -> A))), ps <> [] -> 2 <= length sh ->
  exists G, vstack (map (fun p => tensor_of (piece_shape sh 0 (fst p)) (snd p)) ps) = Ok (tensor_of (piece_shape sh 0 (list_sum (map fst ps))) G)
  /\ forall i l F, nth_error ps i = Some (l, F) -> agree (piece_shape sh 0 l) (piece 0 (start_of (map fst ps) i) G) F.
Proof. exact @vstack_correct. Qed.
Theorem hstack_joins : forall {A} sh (ps : list (nat * (list nat -> A))) d, ps <> [] ->
  length sh = 1 /\ d = 0 \/ 2 <= length sh /\ d = 1 ->
  exists G, hstack (map (fun p => tensor_of (piece_shape sh d (fst p)) (snd p)) ps) = Ok (tensor_of (piece_shape sh d (list_sum (map fst ps))) G)
  /\ forall i l F, nth_error ps i = Some (l, F) -> agree (piece_shape sh d l) (piece d (start_of (map fst ps) i) G) F.
Proof. exact @hstack_correct. Qed.
(** Sizes and sections that would lose elements are rejected. *)
Theorem split_rejects_uneven : forall {A} esz (s : sten A) sh F dim k n, holds s sh F -> dim_is (length sh) dim k ->
  (n <= 0)%Z \/ (Z.rem (Z.of_nat (nth k sh 0%nat)) n <> 0)%Z -> split esz s n dim = Fail.
Proof. exact @split_uneven. Qed.
Theorem split_sections_reject : forall {A} esz (s : sten A) sh F dim k secs, holds s sh F -> dim_is (length sh) dim k ->
  fold_right Z.add 0%Z secs <> Z.of_nat (nth k sh 0) -> splitSections esz s secs dim = Fail.
Proof. exact @splitSections_bad. Qed.
Theorem chunk_rejects : forall {A} esz (s : sten A) sh F dim n, holds s sh F ->
  (n <= 0)%Z \/ (forall k, ~ dim_is (length sh) dim k) -> chunk esz s n dim = Fail.
Proof. exact @chunk_bad. Qed.

(** Finding: sections are not checked to be non-negative.  [2; -1; 2] on a
    vector of 3 elements is accepted; the second piece has a negative size and
    the third overlaps the first. *)
Theorem split_negative_sections_refuted :
  exists p q r, splitSections 4 (mkS [3%Z] 0%Z [10%Z; 11%Z; 12%Z]) [2; -1; 2]%Z 0 = Ok [p; q; r]
  /\ sshape q = [-1]%Z /\ contents q = None
  /\ contents p = Some (mkT [2] [10; 11]%Z) /\ contents r = Some (mkT [2] [11; 12]%Z).
Proof. do 3 eexists. split; [reflexivity|]. repeat split. Qed.
(** Finding: chunking a dimension of size 0 divides by zero. *)
Theorem chunk_empty_refuted : chunk 4 (mkS [0; 3]%Z 0%Z (@nil Z)) 2 0 = UB.
Proof. reflexivity. Qed.
(** Finding: split reads the size of the dimension before checking it. *)
Theorem split_dim_unchecked_refuted : split 4 (mkS [3]%Z 0%Z [1; 2; 3]%Z) 1 5 = UB.
Proof. reflexivity. Qed.

(** The hypotheses are met: a 2x5 view at offset 5 of a storage of 20 elements
    is chunked along dimension 1 into 2, 2 and 1 columns, and joined again. *)
Definition ex_view : sten nat := mkS [2; 5]%Z 5 (seq 0 20).
Example ex_view_holds : holds ex_view [2; 5] (fun idx => 5 + 5 * nth 0 idx 0 + nth 1 idx 0).
Proof. split; [split; cbn; discriminate|reflexivity]. Qed.
Example ex_chunk : exists ps, chunk 8 ex_view 3 (-1) = Ok ps
  /\ map contents ps = map Some [mkT [2; 2] [5; 6; 10; 11]; mkT [2; 2] [7; 8; 12; 13]; mkT [2; 1] [9; 14]]
  /\ concat [mkT [2; 2] [5; 6; 10; 11]; mkT [2; 2] [7; 8; 12; 13]; mkT [2; 1] [9; 14]] 1 = Ok (mkT [2; 5] (seq 5 10)).
Proof. eexists. split; [reflexivity|]. split; reflexivity. Qed.
Example ex_chunk_sizes : chunk_sizes 5 3 = [2; 2; 1] /\ dim_is 2 (-1) 1.
Proof. split; [reflexivity|]. split; [lia|right; reflexivity]. Qed.
Example ex_narrow : exists p, narrow 4 ex_view 0 (-1) 1 = Ok p /\ contents p = Some (mkT [1; 5] [10; 11; 12; 13; 14]).
Proof. eexists. split; reflexivity. Qed.
Example ex_stack : stack [mkT [2] [1; 2]; mkT [2] [3; 4]; mkT [2] [5; 6]] 1 = Ok (mkT [2; 3] [1; 3; 5; 2; 4; 6]).
Proof. reflexivity. Qed.

Print Assumptions split_pieces.
Print Assumptions split_sections_partial.
Print Assumptions chunk_pieces_partial.
Print Assumptions chunk_sizes_cover.
Print Assumptions concat_restores.
Print Assumptions narrow_is_range.
Print Assumptions narrow_rejects_outside.
Print Assumptions concat_contains.
Print Assumptions split_concat_restores.
Print Assumptions concat_rejects_mismatch.
Print Assumptions stack_adds_dimension.
Print Assumptions stack_rejects_mismatch.
Print Assumptions vstack_makes_rows.
Print Assumptions vstack_joins_rows.
Print Assumptions hstack_joins.
Print Assumptions split_rejects_uneven.
Print Assumptions split_sections_reject.
Print Assumptions chunk_rejects.
Print Assumptions split_negative_sections_refuted.
Print Assumptions chunk_empty_refuted.
Print Assumptions split_dim_unchecked_refuted.
