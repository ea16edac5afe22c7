(** C64: element-wise operations and the element types of their operands. *)
From Coq Require Import ZArith List Bool Arith Lia.
From Verif Require Import ShapeModel ShapeSpec ShapeProofs TensorModel TensorSpec TensorLemmas BcastModel BcastSpec BcastProofs
  DispatchModel TypedModel TypedSpec TypedProofs.
Import ListNotations.
Local Open Scope Z_scope.

(** Operands of the same type: the operation of that type is applied to the
    elements, for every type and every operation.  (Partial: only for operands
    of the same type; see the refutations below.) *)
Theorem C64_same_type_partial (op : dtype -> Z -> Z -> Z) t sh1 sh2 sh F1 F2 :
  positive sh1 -> positive sh2 -> is_broadcast [sh1; sh2] sh ->
  (forall idx, in_type t (F1 idx)) -> (forall idx, in_type t (F2 idx)) ->
  binaryTyped op (typed_of t sh1 F1) (typed_of t sh2 F2)
  = Ok (typed_of t sh (fun idx => op t (F1 (bidx sh1 idx)) (F2 (bidx sh2 idx)))).
Proof.
  intros P1 P2 HI T1 T2. unfold binaryTyped. cbn [ty typed_of].
  rewrite (reads_ok _ t (typed_of t sh1 F1) (typed_of t sh2 F2) sh); auto using typed_of_sized.
  cbn [rmap]. f_equal. rewrite store_of. apply typed_of_ext.
  intros idx Hi. cbn [ysh typed_of nth].
  rewrite !pattern_of; auto; apply (bidx_valid _ sh); auto; apply (is_broadcast_bto _ _ _ HI); simpl; auto.
Qed.
Theorem C64_same_type_compare_partial (op : dtype -> Z -> Z -> bool) t sh1 sh2 sh F1 F2 :
  positive sh1 -> positive sh2 -> is_broadcast [sh1; sh2] sh ->
  (forall idx, in_type t (F1 idx)) -> (forall idx, in_type t (F2 idx)) ->
  compareTyped op (typed_of t sh1 F1) (typed_of t sh2 F2)
  = Ok (typed_of Bool sh (fun idx => if op t (F1 (bidx sh1 idx)) (F2 (bidx sh2 idx)) then 1 else 0)).
Proof.
  intros P1 P2 HI T1 T2. unfold compareTyped. cbn [ty typed_of].
  rewrite (reads_ok _ t (typed_of t sh1 F1) (typed_of t sh2 F2) sh); auto using typed_of_sized.
  cbn [rmap]. f_equal. rewrite store_of. apply typed_of_ext.
  intros idx Hi. cbn [ysh typed_of nth].
  rewrite !pattern_of; auto; apply (bidx_valid _ sh); auto; apply (is_broadcast_bto _ _ _ HI); simpl; auto.
Qed.
Example C64_same_ex :
  binaryTyped (fun _ a b => (a + b) mod 2 ^ 32) (typed_of Int32 [2; 3]%nat (fun idx => Z.of_nat (position [2; 3]%nat idx)))
    (typed_of Int32 [3]%nat (fun idx => 300 * Z.of_nat (position [3]%nat idx)))
  = Ok (mkTyped Int32 [2; 3]%nat [0;0;0;0; 45;1;0;0; 90;2;0;0; 3;0;0;0; 48;1;0;0; 93;2;0;0])
  /\ is_broadcast [[2; 3]; [3]]%nat [2; 3]%nat.
Proof.
  split; [vm_compute; reflexivity|]. split; [reflexivity|]. intros p Hp. split.
  - intros s [<-|[<-|[]]]; auto. destruct p as [|[|p]]; cbn; auto.
  - right. exists [2; 3]%nat. simpl. auto.
Qed.

(** In general nothing is converted and nothing is rejected: the first operand's
    type decides, and the second operand's bytes are taken for elements of that
    type, as long as they suffice. *)
Theorem C64_mixed_reads_bytes (op : dtype -> Z -> Z -> Z) x y sh :
  positive (ysh x) -> positive (ysh y) -> is_broadcast [ysh x; ysh y] sh -> sized x -> sized y ->
  (width (ty x) <= width (ty y))%nat ->
  binaryTyped op x y
  = Ok (typed_of (ty x) sh (fun idx => op (ty x) (pattern_at (width (ty x)) x (bidx (ysh x) idx))
                                                (pattern_at (width (ty x)) y (bidx (ysh y) idx)))).
Proof. intros P1 P2 HI S1 S2 W. unfold binaryTyped. rewrite (reads_ok _ (ty x) x y sh); auto. cbn [rmap]. rewrite store_of. reflexivity. Qed.
(** So the part of a wider second operand beyond the first operand's element size
    times its number of elements is ignored: tensors with quite different
    elements give the same result. *)
Theorem C64_wider_operand_cut (op : dtype -> Z -> Z -> Z) x y y' sh :
  positive (ysh x) -> positive (ysh y) -> is_broadcast [ysh x; ysh y] sh -> sized x -> sized y -> sized y' ->
  ty y' = ty y -> ysh y' = ysh y -> (width (ty x) <= width (ty y))%nat ->
  firstn (numel (ysh y) * width (ty x)) (ybytes y') = firstn (numel (ysh y) * width (ty x)) (ybytes y) ->
  binaryTyped op x y' = binaryTyped op x y.
Proof.
  intros P1 P2 HI S1 S2 S3 ET ES W EF.
  rewrite (C64_mixed_reads_bytes op x y sh), (C64_mixed_reads_bytes op x y' sh); try rewrite ES; try rewrite ET; auto.
  f_equal. apply typed_of_ext. intros idx Hi. f_equal. unfold pattern_at. rewrite ES. f_equal.
  assert (V : valid (ysh y) (bidx (ysh y) idx)).
  { apply (bidx_valid _ sh); auto. apply (is_broadcast_bto _ _ _ HI). simpl. auto. }
  rewrite position_ravel by (symmetry; apply valid_length; auto). pose proof (ravel_lt _ _ V) as L.
  set (k := ravel (ysh y) (bidx (ysh y) idx)) in *. set (w := width (ty x)) in *. set (N := numel (ysh y)) in *.
  assert (G : forall l : list Z, firstn w (skipn (k * w) l) = firstn w (skipn (k * w) (firstn (N * w) l))).
  { intro l. rewrite skipn_firstn_comm, firstn_firstn. f_equal. nia. }
  rewrite (G (ybytes y')), EF, <- G. reflexivity.
Qed.

(** Refuted: an operand with a narrower element type is neither converted nor
    rejected; whatever it holds, memory beyond it is read.  For instance Float32
    tensor + Bool tensor, Int64 tensor * Int32 tensor. *)
Theorem C64_narrower_operand_refuted (op : dtype -> Z -> Z -> Z) x y sh :
  positive (ysh x) -> positive (ysh y) -> is_broadcast [ysh x; ysh y] sh -> sized y ->
  (width (ty y) < width (ty x))%nat -> binaryTyped op x y = UB.
Proof. intros P1 P2 HI S W. unfold binaryTyped. rewrite (narrow_ub _ (ty x) x y sh); auto. Qed.
Theorem C64_narrower_compare_refuted (op : dtype -> Z -> Z -> bool) x y sh :
  positive (ysh x) -> positive (ysh y) -> is_broadcast [ysh x; ysh y] sh -> sized y ->
  (width (ty y) < width (ty x))%nat -> compareTyped op x y = UB.
Proof. intros P1 P2 HI S W. unfold compareTyped. rewrite (narrow_ub _ (ty x) x y sh); auto. Qed.
Example C64_narrow_ex :
  binaryTyped (fun _ a b => a + b) (typed_of Float32 [2]%nat (fun _ => 1065353216)) (typed_of Bool [2]%nat (fun _ => 1)) = UB
  /\ sized (typed_of Bool [2]%nat (fun _ => 1)) /\ (width Bool < width Float32)%nat.
Proof. split; [|split]; vm_compute; auto. Qed.
(** Refuted: with equal sizes the bits are mixed up.  The Int32 tensor [1] is not
    equal to the Float32 tensor [1.0] (bits 0x3f800000), and their sum is
    1065353217. *)
Theorem C64_equal_size_bits_refuted :
  let one_i := typed_of Int32 [1]%nat (fun _ => 1) in
  let one_f := typed_of Float32 [1]%nat (fun _ => 1065353216) in
  compareTyped (fun _ => Z.eqb) one_i one_f = Ok (typed_of Bool [1]%nat (fun _ => 0))
  /\ binaryTyped (fun _ a b => (a + b) mod 2 ^ 32) one_i one_f = Ok (typed_of Int32 [1]%nat (fun _ => 1065353217)).
Proof. split; vm_compute; reflexivity. Qed.

(** [copy_] does check: it succeeds exactly on equal shapes and equal types, and
    then the elements are those of the source. *)
Theorem C64_copy_checks x y : sized x -> sized y ->
  copyTyped x y = (if list_eq_dec Nat.eq_dec (ysh y) (ysh x) then
                     if Nat.eq_dec (dtypeNum (ty y)) (dtypeNum (ty x)) then Ok y else Fail else Fail).
Proof.
  intros Sx Sy. unfold copyTyped, list_eqb. destruct (list_eq_dec Nat.eq_dec (ysh y) (ysh x)) as [E|E]; auto.
  destruct (Nat.eq_dec (dtypeNum (ty y)) (dtypeNum (ty x))) as [D|D].
  - assert (ET : ty y = ty x) by (destruct (ty y), (ty x); try discriminate; reflexivity).
    rewrite (proj2 (Nat.eqb_eq _ _) D), size_width. unfold sized in *. rewrite E, ET in Sy. rewrite Sx, Sy, Nat.leb_refl. cbn [andb].
    rewrite <- Sy at 1. rewrite firstn_all, <- Sx, skipn_all, app_nil_r. destruct y as [ty' sh' b']. cbn in *. subst. reflexivity.
  - rewrite (proj2 (Nat.eqb_neq _ _) D). reflexivity.
Qed.

Print Assumptions C64_same_type_partial.
Print Assumptions C64_same_type_compare_partial.
Print Assumptions C64_mixed_reads_bytes.
Print Assumptions C64_wider_operand_cut.
Print Assumptions C64_narrower_operand_refuted.
Print Assumptions C64_narrower_compare_refuted.
Print Assumptions C64_equal_size_bits_refuted.
Print Assumptions C64_copy_checks.
