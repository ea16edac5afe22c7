(** C67: comparisons, maximum, minimum, clamp, sign and relu follow the order of
    the numbers. *)
From Coq Require Import ZArith List Bool Reals Lra Lia.
From Flocq Require Import IEEE754.Binary IEEE754.Bits.
From Verif Require Import ShapeModel ShapeSpec TensorModel TensorSpec TensorLemmas BcastModel BcastSpec BcastProofs
  DispatchModel FloatModel FloatSpec CmpModel CmpSpec CmpProofs.
Import ListNotations.
Local Open Scope Z_scope.

(** What the operations have in common: operands of one type, with shapes that
    can be broadcast. *)
Definition operands (t : dtype) (sh1 sh2 sh : list nat) (F1 F2 : list nat -> Z) : Prop :=
  comparable t /\ positive sh1 /\ positive sh2 /\ is_broadcast [sh1; sh2] sh
  /\ (forall idx, element t (F1 idx)) /\ (forall idx, element t (F2 idx)).
Lemma two_of {B} (f : Z -> Z -> B) t sh1 sh2 sh F1 F2 : operands t sh1 sh2 sh F1 F2 ->
  elementwise (fun l => f (nth 0 l 0) (nth 1 l 0)) [tensor_of sh1 F1; tensor_of sh2 F2]
  = Ok (tensor_of sh (fun idx => f (F1 (bidx sh1 idx)) (F2 (bidx sh2 idx)))).
Proof.
  intros (C & P1 & P2 & HB & E1 & E2).
  apply (elementwise_correct (fun l => f (nth 0 l 0) (nth 1 l 0)) [(sh1, F1); (sh2, F2)] sh).
  - repeat constructor; auto.
  - apply broadcastShape_iff; auto. repeat constructor; auto.
Qed.
Lemma nlt_le a b : a <> NaN -> b <> NaN -> ~ num_lt a b -> num_le b a.
Proof. intros A B H. unfold num_le. destruct (num_total a b A B) as [L|[L|L]]; auto; [tauto|]. right. apply num_eq_sym; auto. Qed.

(** The six comparisons, for all elements: <, <=, >, >= and == are false and !=
    is true when an operand is NaN; the two zeros are equal. *)
Theorem compare_meaning o t sh1 sh2 sh F1 F2 : operands t sh1 sh2 sh F1 F2 ->
  exists G, cmpTensors o t (tensor_of sh1 F1) (tensor_of sh2 F2) = Ok (tensor_of sh G)
  /\ forall idx, G idx = true <-> cmp_meaning o (value t (F1 (bidx sh1 idx))) (value t (F2 (bidx sh2 idx))).
Proof.
  intro H. eexists. split; [apply (two_of (cmpApply o t) t); exact H|]. intro idx. destruct H as (C & _ & _ & _ & E1 & E2).
  apply cmp_ok; auto.
Qed.
(** Half tensors: -0 = 0, 1 < inf, NaN compares with nothing. *)
Example compare_ex :
  let x := mkT [4]%nat [0x8000; 0x3C00; 0x7E00; 0xBC00] in
  let y := mkT [4]%nat [0; 0x7C00; 0x7E00; 0x3C00] in
  map (fun o => cmpTensors o Float16 x y) [OpEq; OpNe; OpLt; OpLe; OpGt; OpGe]
  = map (fun l => Ok (mkT [4]%nat l))
      [[true; false; false; false]; [false; true; true; true]; [false; true; false; true]; [true; true; false; true];
       [false; false; false; false]; [true; false; false; false]]
  /\ operands Float16 [4]%nat [4]%nat [4]%nat (fun _ => 0x8000) (fun _ => 0x3C00).
Proof.
  split; [vm_compute; reflexivity|].
  unfold operands, comparable, floating. split; [auto|]. split; [repeat constructor|]. split; [repeat constructor|].
  split; [|split; intros; cbn; lia].
  split; [reflexivity|]. intros p Hp. split; [intros s [<-|[<-|[]]]; auto|]. right. exists [4]%nat. simpl. auto.
Qed.

(** Maximum and minimum: one of the operands, not below (above) either, when
    neither is NaN.  (Partial: see below for NaN.) *)
Theorem maximum_greatest_partial t sh1 sh2 sh F1 F2 : operands t sh1 sh2 sh F1 F2 ->
  exists G, maximum t (tensor_of sh1 F1) (tensor_of sh2 F2) = Ok (tensor_of sh G)
  /\ forall idx, let a := F1 (bidx sh1 idx) in let b := F2 (bidx sh2 idx) in
     (G idx = a \/ G idx = b)
     /\ (value t a <> NaN -> value t b <> NaN -> num_le (value t a) (value t (G idx)) /\ num_le (value t b) (value t (G idx))).
Proof.
  intro H. eexists. split; [apply (two_of (opMaximum t) t); exact H|]. intro idx. cbv zeta. unfold opMaximum.
  destruct H as (C & _ & _ & _ & E1 & E2).
  pose proof (less_ok t _ _ C (E1 (bidx sh1 idx)) (E2 (bidx sh2 idx))) as L.
  destruct (less t (F1 (bidx sh1 idx)) (F2 (bidx sh2 idx))); split; auto; intros Na Nb.
  - split; [left; apply L; auto|right; split; auto].
  - split; [right; split; auto|]. apply nlt_le; auto. intro K. apply L in K. discriminate.
Qed.
Theorem minimum_least_partial t sh1 sh2 sh F1 F2 : operands t sh1 sh2 sh F1 F2 ->
  exists G, minimum t (tensor_of sh1 F1) (tensor_of sh2 F2) = Ok (tensor_of sh G)
  /\ forall idx, let a := F1 (bidx sh1 idx) in let b := F2 (bidx sh2 idx) in
     (G idx = a \/ G idx = b)
     /\ (value t a <> NaN -> value t b <> NaN -> num_le (value t (G idx)) (value t a) /\ num_le (value t (G idx)) (value t b)).
Proof.
  intro H. eexists. split; [apply (two_of (opMinimum t) t); exact H|]. intro idx. cbv zeta. unfold opMinimum.
  destruct H as (C & _ & _ & _ & E1 & E2).
  pose proof (less_ok t _ _ C (E2 (bidx sh2 idx)) (E1 (bidx sh1 idx))) as L.
  destruct (less t (F2 (bidx sh2 idx)) (F1 (bidx sh1 idx))); split; auto; intros Na Nb.
  - split; [left; apply L; auto|right; split; auto].
  - split; [right; split; auto|]. apply nlt_le; auto. intro K. apply L in K. discriminate.
Qed.
(** Refuted: NaN is not passed on.  When one operand is NaN the first operand is
    the result, so a NaN in the second operand disappears and the operations are
    not commutative. *)
Theorem maximum_nan_refuted t sh1 sh2 sh F1 F2 : operands t sh1 sh2 sh F1 F2 ->
  exists G1 G2, maximum t (tensor_of sh1 F1) (tensor_of sh2 F2) = Ok (tensor_of sh G1)
  /\ minimum t (tensor_of sh1 F1) (tensor_of sh2 F2) = Ok (tensor_of sh G2)
  /\ forall idx, value t (F1 (bidx sh1 idx)) = NaN \/ value t (F2 (bidx sh2 idx)) = NaN ->
     G1 idx = F1 (bidx sh1 idx) /\ G2 idx = F1 (bidx sh1 idx).
Proof.
  intro H. do 2 eexists. split; [apply (two_of (opMaximum t) t); exact H|]. split; [apply (two_of (opMinimum t) t); exact H|].
  intros idx N. cbv beta. unfold opMaximum, opMinimum. destruct H as (C & _ & _ & _ & E1 & E2).
  pose proof (less_ok t _ _ C (E1 (bidx sh1 idx)) (E2 (bidx sh2 idx))) as L1.
  pose proof (less_ok t _ _ C (E2 (bidx sh2 idx)) (E1 (bidx sh1 idx))) as L2.
  destruct (num_nan _ _ N) as (A & _ & B).
  destruct (less t (F1 (bidx sh1 idx)) (F2 (bidx sh2 idx))), (less t (F2 (bidx sh2 idx)) (F1 (bidx sh1 idx))); intuition congruence.
Qed.
Example maximum_ex : let nan := 0x7FC00000 in let one := 0x3F800000 in let two := 0x40000000 in
  maximum Float32 (mkT [3]%nat [one; nan; two]) (mkT [3]%nat [nan; one; one]) = Ok (mkT [3]%nat [one; nan; two])
  /\ minimum Float32 (mkT [3]%nat [one; nan; two]) (mkT [3]%nat [nan; one; one]) = Ok (mkT [3]%nat [one; nan; one])
  /\ value Float32 nan = NaN /\ value Float32 one <> NaN
  /\ maximum Int64 (mkT [2]%nat [-5; 7]) (mkT [1]%nat [3]) = Ok (mkT [2]%nat [3; 7]).
Proof. split; [|split; [|split; [|split]]]; try (vm_compute; reflexivity). vm_compute. discriminate. Qed.

(** Clamping from below and from above: an element on the allowed side of its
    bound is kept, another is replaced by the bound; NaN is kept. *)
Theorem clamp_one_side t sh1 sh2 sh F1 F2 : operands t sh1 sh2 sh F1 F2 ->
  exists G1 G2, clampMin t (tensor_of sh1 F1) (tensor_of sh2 F2) = Ok (tensor_of sh G1)
  /\ clampMax t (tensor_of sh1 F1) (tensor_of sh2 F2) = Ok (tensor_of sh G2)
  /\ forall idx, let a := F1 (bidx sh1 idx) in let m := F2 (bidx sh2 idx) in
     (num_lt (value t a) (value t m) -> G1 idx = m) /\ (~ num_lt (value t a) (value t m) -> G1 idx = a)
     /\ (num_lt (value t m) (value t a) -> G2 idx = m) /\ (~ num_lt (value t m) (value t a) -> G2 idx = a).
Proof.
  intro H. do 2 eexists. split; [apply (two_of (opClampMin t) t); exact H|]. split; [apply (two_of (opClampMax t) t); exact H|].
  intro idx. cbv zeta. unfold opClampMin, opClampMax. destruct H as (C & _ & _ & _ & E1 & E2).
  pose proof (less_ok t _ _ C (E1 (bidx sh1 idx)) (E2 (bidx sh2 idx))) as L1.
  pose proof (greater_ok t _ _ C (E1 (bidx sh1 idx)) (E2 (bidx sh2 idx))) as L2.
  destruct (less t (F1 (bidx sh1 idx)) (F2 (bidx sh2 idx))), (greater t (F1 (bidx sh1 idx)) (F2 (bidx sh2 idx))); intuition congruence.
Qed.
(** Clamping between two bounds that are in order: the result lies between them
    and is the element itself if that does, the nearer bound otherwise. *)
Theorem clamp_between t sh1 sh2 sh3 sh F1 F2 F3 :
  floating t -> positive sh1 -> positive sh2 -> positive sh3 -> is_broadcast [sh1; sh2; sh3] sh ->
  (forall idx, element t (F1 idx)) -> (forall idx, element t (F2 idx)) -> (forall idx, element t (F3 idx)) ->
  exists G, clamp t (tensor_of sh1 F1) (tensor_of sh2 F2) (tensor_of sh3 F3) = Ok (tensor_of sh G)
  /\ forall idx, let a := F1 (bidx sh1 idx) in let lo := F2 (bidx sh2 idx) in let hi := F3 (bidx sh3 idx) in
     (value t a = NaN -> G idx = a)
     /\ (value t a <> NaN -> num_le (value t lo) (value t hi) ->
         num_le (value t lo) (value t (G idx)) /\ num_le (value t (G idx)) (value t hi)
         /\ (num_lt (value t a) (value t lo) -> G idx = lo) /\ (num_lt (value t hi) (value t a) -> G idx = hi)
         /\ (num_le (value t lo) (value t a) -> num_le (value t a) (value t hi) -> G idx = a)).
Proof.
  intros FT P1 P2 P3 HB E1 E2 E3. exists (fun idx => opClamp t (F1 (bidx sh1 idx)) (F2 (bidx sh2 idx)) (F3 (bidx sh3 idx))). split.
  { apply (elementwise_correct (fun l => opClamp t (nth 0 l 0) (nth 1 l 0) (nth 2 l 0)) [(sh1, F1); (sh2, F2); (sh3, F3)] sh).
    - repeat constructor; auto.
    - apply broadcastShape_iff; auto. repeat constructor; auto. }
  intro idx. cbv zeta. unfold opClamp.
  pose proof (less_ok t _ _ (or_introl FT) (E1 (bidx sh1 idx)) (E2 (bidx sh2 idx))) as L.
  pose proof (greater_ok t _ _ (or_introl FT) (E1 (bidx sh1 idx)) (E3 (bidx sh3 idx))) as U.
  set (a := value t (F1 (bidx sh1 idx))) in *. set (lo := value t (F2 (bidx sh2 idx))) in *. set (hi := value t (F3 (bidx sh3 idx))) in *.
  split.
  - intro N. destruct (num_nan a lo (or_introl N)) as (A & _ & _). destruct (num_nan a hi (or_introl N)) as (_ & _ & B).
    destruct (less t _ _); [destruct A; apply L; auto|]. destruct (greater t _ _); [destruct B; apply U; auto|]. reflexivity.
  - intros N LE.
    assert (Nlo : lo <> NaN) by (intro Q; rewrite Q in LE; destruct LE as [K|[K _]]; [exact K|congruence]).
    assert (Nhi : hi <> NaN) by (intro Q; rewrite Q in LE; destruct LE as [K|[K K']]; [destruct lo; exact K|congruence]).
    pose proof (num_excl a lo) as [X1 X2]. pose proof (num_excl hi a) as [Y1 Y2]. pose proof (num_excl lo a) as [X3 X4]. pose proof (num_excl a hi) as [Y3 Y4].
    assert (NE : num_lt a lo -> num_lt hi a -> False).
    { intros K1 K2. pose proof (num_lt_trans _ _ _ K2 K1) as K. destruct LE as [K'|K'].
      - apply (proj2 (proj1 (num_excl hi lo) K)); auto.
      - apply (proj2 (proj2 (num_excl lo hi) K')); auto. }
    destruct (less t (F1 (bidx sh1 idx)) (F2 (bidx sh2 idx))) eqn:EL.
    + assert (K : num_lt a lo) by (apply L; reflexivity). destruct (X1 K) as [K1 K2].
      split; [right; split; auto|]. split; [exact LE|]. split; [auto|]. split; [tauto|]. intros [Q|Q] _; [tauto|].
      apply num_eq_sym in Q. tauto.
    + assert (K : ~ num_lt a lo) by (rewrite <- L; discriminate).
      destruct (greater t (F1 (bidx sh1 idx)) (F3 (bidx sh3 idx))) eqn:EU.
      * assert (K' : num_lt hi a) by (apply U; reflexivity). destruct (Y1 K') as [K1 K2].
        split; [exact LE|]. split; [right; split; auto|]. split; [tauto|]. split; [auto|]. intros _ [Q|Q]; [tauto|].
        apply num_eq_sym in Q. tauto.
      * assert (K' : ~ num_lt hi a) by (rewrite <- U; discriminate).
        split; [apply nlt_le; auto|]. split; [apply nlt_le; auto|]. tauto.
Qed.
(** Bounds out of order or NaN bounds are not noticed: an element below the lower
    bound becomes the lower bound although that exceeds the upper one. *)
Example clamp_ex : let w := mkT [5]%nat [0xC0400000; 0; 0x40400000; 0x7F800000; 0x7FC00000] in
  clamp Float32 w (mkT [] [0xBF800000]) (mkT [] [0x3F800000])
    = Ok (mkT [5]%nat [0xBF800000; 0; 0x3F800000; 0x3F800000; 0x7FC00000])
  /\ clamp Float32 w (mkT [] [0x3F800000]) (mkT [] [0xBF800000])
    = Ok (mkT [5]%nat [0x3F800000; 0x3F800000; 0xBF800000; 0xBF800000; 0x7FC00000])
  /\ clamp Float32 w (mkT [] [0x7FC00000]) (mkT [] [0x7FC00000]) = Ok w.
Proof. repeat split; vm_compute; reflexivity. Qed.

(** The sign of a number other than 0 is 1 or -1.  (Partial: 0 and NaN are
    refuted below.) *)
Lemma one_value t : floating t -> value t (oneW t) = Num 1 /\ value t (minusOneW t) = Num (-1) /\ value t (zeroW t) = Num 0.
Proof.
  intros [ -> |[ -> | -> ]]; cbn [value oneW minusOneW zeroW]; unfold number_of.
  - split; [|split]; vm_compute is_nan; vm_compute is_finite; cbv iota; f_equal; vm_compute B2R; try (unfold Defs.F2R; simpl); lra.
  - split; [|split]; vm_compute is_nan; vm_compute is_finite; cbv iota; f_equal; vm_compute B2R; try (unfold Defs.F2R; simpl); lra.
  - split; [|split]; vm_compute is_nan; vm_compute is_finite; cbv iota; f_equal; vm_compute B2R; try (unfold Defs.F2R; simpl); lra.
Qed.
Lemma zero_element t : element t (zeroW t).
Proof. destruct t; unfold zeroW, element; split; try lia; reflexivity. Qed.
Theorem sign_of_number_partial t sh F : floating t -> (forall idx, element t (F idx)) ->
  exists G, sign t (tensor_of sh F) = Ok (tensor_of sh G)
  /\ forall idx, (num_lt (Num 0) (value t (F idx)) -> value t (G idx) = Num 1)
     /\ (num_lt (value t (F idx)) (Num 0) -> value t (G idx) = Num (-1)).
Proof.
  intros FT E. unfold sign, unaryTensor. rewrite unary_correct. eexists. split; [reflexivity|]. intro idx. cbv beta. unfold opSign.
  destruct (one_value t FT) as (V1 & V2 & V3). pose proof (greater_ok t _ _ (or_introl FT) (E idx) (zero_element t)) as L. rewrite V3 in L.
  destruct (greater t (F idx) (zeroW t)); split; intro H; auto.
  - exfalso. apply (proj2 (proj1 (num_excl _ _) H)). apply L. reflexivity.
  - apply L in H. discriminate.
Qed.
(** Refuted: the sign of 0, of -0 and of NaN is -1. *)
Theorem sign_zero_refuted t sh F : floating t -> (forall idx, element t (F idx)) ->
  exists G, sign t (tensor_of sh F) = Ok (tensor_of sh G)
  /\ forall idx, value t (F idx) = Num 0 \/ value t (F idx) = NaN -> value t (G idx) = Num (-1).
Proof.
  intros FT E. unfold sign, unaryTensor. rewrite unary_correct. eexists. split; [reflexivity|]. intros idx H. cbv beta. unfold opSign.
  destruct (one_value t FT) as (V1 & V2 & V3). pose proof (greater_ok t _ _ (or_introl FT) (E idx) (zero_element t)) as L. rewrite V3 in L.
  destruct (greater t (F idx) (zeroW t)); auto. exfalso. pose proof (proj1 L eq_refl) as K. destruct H as [H|H]; rewrite H in K; cbn in K; [lra|exact K].
Qed.
Example sign_ex : sign BFloat16 (mkT [4]%nat [0x4000; 0x8000; 0; 0xC000]) = Ok (mkT [4]%nat [0x3F80; 0xBF80; 0xBF80; 0xBF80])
  /\ value BFloat16 0x8000 = Num 0 /\ num_lt (Num 0) (value BFloat16 0x4000).
Proof.
  split; [vm_compute; reflexivity|]. split; [vm_compute; reflexivity|]. cbn [value num_lt]. unfold number_of.
  vm_compute is_nan; vm_compute is_finite; cbv iota. vm_compute B2R. unfold Defs.F2R. simpl. lra.
Qed.

(** Relu, both as an operation and as the function of the autograd interface: a
    number that is not negative is kept, another gives 0.  (Partial: NaN.) *)
Lemma relu_both t sh F : floating t -> positive sh -> (forall idx, element t (F idx)) ->
  relu t (tensor_of sh F) = Ok (tensor_of sh (fun idx => opRelu t (F idx)))
  /\ reluFunction t (tensor_of sh F) = Ok (tensor_of sh (fun idx => opClampMin t (F idx) (zeroW t))).
Proof.
  intros FT P E. split.
  - unfold relu, unaryTensor. rewrite unary_correct. reflexivity.
  - unfold reluFunction, clampMin, binaryTensors. change (mkT [] [zeroW t]) with (tensor_of [] (fun _ : list nat => zeroW t)).
    rewrite (two_of (opClampMin t) t sh [] sh F (fun _ => zeroW t)).
    + f_equal. apply tensor_of_ext. intros idx V. rewrite bidx_same; auto.
    + unfold operands, comparable. split; [auto|]. split; [auto|]. split; [constructor|]. split; [|split; auto using zero_element].
      split; [cbn; lia|]. intros p Hp. split.
      * intros s [<-|[<-|[]]]; auto. left. destruct p; reflexivity.
      * right. exists sh. simpl. auto.
Qed.
Theorem relu_of_number_partial t sh F : floating t -> positive sh -> (forall idx, element t (F idx)) ->
  exists G1 G2, relu t (tensor_of sh F) = Ok (tensor_of sh G1) /\ reluFunction t (tensor_of sh F) = Ok (tensor_of sh G2)
  /\ forall idx, let v := value t (F idx) in
     (num_le (Num 0) v -> value t (G1 idx) = v /\ value t (G2 idx) = v)
     /\ (num_le v (Num 0) -> value t (G1 idx) = Num 0 /\ value t (G2 idx) = Num 0).
Proof.
  intros FT P E. destruct (relu_both t sh F FT P E) as [R1 R2]. do 2 eexists. split; [exact R1|]. split; [exact R2|].
  intro idx. cbv zeta. unfold opRelu, opClampMin. destruct (one_value t FT) as (_ & _ & V).
  pose proof (greater_ok t _ _ (or_introl FT) (E idx) (zero_element t)) as L. rewrite V in L.
  pose proof (less_ok t _ _ (or_introl FT) (E idx) (zero_element t)) as M. rewrite V in M.
  pose proof (num_excl (Num 0) (value t (F idx))) as [X1 X2]. pose proof (num_excl (value t (F idx)) (Num 0)) as [X3 X4].
  unfold num_le. pose proof (fun H : num_eq (Num 0) (value t (F idx)) => proj2 H) as Q1.
  pose proof (fun H : num_eq (value t (F idx)) (Num 0) => proj2 H) as Q2.
  destruct (greater t (F idx) (zeroW t)), (less t (F idx) (zeroW t)); rewrite ?V; intuition congruence.
Qed.
(** Refuted: on NaN they differ; the operation gives 0, the function NaN. *)
Theorem relu_nan_refuted t sh F : floating t -> positive sh -> (forall idx, element t (F idx)) ->
  exists G1 G2, relu t (tensor_of sh F) = Ok (tensor_of sh G1) /\ reluFunction t (tensor_of sh F) = Ok (tensor_of sh G2)
  /\ forall idx, value t (F idx) = NaN -> value t (G1 idx) = Num 0 /\ G2 idx = F idx.
Proof.
  intros FT P E. destruct (relu_both t sh F FT P E) as [R1 R2]. do 2 eexists. split; [exact R1|]. split; [exact R2|].
  intros idx N. cbv beta. unfold opRelu, opClampMin. destruct (one_value t FT) as (_ & _ & V).
  pose proof (greater_ok t _ _ (or_introl FT) (E idx) (zero_element t)) as L. rewrite V, N in L.
  pose proof (less_ok t _ _ (or_introl FT) (E idx) (zero_element t)) as M. rewrite V, N in M. cbn in L, M.
  destruct (greater t (F idx) (zeroW t)), (less t (F idx) (zeroW t)); intuition congruence.
Qed.
Example relu_ex : relu Float32 (mkT [3]%nat [0x7FC00000; 0xC0000000; 0x40000000]) = Ok (mkT [3]%nat [0; 0; 0x40000000])
  /\ reluFunction Float32 (mkT [3]%nat [0x7FC00000; 0xC0000000; 0x40000000]) = Ok (mkT [3]%nat [0x7FC00000; 0; 0x40000000]).
Proof. split; vm_compute; reflexivity. Qed.

Print Assumptions compare_meaning.
Print Assumptions maximum_greatest_partial.
Print Assumptions minimum_least_partial.
Print Assumptions maximum_nan_refuted.
Print Assumptions clamp_one_side.
Print Assumptions clamp_between.
Print Assumptions sign_of_number_partial.
Print Assumptions sign_zero_refuted.
Print Assumptions relu_of_number_partial.
Print Assumptions relu_nan_refuted.
