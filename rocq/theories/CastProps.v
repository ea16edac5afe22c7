(** C101: conversions between element types. *)
From Coq Require Import ZArith Reals Bool List Lia Lra Arith.
From Flocq Require Import Core IEEE754.Binary IEEE754.Bits.
From Verif Require Import DispatchModel FloatModel FloatSpec FloatProofs2 FloatProofs4 Arith16Props Arith16Model CmpSpec ShapeModel TensorModel BcastModel CastModel CastSpec CastProofs CastProofs2.
Import ListNotations.
Local Open Scope Z_scope.

(** [to] gives a tensor of the type and the shape whose elements are the
    elements, each converted: the nearest number, or the number without its
    fraction. *)
Theorem to_converts_partial : forall x t s,
  (forall w, In w (els x) -> cell (dt x) w /\ regular (dt x) t w /\ converted t (value (dt x) w) <> None) ->
  exists y, to t s x = Ok y /\ dt y = t /\ sh y = sh x
    /\ Forall2 (fun w v => cell t v /\ converted t (value (dt x) w) = Some (value t v)) (els x) (els y).
Proof. exact to_converts_lemma. Qed.
(** Numbers the new type has are kept, whatever the types. *)
Theorem to_keeps : forall x t s, (forall w, In w (els x) -> cell (dt x) w /\ has_too (dt x) t w) ->
  exists y, to t s x = Ok y /\ dt y = t /\ sh y = sh x
    /\ Forall2 (fun w v => cell t v /\ value t v = value (dt x) w) (els x) (els y).
Proof. exact to_keeps_lemma. Qed.
(** There and back. *)
Theorem to_round_trip : forall x t s s', (forall w, In w (els x) -> cell (dt x) w /\ has_too (dt x) t w) ->
  exists y z, to t s x = Ok y /\ to (dt x) s' y = Ok z /\ dt z = dt x /\ sh z = sh x
    /\ Forall2 (fun w v => value (dt x) v = value (dt x) w) (els x) (els z).
Proof. exact round_trip_lemma. Qed.
(** Types that have all numbers of another. *)
Theorem wider_types : forall s t w, cell s w -> In (s, t) [(Float16, Float32); (BFloat16, Float32); (Int32, Int64); (Bool, Int32); (Bool, Int64); (Bool, Float32); (Bool, Float16); (Bool, BFloat16)] -> has_too s t w.
Proof.
  intros s t w C I.
  assert (K : forall s t, cell s w -> floating t -> (forall v, cell t v -> value t v = nearest (precision t) (exponent t) (nearest 24 128 (value s w)) -> value t v = value s w) -> has_too s t w).
  { intros a b A B H. destruct (cast_float_two a b w A B) as (v & _ & V & E). exists v. split; [exact V|]. apply H; assumption. }
  assert (B8 : forall b, s = Bool -> floating b -> has_too Bool b w).
  { intros b -> B. apply K; [exact C|exact B|]. intros v _ E. rewrite E. cbn [value]. cbn [cell] in C.
    assert (G : forall p e, 8 <= p -> 16 <= e -> nearest p e (Num (IZR w)) = Num (IZR w)).
    { intros p e P Q. apply nearest_fix.
      - apply generic_format_FLT. exists (Float radix2 w 0); cbn [Fnum Fexp]; [unfold F2R; cbn; ring| |].
        + rewrite Z.abs_eq by lia. apply Z.lt_le_trans with (2 ^ 8); [lia|]. apply (Z.pow_le_mono_r 2); lia.
        + destruct (Z_le_gt_dec (3 - e - p) 0); lia.
      - rewrite <- abs_IZR. apply Rlt_le_trans with (bpow radix2 16); [|apply bpow_le; lia]. change (bpow radix2 16) with (IZR 65536). apply IZR_lt. lia. }
    rewrite G by lia. apply G; destruct B as [-> | [-> | ->]]; cbn; lia. }
  cbn [In] in I. repeat destruct I as [I|I]; try (injection I as <- <-); try contradiction.
  - apply K; [exact C|unfold floating; auto|]. intros v _ E. rewrite E. cbn [precision exponent]. rewrite (value_wide Float16 w C) by (unfold floating; auto). apply (value_wide Float16 w C). unfold floating; auto.
  - apply K; [exact C|unfold floating; auto|]. intros v _ E. rewrite E. cbn [precision exponent]. rewrite (value_wide BFloat16 w C) by (unfold floating; auto). apply (value_wide BFloat16 w C). unfold floating; auto.
  - exists w. split; [cbn [cell element] in *; lia|reflexivity].
  - exists w. split; [cbn [cell element] in *; lia|reflexivity].
  - exists w. split; [cbn [cell element] in *; lia|reflexivity].
  - apply B8; unfold floating; auto.
  - apply B8; unfold floating; auto.
  - apply B8; unfold floating; auto.
Qed.
(** Conversions keep the order (of integers converted to integers: if they fit) ... *)
Theorem to_order_partial : forall s d x y u v, cell s x -> cell s y -> (integral s -> integral d -> cell d x /\ cell d y) ->
  cast s d x = Ok u -> cast s d y = Ok v -> num_le (value s x) (value s y) -> num_le (value d u) (value d v).
Proof. exact cast_order. Qed.
(** ... and the sign, also of zero. *)
Theorem to_sign : forall s d w v, floating s -> floating d -> cell s w -> value s w <> NaN -> cast s d w = Ok v -> minus d v = minus s w.
Proof. exact cast_sign. Qed.
(** A tensor of the type already is returned itself; otherwise the result has
    storage of its own. *)
Theorem to_storage : forall x t s y, to t s x = Ok y -> if (dtypeNum (dt x) =? dtypeNum t)%nat then y = x else stor y = s.
Proof.
  intros x t s y E. destruct (dtypeNum (dt x) =? dtypeNum t)%nat eqn:T.
  - unfold to in E. rewrite T in E. injection E as <-. reflexivity.
  - apply (to_inv t s x y E). intros A. apply type_eq in A. congruence.
Qed.
(** toList and item are the elements of the converted tensor. *)
Theorem toList_item_partial : forall x t, (forall w, In w (els x) -> cell (dt x) w /\ regular (dt x) t w /\ converted t (value (dt x) w) <> None) ->
  (exists vs, toList t x = Ok vs /\ Forall2 (fun w v => cell t v /\ converted t (value (dt x) w) = Some (value t v)) (els x) vs)
  /\ (forall w, els x = [w] -> exists v, item t x = Ok v /\ converted t (value (dt x) w) = Some (value t v))
  /\ (length (els x) <> 1%nat -> item t x = Fail).
Proof.
  intros x t H. destruct (to_converts_lemma x t 0 H) as (y & A & _ & _ & D). unfold toList, item. rewrite A. split; [exists (els y); auto|]. split.
  - intros w E. rewrite E in D. inversion D as [|? v ? ? [_ P] Q]; subst. inversion Q; subst. exists v. auto.
  - intros N. assert (D' : length (els x) = length (els y)) by (clear -D; induction D; cbn; congruence). destruct (els y) as [|v [|v' l]]; try reflexivity. cbn in D'. lia.
Qed.
(** fill_ with a number of another type: every element is the converted number. *)
Theorem fill_converts_partial : forall x k w, cell k w -> regular k (dt x) w -> converted (dt x) (value k w) <> None ->
  exists y, fill k w x = Ok y /\ dt y = dt x /\ sh y = sh x /\ length (els y) = length (els x)
    /\ forall v, In v (els y) -> converted (dt x) (value k w) = Some (value (dt x) v).
Proof.
  intros x k w C R N. unfold fill, scalarTo.
  assert (K : exists v, (if (dtypeNum k =? dtypeNum (dt x))%nat then Ok w else cast k (dt x) w) = Ok v /\ converted (dt x) (value k w) = Some (value (dt x) v)).
  { destruct (dtypeNum k =? dtypeNum (dt x))%nat eqn:T.
    - apply type_eq in T. subst k. exists w. split; [reflexivity|]. apply converted_own. exact C.
    - pose proof (cast_regular _ _ _ C R) as K. destruct (converted (dt x) (value k w)) as [n|]; [|destruct (N eq_refl)].
      destruct K as (v & A & _ & B). exists v. split; [exact A|congruence]. }
  destruct K as (v & A & B). rewrite A. eexists. split; [reflexivity|]. cbn. split; [reflexivity|]. split; [reflexivity|]. split; [apply map_length|].
  intros u I. apply in_map_iff in I. destruct I as (? & <- & _). exact B.
Qed.

(** What is false.  Floating-point numbers an integer type does not have are not
    refused: undefined behaviour, for every such number, infinity and NaN. *)
Theorem to_out_of_range_refuted : forall x t s w, floating (dt x) -> integral t -> In w (els x) -> cell (dt x) w ->
  converted t (value (dt x) w) = None -> to t s x = UB.
Proof. exact to_refused_lemma. Qed.
(** Integers a type does not have become others, silently. *)
Theorem to_wraps_refuted : forall s t w, integral s -> integral t -> cell s w -> ~ cell t w ->
  exists v, cast s t w = Ok v /\ cell t v /\ v <> w /\ (span t | v - w).
Proof.
  intros s t w S T C N. destruct (cast_wrap s t w C S T) as (v & A & B & _ & D). exists v. split; [exact A|]. split; [exact B|]. split; [|exact D].
  intros ->. contradiction.
Qed.
(** Integers to bfloat16 are rounded twice (C89). *)
Theorem to_bf16_refuted : cell Int32 16842753 /\ cast Int32 BFloat16 16842753 = Ok 0x4B80 /\ B2R 8 128 (bf16 0x4B80) = IZR 16777216
  /\ B2R 8 128 (bf16 0x4B81) = IZR 16908288
  /\ (Rabs (IZR 16908288 - IZR 16842753) < Rabs (IZR 16777216 - IZR 16842753))%R.
Proof.
  destruct bf16_of_int_refuted as (_ & A & B & C & _).
  split; [split; [discriminate|reflexivity]|]. split; [vm_compute; reflexivity|]. auto.
Qed.
(** int32 to float32 and back is not the identity, and undefined for the largest. *)
Theorem int_float_int_refuted : (exists v, cast Int32 Float32 16777217 = Ok v /\ cast Float32 Int32 v = Ok 16777216)
  /\ exists v, cast Int32 Float32 2147483647 = Ok v /\ cast Float32 Int32 v = UB.
Proof. split; eexists; (split; [vm_compute; reflexivity|vm_compute; reflexivity]). Qed.
(** Bool is a byte: 0.5 becomes false, 256 becomes false, 2 and -1 become bytes
    that are neither 0 nor 1; so do scalars a Bool tensor is filled with. *)
Theorem to_bool_refuted : cast Float32 Bool 0x3F000000 = Ok 0 /\ value Float32 0x3F000000 = Num (1 / 2) /\ cast Int64 Bool 256 = Ok 0
  /\ cast Int64 Bool 2 = Ok 2 /\ cast Int64 Bool (-1) = Ok 255 /\ scalarTo Float32 Bool 0x3F000000 = Ok 0.
Proof.
  split; [vm_compute; reflexivity|]. split; [|repeat split; vm_compute; reflexivity].
  pose proof (f32_finite false 126 0 ltac:(split; [discriminate|reflexivity]) ltac:(split; [discriminate|reflexivity])) as (A1 & A2 & _ & A4).
  change (FloatProofs.word 23 8 false (126 * 2 ^ 23 + 0)) with 0x3F000000 in *. cbn [value]. unfold number_of.
  change (is_nan 24 128 (b32_of_bits 0x3F000000)) with false. rewrite A1. f_equal. rewrite A4. vm_compute (sig 126 0). cbn. lra.
Qed.
(** Truth is kept for the whole numbers 0 to 255. *)
Theorem to_bool_partial : forall s w n, cell s w -> value s w = Num (IZR n) -> 0 <= n < 2 ^ 8 ->
  exists v, cast s Bool w = Ok v /\ (v <> 0 <-> n <> 0).
Proof.
  intros s w n C E R. destruct (cast_keeps s Bool w C) as (v & A & _ & D); [exists n; split; [exact R|rewrite E; reflexivity]|].
  exists v. split; [exact A|]. rewrite E in D. cbn [value] in D. injection D as D. apply eq_IZR in D. subst. reflexivity.
Qed.
(** A converted tensor still requires gradients, but its history is lost: backward()
    never reaches the tensor it was made of. *)
Theorem to_gradient_refuted : forall x t s y, dt x <> t -> to t s x = Ok y -> rg y = rg x /\ hist y = false.
Proof. intros x t s y N E. destruct (to_inv t s x y E N) as (_ & _ & _ & A & B & _). auto. Qed.

(** Examples: 1.5 and -2.75 to int64 and half. *)
Example to_example :
  to Int64 7 (Ten Float32 [2%nat] [0x3FC00000; 0xC0300000] 3 true true) = Ok (Ten Int64 [2%nat] [1; -2] 7 true false)
  /\ to Float16 7 (Ten Float32 [2%nat] [0x3FC00000; 0xC0300000] 3 true true) = Ok (Ten Float16 [2%nat] [0x3E00; 0xC180] 7 true false)
  /\ cell Float32 0x3FC00000 /\ regular Float32 Int64 0x3FC00000.
Proof.
  split; [vm_compute; reflexivity|]. split; [vm_compute; reflexivity|]. split; [split; [discriminate|reflexivity]|].
  split; intros [H|[H|H]]; discriminate.
Qed.
Example out_of_range_example : to Int32 7 (Ten Float32 [1%nat] [0x4F000000] 3 false false) = UB /\ to Int32 7 (Ten Float32 [1%nat] [0x7FC00000] 3 false false) = UB
  /\ to Int32 7 (Ten Float32 [1%nat] [0xCF000000] 3 false false) = Ok (Ten Int32 [1%nat] [-2147483648] 7 false false).
Proof. repeat split; vm_compute; reflexivity. Qed.
Example wraps_example : cell Int64 (2 ^ 32 + 5) /\ ~ cell Int32 (2 ^ 32 + 5) /\ cast Int64 Int32 (2 ^ 32 + 5) = Ok 5.
Proof. split; [split; [discriminate|reflexivity]|]. split; [cbn; lia|vm_compute; reflexivity]. Qed.
Example wider_example : has_too Float16 Float32 0x3E00 /\ has_too Bool BFloat16 200.
Proof. split; apply wider_types; try (split; [discriminate|reflexivity]); cbn [In]; auto 10. Qed.
Example bool_example : cell Int32 200 /\ value Int32 200 = Num (IZR 200).
Proof. split; [split; [discriminate|reflexivity]|reflexivity]. Qed.

Print Assumptions to_converts_partial.
Print Assumptions to_keeps.
Print Assumptions to_round_trip.
Print Assumptions wider_types.
Print Assumptions to_order_partial.
Print Assumptions to_sign.
Print Assumptions to_storage.
Print Assumptions toList_item_partial.
Print Assumptions fill_converts_partial.
Print Assumptions to_out_of_range_refuted.
Print Assumptions to_wraps_refuted.
Print Assumptions to_bf16_refuted.
Print Assumptions int_float_int_refuted.
Print Assumptions to_bool_refuted.
Print Assumptions to_bool_partial.
Print Assumptions to_gradient_refuted.
