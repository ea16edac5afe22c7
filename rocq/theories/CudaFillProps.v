(* C71: fills, masked fills, random fills and dropout on CUDA tensors. *)
From Coq Require Import List Arith ZArith Bool Lia.
From Verif Require Import ShapeModel ShapeSpec ShapeProofs TensorModel TensorSpec TensorLemmas
  BcastModel BcastSpec BcastProofs GpuModel GpuSpec GpuProofs CudaModel CudaSpec GpuLemmas CudaProofs CudaProps
  GpuOrder CudaFillModel CudaItems CudaFillProofs.
Import ListNotations.

(* ---- constant fills ---- *)

(* Whatever the schedule, every element of the tensor, and nothing else, gets
   the value. *)
Theorem cuda_fill_partial : forall V (v : V) sh self m,
  (0 < Z.of_nat (size sh) <= 2 ^ 32)%Z -> room m self (size sh) ->
  computes (fillCuda self v (Z.of_nat (size sh))) m self sh (fun _ => v).
Proof.
  intros V v sh self m HZ HR. rewrite size_numel in *. rewrite fillCuda_is.
  apply (computes_of V _ m self sh (fun _ => v) HR).
  apply (fill_range V v self m 0 (Z.of_nat (numel sh)) HZ).
  intros i Hi. apply (room_at V m self _ _ HR Hi).
Qed.

(* Filling count elements from offset on, with a value on the host or in device
   memory, changes those and no others. *)
Theorem cuda_fill_range_partial : forall V (v : V) self val n offset count m,
  (0 < count <= 2 ^ 32)%Z -> (0 <= offset)%Z -> (offset + count <= Z.of_nat n)%Z -> room m self n ->
  m (val, 0%Z) = Some (Some v) -> val <> self ->
  forall l, l = fillOffsetHostCuda self v offset count \/ l = fillOffsetCuda self val offset count ->
  always l m (fun m' => forall p i,
    m' (p, i) = if (p =? self)%nat && (offset <=? i)%Z && (i <? offset + count)%Z then Some (Some v) else m (p, i)).
Proof.
  intros V v self val n offset count m HC H0 HN HR Hv Hs l Hl.
  assert (HA : forall i, (0 <= i < count)%Z -> m (self, offset + i)%Z <> None) by (intros i Hi; apply (room_at V m self _ _ HR); lia).
  eapply always_mono.
  - destruct Hl as [->| ->].
    + apply (fill_range V v self m offset count HC HA).
    + apply (fill_range_device V v self val m offset count HC HA Hv). intros e. contradiction.
  - intros m' [H1 H2] p i. cbv beta in *.
    destruct (Nat.eqb_spec p self), (Z.leb_spec offset i), (Z.ltb_spec i (offset + count)); cbn [andb];
      try (apply H2; intros j Hj e'; injection e' as ? ?; (contradiction || lia)).
    subst p. specialize (H1 (i - offset)%Z ltac:(lia)). replace (offset + (i - offset))%Z with i in H1 by lia. exact H1.
Qed.

(* ---- masked fills ---- *)

Theorem cuda_fill_masked_partial : forall V truth (v : V) sh F M self mask out m,
  (0 < Z.of_nat (size sh) <= 2 ^ 32)%Z ->
  has m self sh F -> has m mask sh M -> room m out (size sh) ->
  exists l, fillMaskedCuda truth (mkD self sh) (mkD mask sh) v out = Ok (sh, l) /\
    fillMaskedOutCuda truth (mkD out sh) (mkD self sh) (mkD mask sh) v = Ok l /\
    computes l m out sh (fun idx => if truth (M idx) then v else F idx).
Proof.
  intros V truth v sh F M self mask out m HZ HF HM HR. rewrite size_numel in *.
  unfold fillMaskedCuda, fillMaskedOutCuda. cbn [dshape dbuf].
  assert (E : list_eqb sh sh = true) by (unfold list_eqb; destruct (list_eq_dec Nat.eq_dec sh sh); [reflexivity|contradiction]).
  rewrite E. eexists. split; [reflexivity|]. split; [reflexivity|]. apply fill_masked; auto.
Qed.

Theorem cuda_fill_masked_rejects_partial : forall V truth (v : V) self mask out o,
  dshape self <> dshape mask ->
  fillMaskedCuda truth self mask v out = Fail /\ fillMaskedOutCuda truth o self mask v = Fail.
Proof.
  intros V truth v self mask out o N. unfold fillMaskedCuda, fillMaskedOutCuda, list_eqb.
  destruct (list_eq_dec Nat.eq_dec (dshape mask) (dshape self)); [congruence|].
  destruct (list_eq_dec Nat.eq_dec (dshape self) (dshape mask)); [congruence|]. auto.
Qed.

(* The output given to the out version may have any shape: a shorter one is
   written beyond its end. *)
Theorem cuda_fill_masked_out_refuted :
  let m := mem_of [map Some [1; 2]; map Some [1; 1]; [None]] in
  exists l, fillMaskedOutCuda (fun c => c =? 1) (mkD 2 [1]) (mkD 0 [2]) (mkD 1 [2]) 9 = Ok l /\ may_crash l m.
Proof.
  cbv zeta. eexists. split; [reflexivity|].
  apply (fails_crash _ _ 0 1).
  - apply Nat.ltb_lt. vm_compute. reflexivity.
  - apply Nat.ltb_lt. vm_compute. reflexivity.
  - cbn [code fillMaskedDetail kernel1d]. change (gidx blockSize 0 1) with 1%Z. cbn [Z.ltb Z.compare Z.of_nat dshape].
    change (1 <? Z.of_nat (numel [2%nat]))%Z with true. cbv iota. eapply fails_ld_next; [reflexivity|].
    change (1 =? 1) with true. cbv iota. apply fails_st. reflexivity.
Qed.

(* ---- linspace, arange ---- *)

Theorem cuda_linspace_partial : forall V (add mul : V -> V -> V) cast start step n self m,
  (0 < Z.of_nat n <= 2 ^ 32)%Z -> room m self n ->
  exists l, fillLinSpaceCuda add mul cast (mkD self [n]) start step (Z.of_nat n) = Ok l /\
    computes l m self [n] (fun idx => add start (mul (cast (Z.of_nat (nth 0 idx 0))) step)).
Proof.
  intros V add mul cast start step n self m HZ HR. unfold fillLinSpaceCuda. cbn [dshape dbuf].
  assert (En : numel [n] = n) by (rewrite numel_cons, numel_nil; lia). rewrite En, Z.eqb_refl.
  eexists. split; [reflexivity|].
  rewrite <- En at 1. eapply always_mono.
  - apply (fill_lin V (fun i => add start (mul (cast i) step)) [n] self m); rewrite ?En; auto.
  - intros m' [H B]. split; [|exact B]. unfold has in *. erewrite map_ext_in; [exact H|].
    intros idx Hi. cbv beta. apply indices_in in Hi. inversion Hi as [|i d idx' sh' Hid Hi' E1 E2]; subst.
    inversion Hi'; subst. rewrite ravel_cons. cbn [nth]. rewrite numel_nil, ravel_nil. do 3 f_equal. lia.
Qed.
Theorem cuda_linspace_rejects_partial : forall V (add mul : V -> V -> V) cast start step self steps,
  Z.of_nat (size (dshape self)) <> steps -> fillLinSpaceCuda add mul cast self start step steps = Fail.
Proof.
  intros V add mul cast start step self steps N. rewrite size_numel in N. unfold fillLinSpaceCuda.
  destruct (Z.eqb_spec (Z.of_nat (numel (dshape self))) steps); [contradiction|reflexivity].
Qed.

(* ---- random fills ---- *)

(* Element i of a random fill is a function of the number drawn for position i:
   component i mod 4 of the four numbers at offset i - i mod 4 of the seed's
   sequence of that number; each fill takes the next sequence. *)
Theorem cuda_random_fill_partial : forall D V (draw : Z -> Z -> Z -> Z -> D) (conv : D -> V) sh self m seed seq,
  (0 < Z.of_nat (size sh) <= 2 ^ 32)%Z -> (0 <= seq < 2 ^ 64 - 1)%Z -> room m self (size sh) ->
  exists l, fillRandCuda draw conv self (Z.of_nat (size sh)) (mkCG seed seq) = (l, mkCG seed (seq + 1)) /\
    computes l m self sh (fun idx =>
      let i := Z.of_nat (ravel sh idx) in conv (draw seed seq (i - i mod 4) (i mod 4))%Z).
Proof.
  intros D V draw conv sh self m seed seq HZ HQ HR. rewrite size_numel in *. unfold fillRandCuda, nextSequence. cbn [gseed gseq].
  rewrite (Z.mod_small (seq + 1)) by lia. eexists. split; [reflexivity|].
  eapply always_mono; [apply (rand_fill D V draw conv sh self m seed seq HZ HR)|].
  intros m' [H B]. split; [|exact B]. unfold has in *. erewrite map_ext; [exact H|]. intros idx. cbv beta zeta.
  do 2 f_equal. pose proof (Z.div_mod (Z.of_nat (ravel sh idx)) 4). lia.
Qed.

(* When the generator is a stream of numbers addressed by position, element i
   is number i of it, whatever the size of the fill. *)
Theorem cuda_random_fill_stream_partial : forall D V (stream : Z -> Z -> Z -> D) draw (conv : D -> V) sh self m seed seq,
  (forall s q o k, draw s q o k = stream s q (o + k)%Z) ->
  (0 < Z.of_nat (size sh) <= 2 ^ 32)%Z -> room m self (size sh) ->
  computes (fst (fillRandCuda draw conv self (Z.of_nat (size sh)) (mkCG seed seq))) m self sh
    (fun idx => conv (stream seed seq (Z.of_nat (ravel sh idx)))).
Proof.
  intros D V stream draw conv sh self m seed seq HD HZ HR. rewrite size_numel in *.
  eapply always_mono; [apply (rand_fill D V draw conv sh self m seed seq HZ HR)|].
  intros m' [H B]. split; [|exact B]. unfold has in *. erewrite map_ext; [exact H|]. intros idx. cbv beta zeta.
  rewrite HD. do 2 f_equal. apply Z.div_mod. lia.
Qed.

(* manual_seed does not start the sequences again: seed, fill, the same seed,
   fill gives two different results, whenever the two sequences differ. *)
Theorem cuda_manual_seed_refuted : forall D V (draw : Z -> Z -> Z -> Z -> D) (conv : D -> V) s g self m,
  (0 <= gseq g < 2 ^ 64 - 1)%Z -> conv (draw s (gseq g) 0 0)%Z <> conv (draw s (gseq g + 1) 0 0)%Z ->
  room m self 1 ->
  let (l1, g1) := fillRandCuda draw conv self 1 (cudaSetSeed s g) in
  let (l2, g2) := fillRandCuda draw conv self 1 (cudaSetSeed s g1) in
  exists a b, a <> b /\ computes l1 m self [1] (fun _ => a) /\ computes l2 m self [1] (fun _ => b).
Proof.
  intros D V draw conv s [sd q] self m HQ N HR. cbn [gseq cudaSetSeed fillRandCuda nextSequence gseed] in *.
  rewrite (Z.mod_small (q + 1)) by lia.
  assert (H : forall q, computes (kFillRand draw conv self s q 1) m self [1] (fun _ => conv (draw s q 0 0)%Z)).
  { intros q'. eapply always_mono; [apply (rand_fill D V draw conv [1] self m s q')|].
    - split; reflexivity || discriminate.
    - exact HR.
    - intros m' H. exact H. }
  eexists _, _. split; [exact N|]. split; apply H.
Qed.

(* ---- dropout ---- *)

(* Each element is kept, divided by the probability of keeping it, when the
   number drawn for its position says so, and zero otherwise. *)
Theorem cuda_dropout_partial : forall D V (draw : Z -> Z -> Z -> Z -> D) kept (div : V -> V) zero_ sh F self out m seed seq,
  (0 < Z.of_nat (size sh) <= 2 ^ 32)%Z -> (0 <= seq < 2 ^ 64 - 1)%Z ->
  has m self sh F -> room m out (size sh) -> out <> self ->
  exists l, dropoutCuda draw kept div zero_ (mkD self sh) out (mkCG seed seq) = (sh, l, mkCG seed (seq + 1)) /\
    computes l m out sh (fun idx =>
      let i := Z.of_nat (ravel sh idx) in
      if kept (draw seed seq (i - i mod 4) (i mod 4))%Z then div (F idx) else zero_).
Proof.
  intros D V draw kept div zero_ sh F self out m seed seq HZ HQ HF HR N. rewrite size_numel in *.
  unfold dropoutCuda, nextSequence. cbn [gseed gseq dshape dbuf]. rewrite (Z.mod_small (seq + 1)) by lia.
  eexists. split; [reflexivity|].
  eapply always_mono; [apply (dropout_ok D V draw kept div zero_ sh F self out m seed seq HZ HF HR N)|].
  intros m' [H B]. split; [|exact B]. unfold has in *. erewrite map_ext; [exact H|]. intros idx. cbv beta zeta.
  pose proof (Z.div_mod (Z.of_nat (ravel sh idx)) 4 ltac:(lia)).
  replace (Z.of_nat (ravel sh idx) - Z.of_nat (ravel sh idx) mod 4)%Z with (4 * (Z.of_nat (ravel sh idx) / 4))%Z by lia. reflexivity.
Qed.

(* With a given mask, dropout is the scaled product. *)
Theorem cuda_dropout_masked_partial : forall V (scale : V -> V -> V) zero_ sh F M self mask out m,
  positive sh -> (Z.of_nat (size sh) <= 2 ^ 32)%Z ->
  has m self sh F -> has m mask sh M -> room m out (size sh) -> out <> self -> out <> mask ->
  exists l, dropoutMaskedCuda scale zero_ (mkD self sh) (mkD mask sh) out = Ok (sh, l) /\
    computes l m out sh (fun idx => scale (F idx) (M idx)).
Proof.
  intros V scale zero_ sh F M self mask out m HP HZ HF HM HR N1 N2.
  destruct (cuda_elementwise_partial V (fun vs => match vs with [a; b] => scale a b | _ => zero_ end)
              [(mkD self sh, F); (mkD mask sh, M)] sh out m) as (l & E & _ & C).
  - cbn. repeat constructor; exact HP.
  - apply broadcastShape_iff; [cbn; repeat constructor; exact HP|]. cbn [map fst dshape].
    apply broadcastShape_iff; [cbn; repeat constructor; exact HP|]. split; [cbn; lia|].
    intros p Hp. split.
    + intros s [<-|[<-|[]]]; auto.
    + right. exists sh. split; [left; reflexivity|reflexivity].
  - exact HZ.
  - intros o [<-|[<-|[]]]; assumption.
  - exact HR.
  - intros o [<-|[<-|[]]] e; cbn in *; congruence.
  - exists l. split; [exact E|]. eapply always_mono; [exact C|]. intros m' [H B]. split; [|exact B].
    unfold has in *. erewrite map_ext_in; [exact H|]. intros idx Hi. apply indices_in in Hi.
    cbn [map fst snd dshape]. rewrite bidx_same by exact Hi. reflexivity.
Qed.

(* Not for empty tensors: filling one aborts; and beyond 2^32 elements the rest
   is never written. *)
Theorem cuda_fill_empty_refuted : forall V (v : V) self m Q, ~ always (fillCuda self v 0) m Q.
Proof. intros V v self m Q [[H _] _]. cbn in H. lia. Qed.
Theorem cuda_fill_large_refuted : forall V (v : V) self n m s,
  reach (fillCuda self v n) (start (fillCuda self v n) m) s -> mem s (self, 2 ^ 32)%Z = m (self, 2 ^ 32)%Z.
Proof.
  intros V v self n m s R.
  apply (untouched (fillCuda self v n) m (fun a => snd a < 2 ^ 32)%Z) in R as [_ R]; [apply R; cbn; lia|].
  intros b t. cbn [code fillCuda kernel4]. unfold each4.
  assert (B : forall x, (x mod 2 ^ 32 < 2 ^ 32)%Z) by (intros; apply Z.mod_pos_bound; lia).
  repeat match goal with |- context [if ?c then _ else _] => destruct c end;
    repeat (constructor; [apply B|]); constructor.
Qed.

(* Five elements, two of them masked, a generator that counts. *)
Example cuda_fill_ex :
  let m := mem_of [map Some [1; 2; 3; 4; 5]%Z; map Some [1; 0; 0; 1; 0]%Z; repeat None 5] in
  has m 0 [5] (fun idx => Z.of_nat (nth 0 idx 0 + 1)) /\
  has m 1 [5] (fun idx => match idx with [0] => 1%Z | [3] => 1%Z | _ => 0%Z end) /\
  room m 2 (size [5]) /\ (0 < Z.of_nat (size [5%nat]) <= 2 ^ 32)%Z /\
  (fun d : Z => d) ((fun s q o k => 100 * q + o + k) 7 3 0 0)%Z <> ((fun s q o k => 100 * q + o + k) 7 (3 + 1) 0 0)%Z.
Proof.
  cbv zeta. split; [|split; [|split; [|split]]].
  - apply holds_of. reflexivity.
  - apply holds_of. reflexivity.
  - apply room_of; reflexivity.
  - change (size [5]) with 5. lia.
  - discriminate.
Qed.

Print Assumptions cuda_fill_partial.
Print Assumptions cuda_fill_range_partial.
Print Assumptions cuda_fill_masked_partial.
Print Assumptions cuda_fill_masked_rejects_partial.
Print Assumptions cuda_fill_masked_out_refuted.
Print Assumptions cuda_linspace_partial.
Print Assumptions cuda_linspace_rejects_partial.
Print Assumptions cuda_random_fill_partial.
Print Assumptions cuda_random_fill_stream_partial.
Print Assumptions cuda_manual_seed_refuted.
Print Assumptions cuda_dropout_partial.
Print Assumptions cuda_dropout_masked_partial.
Print Assumptions cuda_fill_empty_refuted.
Print Assumptions cuda_fill_large_refuted.
