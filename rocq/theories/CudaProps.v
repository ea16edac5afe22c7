(* C70: element-wise operations on CUDA tensors. *)
From Coq Require Import List Arith ZArith Bool Lia.
From Verif Require Import ShapeModel ShapeSpec ShapeProofs TensorModel TensorSpec TensorLemmas
  BcastModel BcastSpec BcastProofs GpuModel GpuSpec GpuProofs CudaModel CudaSpec GpuLemmas CudaProofs.
Import ListNotations.

(* Operands of any shapes without zero sizes that broadcast to sh, up to 2^32
   elements: whatever the schedule, element idx of the output is f of the
   elements the broadcasting rule selects, and nothing else changes.  The
   output is a fresh buffer or one of the operands of the result's shape. *)
Theorem cuda_elementwise_partial : forall V (f : list V -> V) (ops : list (dtensor * (list nat -> V))) sh out m,
  Forall positive (map (fun o => dshape (fst o)) ops) ->
  is_broadcast (map (fun o => dshape (fst o)) ops) sh ->
  (Z.of_nat (size sh) <= 2 ^ 32)%Z ->
  (forall o, In o ops -> has m (dbuf (fst o)) (dshape (fst o)) (snd o)) ->
  room m out (size sh) ->
  (forall o, In o ops -> dbuf (fst o) = out -> dshape (fst o) = sh) ->
  exists l, elementwiseCuda f (map fst ops) out = Ok (sh, l) /\
    elementwiseOutCuda f (map fst ops) (mkD out sh) = Ok l /\
    computes l m out sh (fun idx => f (map (fun o => snd o (bidx (dshape (fst o)) idx)) ops)).
Proof.
  intros V f ops sh out m HP HB HZ HH HR HO. rewrite size_numel in HZ, HR.
  rewrite <- (map_map fst dshape) in HP, HB.
  exists (forEachCuda f (map fst ops) sh out).
  unfold elementwiseCuda, elementwiseOutCuda. rewrite (proj2 (broadcastShape_iff _ _ HP) HB). cbn [dshape dbuf].
  split; [reflexivity|]. split.
  - unfold list_eqb. destruct (list_eq_dec Nat.eq_dec sh sh); [reflexivity|contradiction].
  - apply (each_ok f ops sh out m HP HB HZ HR HH HO).
Qed.

(* The launch leaves what the CPU operation returns. *)
Theorem cuda_elementwise_as_cpu_partial : forall V (f : list V -> V) (ops : list (dtensor * (list nat -> V))) sh out m,
  Forall positive (map (fun o => dshape (fst o)) ops) ->
  is_broadcast (map (fun o => dshape (fst o)) ops) sh ->
  (Z.of_nat (size sh) <= 2 ^ 32)%Z ->
  (forall o, In o ops -> has m (dbuf (fst o)) (dshape (fst o)) (snd o)) ->
  room m out (size sh) ->
  (forall o, In o ops -> dbuf (fst o) <> out) ->
  exists l t, elementwiseCuda f (map fst ops) out = Ok (tshape t, l) /\
    elementwise f (map (fun o => tensor_of (dshape (fst o)) (snd o)) ops) = Ok t /\
    always l m (fun m' => holds m' out (tdata t) /\ same_but out m m').
Proof.
  intros V f ops sh out m HP HB HZ HH HR HO.
  destruct (cuda_elementwise_partial V f ops sh out m HP HB HZ HH HR) as (l & E & _ & C).
  { intros o Ho e. exfalso. apply (HO o Ho e). }
  exists l, (tensor_of sh (fun idx => f (map (fun o => snd o (bidx (dshape (fst o)) idx)) ops))).
  split; [exact E|]. split; [|exact C].
  pose proof (elementwise_correct f (map (fun o => (dshape (fst o), snd o)) ops) sh) as H.
  rewrite !map_map in H. cbn [fst snd] in H. rewrite H; auto.
  - f_equal. apply tensor_of_ext. intros idx _. rewrite map_map. reflexivity.
  - apply broadcastShape_iff; auto.
Qed.

(* Operands that do not broadcast, or not to the given output, are rejected. *)
Theorem cuda_elementwise_rejects_partial : forall V (f : list V -> V) ds out,
  Forall positive (map dshape ds) ->
  ((~ exists sh, is_broadcast (map dshape ds) sh) -> elementwiseCuda f ds out = Fail) /\
  (forall o, ~ is_broadcast (map dshape ds) (dshape o) -> elementwiseOutCuda f ds o = Fail).
Proof.
  intros V f ds out HP. unfold elementwiseCuda, elementwiseOutCuda. split.
  - intros N. destruct (broadcastShape (map dshape ds)) as [sh|] eqn:E; [|reflexivity].
    exfalso. apply N. exists sh. apply broadcastShape_iff; auto.
  - intros o N. destruct (broadcastShape (map dshape ds)) as [sh|] eqn:E; [|reflexivity].
    unfold list_eqb. destruct (list_eq_dec Nat.eq_dec sh (dshape o)) as [->|]; [|reflexivity].
    exfalso. apply N, broadcastShape_iff; auto.
Qed.

(* Unary operations, out of place, in place, and their gradients. *)
Theorem cuda_unary_partial : forall V (f : V -> V) sh F self out m,
  (0 < Z.of_nat (size sh) <= 2 ^ 32)%Z ->
  has m self sh F -> room m out (size sh) ->
  computes (unaryCuda f self out (Z.of_nat (size sh))) m out sh (fun idx => f (F idx)).
Proof.
  intros V f sh F self out m HZ HH HR. rewrite size_numel in *.
  apply (gathers V _ m out sh _ (fun i => Ld (self, i) (fun v => St (out, i) (f v) Done))
           (fun idx => [(self, Z.of_nat (ravel sh idx))]) (fun idx => [F idx])
           (fun i vs => match vs with [v] => St (out, i) (f v) Done | _ => Trap end)); auto.
  - apply kernel1d_is.
  - intros idx Hv. constructor; [|constructor]. apply has_at; auto.
  - intros idx a Hv [<-|[]] E. cbn in E. congruence.
Qed.
Theorem cuda_unary_inplace_partial : forall V (f : V -> V) sh F self m,
  (0 < Z.of_nat (size sh) <= 2 ^ 32)%Z -> has m self sh F ->
  computes (unaryInplaceCuda f self (Z.of_nat (size sh))) m self sh (fun idx => f (F idx)).
Proof.
  intros V f sh F self m HZ HH. apply (cuda_unary_partial V f sh F self self m HZ HH).
  rewrite size_numel. apply (has_room V m self sh F HH).
Qed.
Theorem cuda_unary_backward_partial : forall V (f : V -> V -> V) sh F G self grad out m,
  (0 < Z.of_nat (size sh) <= 2 ^ 32)%Z ->
  has m self sh F -> has m grad sh G -> room m out (size sh) ->
  computes (unaryBackwardCuda f self grad out (Z.of_nat (size sh))) m out sh (fun idx => f (F idx) (G idx)).
Proof.
  intros V f sh F G self grad out m HZ HF HG HR. rewrite size_numel in *.
  apply (gathers V _ m out sh _ (fun i => loads [(self, i); (grad, i)] (fun vs =>
             match vs with [a; g] => St (out, i) (f a g) Done | _ => Trap end))
           (fun idx => [(self, Z.of_nat (ravel sh idx)); (grad, Z.of_nat (ravel sh idx))]) (fun idx => [F idx; G idx])
           (fun i vs => match vs with [a; g] => St (out, i) (f a g) Done | _ => Trap end)); auto.
  - apply kernel1d_is.
  - intros idx Hv. repeat (constructor; [apply has_at; auto|]). constructor.
  - intros idx a Hv [<-|[<-|[]]] E; cbn in E; congruence.
Qed.

(* Not for empty tensors: the launch of no block is refused, and the process
   aborts, while the CPU operation returns an empty tensor. *)
Theorem cuda_unary_empty_refuted : forall V (f : V -> V) self out m (F : list nat -> V),
  ~ accepted (unaryCuda f self out (Z.of_nat (size [0]))) /\
  (forall Q, ~ always (unaryCuda f self out (Z.of_nat (size [0]))) m Q) /\
  unary f (tensor_of [0] F) = Some (tensor_of [0] (fun idx => f (F idx))).
Proof.
  intros V f self out m F.
  assert (N : ~ accepted (unaryCuda f self out (Z.of_nat (size [0])))).
  { intros [H _]. cbn in H. lia. }
  split; [exact N|]. split; [|apply unary_correct].
  intros Q [H _]. apply N, H.
Qed.

(* Nor beyond 2^32 elements: under no schedule is element 2^32 of the output
   ever written. *)
Theorem cuda_unary_large_refuted : forall V (f : V -> V) self out n m s,
  reach (unaryCuda f self out n) (start (unaryCuda f self out n) m) s ->
  mem s (out, 2 ^ 32)%Z = m (out, 2 ^ 32)%Z.
Proof.
  intros V f self out n m s R.
  apply (untouched (unaryCuda f self out n) m (fun a => snd a < 2 ^ 32)%Z) in R as [_ R]; [apply R; cbn; lia|].
  intros b t. cbn [code unaryCuda kernel1d]. cbv zeta.
  destruct (gidx blockSize b t <? n)%Z; constructor. intros v. constructor; [|constructor].
  cbn [snd]. apply Z.mod_pos_bound. lia.
Qed.

(* [[1,2,3],[4,5,6]] + [10,20,30] into a fresh buffer, and in place. *)
Example cuda_elementwise_ex :
  let m := mem_of [map Some [1; 2; 3; 4; 5; 6]; map Some [10; 20; 30]; repeat None 6] in
  let ops := [(mkD 0 [2; 3], fun idx => match idx with [i; j] => 3 * i + j + 1 | _ => 0 end);
              (mkD 1 [3], fun idx => match idx with [j] => 10 * j + 10 | _ => 0 end)] in
  Forall positive (map (fun o => dshape (fst o)) ops) /\
  is_broadcast (map (fun o => dshape (fst o)) ops) [2; 3] /\
  (forall o, In o ops -> has m (dbuf (fst o)) (dshape (fst o)) (snd o)) /\
  room m 2 (size [2; 3]) /\ room m 0 (size [2; 3]) /\
  (forall o, In o ops -> dbuf (fst o) = 0 -> dshape (fst o) = [2; 3]).
Proof.
  cbv zeta. split; [repeat constructor|]. split; [|split; [|split; [|split]]].
  - apply broadcastShape_iff; [repeat constructor|reflexivity].
  - intros o [<-|[<-|[]]]; apply holds_of; reflexivity.
  - apply room_of; reflexivity.
  - apply room_of; reflexivity.
  - intros o [<-|[<-|[]]] E; cbn in *; congruence.
Qed.
(* Three elements: the hypotheses of the unary theorems. *)
Example cuda_unary_ex :
  let m := mem_of [map Some [1; 2; 3]; map Some [7; 8; 9]; repeat None 3] in
  has m 0 [3] (fun idx => match idx with [i] => i + 1 | _ => 0 end) /\
  has m 1 [3] (fun idx => match idx with [i] => i + 7 | _ => 0 end) /\
  room m 2 (size [3]) /\ (0 < Z.of_nat (size [3%nat]) <= 2 ^ 32)%Z.
Proof.
  cbv zeta. split; [|split; [|split]].
  - apply holds_of. reflexivity.
  - apply holds_of. reflexivity.
  - apply room_of; reflexivity.
  - change (size [3]) with 3. lia.
Qed.

Print Assumptions cuda_elementwise_partial.
Print Assumptions cuda_elementwise_as_cpu_partial.
Print Assumptions cuda_elementwise_rejects_partial.
Print Assumptions cuda_unary_partial.
Print Assumptions cuda_unary_inplace_partial.
Print Assumptions cuda_unary_backward_partial.
Print Assumptions cuda_unary_empty_refuted.
Print Assumptions cuda_unary_large_refuted.
