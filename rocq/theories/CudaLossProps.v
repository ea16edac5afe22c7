(* C99: losses of CUDA tensors. *)
From Coq Require Import List Arith ZArith Bool Lia Reals Lra.
From Verif Require Import ShapeModel ShapeSpec TensorModel TensorSpec BcastModel BcastSpec BufModel CutModel CutSpec IndexModel IndexSpec
  ReduceModel ReduceSpec GradModel GradSpec LossModel LossSpec LossProofs LossProps
  GpuModel GpuSpec GpuProofs GpuLemmas CudaModel CudaSpec CudaProofs CudaProps CudaFillModel CudaFillProps
  CudaMoveModel CudaReduceModel CudaReduceSpec CudaReduceProofs3 CudaReduceProps CudaMeanModel CudaMeanProofs CudaLossModel CudaLossSpec CudaLossProofs CudaLossProofs2 CudaLossProofs3.
Import ListNotations.
Local Open Scope nat_scope.

(* ---- mean squared error ---- *)

(* The terms, their mean or their sum, under every schedule; the result is the
   first buffer or that of the mean, and nothing but the buffers given changes. *)
Theorem mse_cuda_value_partial : forall sh1 sh2 sh (F G : list nat -> R) red m p q out mo mt ms,
  positive sh1 -> positive sh2 -> is_broadcast [sh1; sh2] sh ->
  (Z.of_nat (size sh) <= 2 ^ 32)%Z -> (red <> NONE -> size sh <= 512 * 512) ->
  has m p sh1 F -> has m q sh2 G -> room m out (size sh) -> room m mo 1 -> room m mt ((size sh + 511) / 512) -> room m ms 1 ->
  NoDup [out; mo; mt; ms] -> p <> out -> q <> out ->
  let L := reduced_loss red sh (fun o => (F (bidx sh1 o) - G (bidx sh2 o)) ^ 2)%R in
  exists b ls, mseLossCuda (mkD p sh1) (mkD q sh2) red out mo mt ms = Ok (mkD b (tshape L), ls) /\ In b [out; mo] /\
    always_all ls m (fun m' => holds m' b (tdata L) /\ same_out [out; mo; mt; ms] m m').
Proof. exact mse_cuda. Qed.
Theorem mse_cuda_rejects_partial : forall a b red out mo mt ms, positive (dshape a) -> positive (dshape b) ->
  (~ exists sh, is_broadcast [dshape a; dshape b] sh) -> mseLossCuda a b red out mo mt ms = Fail.
Proof.
  intros a b red out mo mt ms Ha Hb H. unfold mseLossCuda.
  rewrite (proj1 (cuda_elementwise_rejects_partial R _ [a; b] out ltac:(repeat constructor; auto))); auto.
Qed.
(* The gradient, for every incoming gradient, under every schedule, as long as
   the target is not the larger of the two. *)
Theorem mse_cuda_gradient_partial : forall sh tsh (F G H : list nat -> R) red m p q g out s,
  positive sh -> positive tsh -> is_broadcast [sh; tsh] sh -> (Z.of_nat (size sh) <= 2 ^ 32)%Z ->
  has m p sh F -> has m q tsh G -> holds m g (tdata (loss_grad red sh H)) -> room m out (size sh) -> room m s 1 ->
  s <> out -> p <> out -> q <> out -> g <> out ->
  exists t ls, mseBackwardCuda (mkD g (tshape (loss_grad red sh H))) (mkD p sh) (mkD q tsh) red out s = Ok (mkD out (tshape t), ls) /\
    is_gradient (fun x => mseLoss x (tensor_of tsh G) red) sh F (loss_grad red sh H) (Ok t) /\
    always_all ls m (fun m' => holds m' out (tdata t) /\ same_out [out; s] m m').
Proof.
  intros sh tsh F G H red m p q g out s P1 P2 HB HZ HF HG HH HO HS N1 N2 N3 N4.
  destruct (mse_backward_cuda sh tsh F G H red m p q g out s P1 P2 HB HZ HF HG HH HO HS N1 N2 N3 N4) as (t & ls & E & E' & C).
  exists t, ls. split; [exact E|]. split; [|exact C]. rewrite <- E'. apply mse_gradient_partial; auto.
Qed.
(* A target larger than the input: the gradient has the target's shape. *)
Theorem mse_cuda_gradient_refuted : forall g red out s, dshape g = [] \/ dshape g = [2] ->
  exists ls, mseBackwardCuda g (mkD 0 [1]) (mkD 1 [2]) red out s = Ok (mkD out [2], ls).
Proof. intros [gb gs] red out s [E | E]; cbn in E; subst gs; destruct red; eexists; reflexivity. Qed.

(* ---- negative log likelihood ----
   T b is the class that target t b names for row b (a negative target counts
   from the end). *)

Theorem nll_cuda_value_partial : forall B C rest (F : list nat -> R) t T red (m : addr -> cell (word R)) p q idx out s mo mt ms,
  (forall b, b < B -> dim_is C (t [b]) (T b)) ->
  (0 < Z.of_nat (size (B :: rest)) <= 2 ^ 32)%Z -> (red <> NONE -> size (B :: rest) <= 512 * 512) ->
  has m p (B :: C :: rest) (fun o => El (F o)) -> has m q [B] (fun o => Ix (t o)) ->
  room m idx B -> room m out (size (B :: rest)) -> room m s 1 -> room m mo 1 -> room m mt ((size (B :: rest) + 511) / 512) -> room m ms 1 ->
  NoDup [idx; out; s; mo; mt; ms] -> ~ In p [idx; out] -> ~ In q [idx; out] ->
  let L := reduced_loss red (B :: rest) (fun o => - F (nth 0 o 0%nat :: T (nth 0 o 0%nat) :: skipn 1 o))%R in
  exists b ls, nllLossCuda (mkD p (B :: C :: rest)) (mkD q [B]) red idx out s mo mt ms = Ok (mkD b (tshape L), ls) /\ In b [out; mo] /\
    always_all ls m (fun m' => holds m' b (map El (tdata L)) /\ same_out [idx; out; s; mo; mt; ms] m m').
Proof. intros B C rest F t T red m p q idx out s mo mt ms HT. exact (nll_cuda B C rest t T HT F red m p q idx out s mo mt ms). Qed.
Theorem nll_cuda_rejects : forall grad input target red idx out v s mo mt ms, length (dshape target) <> 1 ->
  nllLossCuda input target red idx out s mo mt ms = Fail /\ nllBackwardCuda grad input target red idx out v s = Fail.
Proof.
  intros grad input target red idx out v s mo mt ms H. unfold nllLossCuda, nllBackwardCuda.
  destruct (Nat.eqb_spec (length (dshape target)) 1) as [E|]; [destruct (H E)|]. auto.
Qed.
(* For a matrix of log probabilities the gradient is right, under every schedule,
   if and only if the incoming gradient is 1: its buffer is not read. *)
Theorem nll_cuda_gradient_partial : forall B C (F : list nat -> R) t T red H (m : addr -> cell (word R)) g p q idx out v s,
  (forall b, b < B -> dim_is C (t [b]) (T b)) -> (0 < Z.of_nat (size [B; C]) <= 2 ^ 32)%Z -> has m q [B] (fun o => Ix (t o)) ->
  room m idx B -> room m out (size [B; C]) -> room m v 1 -> room m s 1 -> NoDup [idx; out; v; s] -> ~ In q [idx; out; v] ->
  exists u ls, nllBackwardCuda g (mkD p [B; C]) (mkD q [B]) red idx out v s = Ok (mkD out (tshape u), ls) /\
    always_all ls m (fun m' => holds m' out (map El (tdata u)) /\ same_out [idx; out; v; s] m m') /\
    (is_gradient (fun x => nllLoss x (tensor_of [B] t) red) [B; C] F (loss_grad red [B] H) (Ok u)
     <-> match red with NONE => forall b, b < B -> H [b] = 1%R | _ => H [] = 1%R end).
Proof.
  intros B C F t T red H m g p q idx out v s HT HZ HG RI RO RV RS ND NQ.
  destruct (nll_backward_cuda B C t T red m g p q idx out v s HT HZ HG RI RO RV RS ND NQ) as (ls & E & K).
  exists (tensor_of [B; C] (fun o => if T (nth 0 o 0) =? nth 1 o 0 then match red with MEAN => - (1) / INR B | _ => - (1) end%R else 0%R)), ls.
  split; [exact E|]. split.
  - eapply always_all_mono; [|exact K]. intros m' (A1 & A2). split; [|exact A2]. unfold has in A1. cbn [tdata tensor_of]. rewrite map_map. exact A1.
  - rewrite <- (nll_backward_of B C F t T red (loss_grad red [B] H) HT). apply nll_gradient_partial with (T := T); auto.
    apply Nat.neq_0_lt_0. intros ->. cbn in HZ. lia.
Qed.
(* The loss is thus the one of the host (C51), element by element. *)
Theorem nll_cuda_as_host_partial : forall B C rest (F : list nat -> R) t T red (m : addr -> cell (word R)) p q idx out s mo mt ms,
  (forall b, b < B -> dim_is C (t [b]) (T b)) ->
  (0 < Z.of_nat (size (B :: rest)) <= 2 ^ 32)%Z -> (red <> NONE -> size (B :: rest) <= 512 * 512) ->
  has m p (B :: C :: rest) (fun o => El (F o)) -> has m q [B] (fun o => Ix (t o)) ->
  room m idx B -> room m out (size (B :: rest)) -> room m s 1 -> room m mo 1 -> room m mt ((size (B :: rest) + 511) / 512) -> room m ms 1 ->
  NoDup [idx; out; s; mo; mt; ms] -> ~ In p [idx; out] -> ~ In q [idx; out] ->
  exists L b ls, nllLoss (tensor_of (B :: C :: rest) F) (tensor_of [B] t) red = Ok L /\
    nllLossCuda (mkD p (B :: C :: rest)) (mkD q [B]) red idx out s mo mt ms = Ok (mkD b (tshape L), ls) /\
    always_all ls m (fun m' => holds m' b (map El (tdata L))).
Proof.
  intros B C rest F t T red m p q idx out s mo mt ms HT HZ HL HF HG R1 R2 R3 R4 R5 R6 ND NP NQ.
  destruct (nll_cuda_value_partial B C rest F t T red m p q idx out s mo mt ms HT HZ HL HF HG R1 R2 R3 R4 R5 R6 ND NP NQ) as (b & ls & E & _ & K).
  eexists _, b, ls. split; [apply (nll_value_partial B C rest F t T red HT)|split; [exact E|]].
  - rewrite size_numel in HZ. lia.
  - eapply always_all_mono; [|exact K]. intros m' (A & _). exact A.
Qed.
(* Not for an empty batch: the first kernel cannot be launched. *)
Theorem nll_cuda_empty_refuted : forall p q C rest red idx out s mo mt ms m Q u ls,
  nllLossCuda (mkD p (0 :: C :: rest)) (mkD q [0]) red idx out s mo mt ms = Ok (u, ls) -> ~ always_all ls m Q.
Proof.
  intros p q C rest red idx out s mo mt ms m Q u ls E K. unfold nllLossCuda in E. cbn [dshape length Nat.eqb negb] in E.
  destruct (arangeCuda idx 0) as [| |l1] eqn:E1; cbn [rbind] in E; try discriminate E.
  destruct (indexAdvanceCuda _ _ out) as [| |[sh l2]]; cbn [rbind] in E; try discriminate E.
  destruct (byScalarCuda _ _ _ s) as [| |ls3]; cbn [rbind] in E; try discriminate E.
  destruct (reduceLossCuda _ _ mo mt ms) as [| |[u' ls4]]; cbn [rbind] in E; try discriminate E.
  injection E as _ <-. unfold arangeCuda, fillLinSpaceCuda in E1. cbn in E1. injection E1 as <-. cbn [always_all] in K. destruct K as [[K _] _]. cbn in K. lia.
Qed.

(* ---- the hypotheses can be met ---- *)

Local Open Scope R_scope.

Example mse_cuda_ex : let m := mem_of [map Some [1; 2; 3; 4; 5; 6]; map Some [1; 1; 1]; repeat None 6; [None]; [None]; [None]] in
  exists b ls, mseLossCuda (mkD 0 [2; 3]%nat) (mkD 1 [3]%nat) MEAN 2 3 4 5 = Ok (mkD b [], ls) /\ always_all ls m (fun m' => m' (b, 0%Z) = Some (Some (55 / 6))).
Proof.
  cbv zeta. set (m := mem_of _).
  destruct (mse_cuda_value_partial [2; 3]%nat [3]%nat [2; 3]%nat (fun idx => nth (nth 0 idx 0 * 3 + nth 1 idx 0)%nat [1; 2; 3; 4; 5; 6] 0) (fun _ => 1) MEAN m 0 1 2 3 4 5) as (b & ls & E & _ & C);
    try (apply holds_of; reflexivity); try (apply room_of; reflexivity); try discriminate; try apply mse_case.
  - repeat constructor.
  - intros _. apply Nat.leb_le. reflexivity.
  - repeat constructor; cbn [In]; lia.
  - exists b, ls. split; [exact E|]. eapply always_all_mono; [|exact C]. intros m' [A _]. rewrite (A 0%Z). cbn. do 2 f_equal. unfold average, sum. cbn. lra.
Qed.

Example nll_cuda_ex : let m := mem_of [map (fun x => Some (El x)) [1; 2; 3; 4; 5; 6]; [Some (Ix 2%Z); Some (Ix (-3)%Z)]; repeat None 2; repeat None 2; [None]; [None]; [None]; [None]] in
  exists b ls, nllLossCuda (mkD 0 [2; 3]%nat) (mkD 1 [2]%nat) SUM 2 3 4 5 6 7 = Ok (mkD b [], ls) /\ always_all ls m (fun m' => m' (b, 0%Z) = Some (Some (El (-7)))).
Proof.
  cbv zeta. set (m := mem_of _).
  destruct (nll_cuda_value_partial 2 3 [] (fun idx => nth (nth 0 idx 0 * 3 + nth 1 idx 0)%nat [1; 2; 3; 4; 5; 6] 0) (fun o => if (nth 0 o 0 =? 0)%nat then 2%Z else (-3)%Z) (fun b => if (b =? 0)%nat then 2%nat else 0%nat) SUM m 0 1 2 3 4 5 6 7) as (b & ls & E & _ & C);
    try (apply holds_of; reflexivity); try (apply room_of; reflexivity); try discriminate.
  - intros [|[|b]] Hb; [| |lia]; split; cbn; lia.
  - split; [reflexivity|discriminate].
  - intros _. apply Nat.leb_le. reflexivity.
  - repeat constructor; cbn [In]; lia.
  - cbn [In]. lia.
  - cbn [In]. lia.
  - exists b, ls. split; [exact E|]. eapply always_all_mono; [|exact C]. intros m' [A _]. rewrite (A 0%Z). cbn. do 3 f_equal. unfold sum. cbn. lra.
Qed.

Print Assumptions mse_cuda_value_partial.
Print Assumptions mse_cuda_rejects_partial.
Print Assumptions mse_cuda_gradient_partial.
Print Assumptions mse_cuda_gradient_refuted.
Print Assumptions nll_cuda_value_partial.
Print Assumptions nll_cuda_rejects.
Print Assumptions nll_cuda_gradient_partial.
Print Assumptions nll_cuda_as_host_partial.
Print Assumptions nll_cuda_empty_refuted.
