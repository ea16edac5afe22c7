(* Losses of CUDA tensors. *)
From Coq Require Import List Arith ZArith Bool Lia Reals Lra.
From Verif Require Import ShapeModel ShapeSpec ShapeProofs TensorModel TensorSpec TensorLemmas BcastModel BcastSpec BcastProofs BcastProofs2 BufModel BufProofs CutModel CutSpec IndexModel IndexSpec
  ReduceModel ReduceSpec ReduceProofs ReduceProofs2 GradModel GradSpec GradProofs AttnProofs2 AdvModel AdvSpec LossModel LossSpec LossProofs LossProps
  GpuModel GpuSpec GpuProofs GpuLemmas GpuOrder CudaModel CudaSpec CudaProofs CudaProps CudaFillModel CudaItems CudaFillProofs CudaFillProps
  CudaMoveModel CudaMoveProps CudaReduceModel CudaReduceSpec CudaReduceProofs3 CudaReduceProps CudaMeanModel CudaMeanProofs CudaLossModel CudaLossSpec CudaLossProofs.
Import ListNotations.
Local Open Scope nat_scope.


Definition scalarCode (f : R -> R -> R) (vs : list R) : R := f (nth 0 vs 0%R) (nth 1 vs 0%R).
Lemma by_scalar_is f b sh r s : positive sh ->
  byScalarCuda f (mkD b sh) r s = Ok [fillCuda s r 1; forEachCuda (scalarCode f) [mkD b sh; mkD s []] sh b].
Proof.
  intros P. unfold byScalarCuda, elementwiseOutCuda. cbn [map dshape dbuf].
  rewrite (proj2 (broadcastShape_iff _ _ (Forall_cons sh P (Forall_cons [] (Forall_nil _) (Forall_nil _)))) (scalar_fits sh P)).
  unfold list_eqb. destruct (list_eq_dec Nat.eq_dec sh sh); [reflexivity|contradiction].
Qed.
Lemma by_scalar_ok f m b sh (F : list nat -> R) r s : (0 < Z.of_nat (numel sh) <= 2 ^ 32)%Z -> s <> b -> has m b sh F -> room m s 1 ->
  exists ls, byScalarCuda f (mkD b sh) r s = Ok ls /\ always_all ls m (fun m' => has m' b sh (fun idx => f (F idx) r) /\ same_out [b; s] m m').
Proof.
  intros HZ N HF HS. assert (P : positive sh) by (apply positive_of; lia). rewrite (by_scalar_is f b sh r s P). eexists. split; [reflexivity|].
  cbn [always_all]. eapply always_mono; [apply (cuda_fill_partial R r [] s m); [cbn; lia|exact HS]|].
  intros m1 [H1 S1].
  destruct (cuda_elementwise_partial R (scalarCode f) [(mkD b sh, F); (mkD s [], fun _ => r)] sh b m1) as (l & _ & E & C).
  - cbn [map fst dshape]. repeat constructor. exact P.
  - cbn [map fst dshape]. apply scalar_fits, P.
  - rewrite size_numel. lia.
  - intros o [<-|[<-|[]]]; [|exact H1]. apply (has_same m); [exact HF|]. intros i. apply S1. cbn. congruence.
  - rewrite size_numel. apply (has_room R m1 b sh F). apply (has_same m); [exact HF|]. intros i. apply S1. congruence.
  - intros o [<-|[<-|[]]]; cbn [fst dbuf dshape]; [reflexivity|congruence].
  - pose proof (by_scalar_is f b sh r s P) as E2. unfold byScalarCuda in E2. change (fun vs => f (nth 0 vs 0%R) (nth 1 vs 0%R)) with (scalarCode f) in E2. cbn [map fst] in E. rewrite E in E2. injection E2 as ->.
    unfold computes in C. eapply always_mono; [exact C|]. intros m' [A B]. split.
    + apply (has_eq _ _ _ _ _ A). intros idx Hv. unfold scalarCode. cbn [map fst snd dshape nth]. rewrite bidx_same by exact Hv. reflexivity.
    + intros x Hx i. cbn [In] in Hx. rewrite B by (intros ->; tauto). apply S1. intros ->. tauto.
Qed.

(* Mean or sum of the terms. *)
Lemma reduce_ok red sh (F : list nat -> R) m p mo mt ms : 0 < size sh -> (red <> NONE -> size sh <= 512 * 512) ->
  has m p sh F -> room m mo 1 -> room m mt ((size sh + 511) / 512) -> room m ms 1 -> NoDup [p; mo; mt; ms] ->
  exists b ls, reduceLossCuda red (mkD p sh) mo mt ms = Ok (mkD b (tshape (reduced_loss red sh F)), ls) /\ (b = p \/ b = mo) /\
    always_all ls m (fun m' => holds m' b (tdata (reduced_loss red sh F)) /\ same_out [mo; mt; ms] m m').
Proof.
  intros HZ HL HF HO HT HS ND.
  assert (NN : mo <> p /\ mt <> p /\ mo <> mt /\ ms <> mo /\ ms <> mt).
  { inversion_clear ND as [|? ? A ND1]. inversion_clear ND1 as [|? ? B ND2]. inversion_clear ND2 as [|? ? C ND3]. cbn [In] in *. repeat split; intros X; first [tauto | symmetry in X; tauto]. }
  destruct NN as (N0 & N1 & N2 & N3 & N4). destruct red.
  - exists p, []. split; [reflexivity|]. split; auto. cbn [always_all reduced_loss tdata tensor_of]. split; [exact HF|]. intros x _ i. reflexivity.
  - destruct sh as [|d sh].
    + exists p, []. split; [reflexivity|]. split; auto. cbn [always_all reduced_loss]. split; [|intros x _ i; reflexivity].
      apply (has_eq m p [] F (fun _ => average F (indices [])) HF). intros idx V. inversion V. unfold average, sum. cbn. field.
    + destruct (mean_all (d :: sh) F m p mo mt ms) as (ls & E & C); auto; [discriminate|split; auto; apply HL; discriminate|].
      exists mo, (ls ++ []). split; [|split; auto].
      * cbn [reduceLossCuda]. rewrite E. reflexivity.
      * rewrite app_nil_r. eapply always_all_mono; [|exact C]. intros m' [A B]. split; [exact A|]. intros x Hx i. cbn [In] in Hx. apply B; cbn [In]; intuition.
  - destruct sh as [|d sh].
    + exists p, []. split; [reflexivity|]. split; auto. cbn [always_all reduced_loss]. split; [|intros x _ i; reflexivity].
      apply (has_eq m p [] F (fun _ => sum (K := Rring) F (indices [])) HF). intros idx V. inversion V. unfold sum. cbn. ring.
    + destruct (cuda_sum_all_partial Rring (d :: sh) F m p mo mt) as (ls & E & C); auto; [discriminate|split; auto; apply HL; discriminate|].
      exists mo, ls. split; [|split; auto].
      * cbn [reduceLossCuda]. unfold sumCuda. rewrite E. reflexivity.
      * eapply always_all_mono; [|exact C]. intros m' [A B]. split; [exact A|]. intros x Hx i. cbn [In] in Hx. apply B; cbn [In]; intuition.
Qed.
Lemma reduce_launches red sh mo mt ms p : 0 < size sh -> (red <> NONE -> size sh <= 512 * 512) -> NoDup [p; mo; mt; ms] ->
  exists b ls, reduceLossCuda red (mkD p sh) mo mt ms = Ok (mkD b (tshape (reduced_loss red sh (fun _ => 0%R))), ls).
Proof.
  intros HZ HL ND.
  destruct (reduce_ok red sh (fun _ => 0%R) (fun a => if (snd a <? 0)%Z then None else if fst a =? p then match nth_error (map (fun _ => 0%R) (indices sh)) (Z.to_nat (snd a)) with Some x => Some (Some x) | None => None end
     else if (snd a <? Z.of_nat (if (fst a =? mt)%nat then ((size sh + 511) / 512)%nat else 1%nat))%Z then Some None else None) p mo mt ms HZ HL) as (b & ls & E & _); eauto; inversion_clear ND as [|? ? A ND1]; inversion_clear ND1 as [|? ? B ND2]; inversion_clear ND2 as [|? ? C ND3]; cbn [In] in *.
  - intros i. cbn [fst snd]. rewrite Nat.eqb_refl. reflexivity.
  - intros i. cbn [fst snd]. destruct (Nat.eqb_spec mo p); [tauto|]. destruct (Nat.eqb_spec mo mt); [subst; tauto|]. destruct (Z.ltb_spec i 0); [split; auto; lia|]. destruct (Z.ltb_spec i (Z.of_nat 1)); [split; [discriminate|lia]|split; auto; lia].
  - intros i. cbn [fst snd]. destruct (Nat.eqb_spec mt p); [tauto|]. rewrite Nat.eqb_refl. destruct (Z.ltb_spec i 0); [split; auto; lia|]. destruct (Z.ltb_spec i (Z.of_nat ((size sh + 511) / 512))); [split; [discriminate|lia]|split; auto; lia].
  - intros i. cbn [fst snd]. destruct (Nat.eqb_spec ms p); [tauto|]. destruct (Nat.eqb_spec ms mt); [subst; tauto|]. destruct (Z.ltb_spec i 0); [split; auto; lia|]. destruct (Z.ltb_spec i (Z.of_nat 1)); [split; [discriminate|lia]|split; auto; lia].
Qed.

(* Mean squared error. *)
Lemma mse_cuda sh1 sh2 sh (F G : list nat -> R) red m p q out mo mt ms : positive sh1 -> positive sh2 -> is_broadcast [sh1; sh2] sh ->
  (Z.of_nat (size sh) <= 2 ^ 32)%Z -> (red <> NONE -> size sh <= 512 * 512) ->
  has m p sh1 F -> has m q sh2 G -> room m out (size sh) -> room m mo 1 -> room m mt ((size sh + 511) / 512) -> room m ms 1 ->
  NoDup [out; mo; mt; ms] -> p <> out -> q <> out ->
  let L := reduced_loss red sh (fun o => (F (bidx sh1 o) - G (bidx sh2 o)) ^ 2)%R in
  exists b ls, mseLossCuda (mkD p sh1) (mkD q sh2) red out mo mt ms = Ok (mkD b (tshape L), ls) /\ In b [out; mo] /\
    always_all ls m (fun m' => holds m' b (tdata L) /\ same_out [out; mo; mt; ms] m m').
Proof.
  intros P1 P2 HB HZ HL HF HG HO HMO HMT HMS ND N1 N2 L.
  assert (PS : 0 < size sh).
  { rewrite size_numel. pose proof (broadcast_positive2 sh1 sh2 sh P1 P2 HB). lia. }
  destruct (cuda_elementwise_partial R (fun vs => (nth 0 vs 0 - nth 1 vs 0) * (nth 0 vs 0 - nth 1 vs 0))%R [(mkD p sh1, F); (mkD q sh2, G)] sh out m) as (l & E & _ & C); auto.
  { cbn. auto. }
  { intros o [<-|[<-|[]]]; auto. }
  { intros o [<-|[<-|[]]]; cbn; intros; congruence. }
  assert (NI : ~ In out [mo; mt; ms]) by (inversion ND; auto).
  assert (KL : exists b ls, reduceLossCuda red (mkD out sh) mo mt ms = Ok (mkD b (tshape (reduced_loss red sh (fun _ => 0%R))), ls)) by (apply reduce_launches; auto).
  destruct KL as (b & ls & EL). exists b, (l :: ls). unfold mseLossCuda. cbn [map fst] in E. rewrite E. cbn [rbind]. rewrite EL. cbn [rbind].
  assert (ET : tshape (reduced_loss red sh (fun _ => 0%R)) = tshape L) by (destruct red; reflexivity). rewrite ET. split; [reflexivity|].
  assert (K : forall m1, has m1 out sh (fun o => (F (bidx sh1 o) - G (bidx sh2 o)) ^ 2)%R -> same_but out m m1 -> (b = out \/ b = mo) /\ always_all ls m1 (fun m' => holds m' b (tdata L) /\ same_out [mo; mt; ms] m1 m')).
  { intros m1 H1 S1. destruct (reduce_ok red sh _ m1 out mo mt ms PS HL H1) as (b' & ls' & E' & Hb & C'); auto.
    - apply (room_same m); auto. intros i. apply S1. intros ->. apply NI. cbn. auto.
    - apply (room_same m); auto. intros i. apply S1. intros ->. apply NI. cbn. auto.
    - apply (room_same m); auto. intros i. apply S1. intros ->. apply NI. cbn. auto.
    - rewrite E' in EL. injection EL as <- _ <-. auto. }
  split.
  - assert (b = out \/ b = mo); [|cbn; intuition].
    apply (K (fun a => if fst a =? out then (if (snd a <? 0)%Z then None else match nth_error (map (fun o => (F (bidx sh1 o) - G (bidx sh2 o)) ^ 2)%R (indices sh)) (Z.to_nat (snd a)) with Some x => Some (Some x) | None => None end) else m a)).
    + intros i. cbn [fst snd]. rewrite Nat.eqb_refl. reflexivity.
    + intros x i Hx. cbn [fst snd]. destruct (Nat.eqb_spec x out); [contradiction|reflexivity].
  - cbn [always_all]. eapply always_mono; [exact C|]. intros m1 [H1 S1]. destruct (K m1) as (_ & C'); auto.
    + apply (has_eq _ _ _ _ _ H1). intros o Ho. cbn [map nth fst snd dshape]. ring.
    + eapply always_all_mono; [|exact C']. intros m2 [H2 S2]. split; auto. intros x Hx i. cbn [In] in Hx. rewrite S2 by (cbn; tauto). apply S1. intros ->. tauto.
Qed.
Lemma grad_fits red sh tsh (H : list nat -> R) : positive sh -> positive tsh -> is_broadcast [sh; tsh] sh ->
  is_broadcast [sh; tsh; tshape (loss_grad red sh H)] sh /\ positive (tshape (loss_grad red sh H)).
Proof.
  intros P1 P2 HB. assert (HB3 : is_broadcast [sh; tsh; sh] sh).
  { apply (broadcast_more [sh; tsh]); auto; [intros s [<-|[<-|[<-|[]]]]; cbn; auto|cbn; auto]. }
  assert (HBn : is_broadcast [sh; tsh; []] sh).
  { destruct HB as [HL HP]. split.
    - rewrite HL. cbn. lia.
    - intros p Hp. specialize (HP p Hp). destruct HP as [Q1 Q2]. split.
      + intros s [<-|[<-|[<-|[]]]]; [apply Q1; cbn; auto|apply Q1; cbn; auto|left; destruct p; reflexivity].
      + destruct Q2 as [Q2|Q2]; [left; auto|right]. destruct Q2 as (s & Hs & E). exists s. split; auto. cbn in *. tauto. }
  destruct red; cbn [loss_grad tshape tensor_of]; split; auto; constructor.
Qed.
Definition grad_value (red : reduction) (H : list nat -> R) : list nat -> R := match red with NONE => H | _ => fun _ => H [] end.
Lemma mse_backward_cuda sh tsh (F G H : list nat -> R) red m p q g out s : positive sh -> positive tsh -> is_broadcast [sh; tsh] sh ->
  (Z.of_nat (size sh) <= 2 ^ 32)%Z -> has m p sh F -> has m q tsh G -> holds m g (tdata (loss_grad red sh H)) -> room m out (size sh) -> room m s 1 ->
  s <> out -> p <> out -> q <> out -> g <> out ->
  exists t ls, mseBackwardCuda (mkD g (tshape (loss_grad red sh H))) (mkD p sh) (mkD q tsh) red out s = Ok (mkD out (tshape t), ls) /\
    mseBackward (loss_grad red sh H) (tensor_of sh F) (tensor_of tsh G) red = Ok t /\
    always_all ls m (fun m' => holds m' out (tdata t) /\ same_out [out; s] m m').
Proof.
  intros P1 P2 HB HZ HF HG HH HO HS N1 N2 N3 N4. destruct (grad_fits red sh tsh H P1 P2 HB) as (HB3 & P3).
  rewrite (mse_backward_of sh tsh P1 P2 HB). eexists (tensor_of sh _).
  assert (PS : 0 < numel sh) by (pose proof (positive_numel sh P1); lia). rewrite size_numel in *.
  destruct (cuda_elementwise_partial R (fun vs => 2 * (nth 0 vs 0 - nth 1 vs 0) * nth 2 vs 0)%R [(mkD p sh, F); (mkD q tsh, G); (mkD g (tshape (loss_grad red sh H)), grad_value red H)] sh out m) as (l & E & _ & C); auto.
  { cbn. auto. }
  { rewrite size_numel. auto. }
  { intros o [<-|[<-|[<-|[]]]]; auto. cbn [fst snd dbuf dshape]. unfold has. destruct red; exact HH. }
  { rewrite size_numel. auto. }
  { intros o [<-|[<-|[<-|[]]]]; cbn; intros; congruence. }
  cbn [map fst] in E. unfold mseBackwardCuda. rewrite E. cbn [rbind].
  assert (KV : forall m1, has m1 out sh (fun idx => 2 * (F (bidx sh idx) - G (bidx tsh idx)) * grad_value red H (bidx (tshape (loss_grad red sh H)) idx))%R ->
     has m1 out sh (fun o => 2 * (F o - G (bidx tsh o)) * (match red with NONE => H o | _ => H [] end))%R).
  { intros m1 A. apply (has_eq _ _ _ _ _ A). intros o Ho. rewrite (bidx_same sh) by auto. destruct red; cbn [grad_value]; auto. cbn [loss_grad tshape tensor_of]. rewrite (bidx_same sh) by auto. auto. }
  destruct red.
  - exists [l]. split; [reflexivity|]. split; [reflexivity|]. cbn [always_all]. eapply always_mono; [exact C|]. intros m1 [A B]. split; [apply (KV m1 A)|]. intros x Hx i. cbn [In] in Hx. apply B. intros ->. tauto.
  - cbn [dshape]. rewrite by_scalar_is by auto. cbn [rbind]. eexists. split; [reflexivity|]. split; [reflexivity|]. cbn [always_all]. eapply always_mono; [exact C|]. intros m1 [A B]. apply KV in A.
    destruct (by_scalar_ok Rdiv m1 out sh _ (INR (numel sh)) s ltac:(lia) N1 A) as (ls & E2 & C2).
    { apply (room_same m); auto. }
    rewrite by_scalar_is in E2 by auto. injection E2 as <-. cbn [always_all] in C2. eapply always_mono; [exact C2|]. intros m2 C3. eapply always_mono; [exact C3|]. intros m3 [A3 B3]. split.
    + apply (has_eq _ _ _ _ _ A3). intros o Ho. cbn [term_weight]. unfold Rdiv. ring.
    + intros x Hx i. rewrite B3 by auto. cbn [In] in Hx. apply B. intros ->. tauto.
  - exists [l]. split; [reflexivity|]. split; [reflexivity|]. cbn [always_all]. eapply always_mono; [exact C|]. intros m1 [A B]. split; [apply (KV m1 A)|]. intros x Hx i. cbn [In] in Hx. apply B. intros ->. tauto.
Qed.
