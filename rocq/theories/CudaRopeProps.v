(* Rotary embedding on the GPU. *)
From Coq Require Import List Arith ZArith Bool Lia Reals Lra.
From Verif Require Import ShapeModel ShapeSpec ShapeProofs TensorModel TensorSpec TensorLemmas BcastModel BufModel ReduceModel RopeModel RopeSpec RopeProofs
  GpuModel GpuSpec GpuProofs CudaModel CudaSpec GpuLemmas CudaProofs GpuOrder CudaItems CudaMoveModel CudaMoveProofs5 CudaReduceSpec CudaMeanProofs CudaReduceProofs3
  CudaLineModel CudaRopeModel CudaRopeSpec CudaRopeProofs.
Import ListNotations.
Local Open Scope nat_scope.

(* Whatever the schedules of its two or three launches, the table holds the cosines
   and sines of position times frequency; only it and the scratch buffer change. *)
Theorem cuda_rope_table_partial : forall headDim ctx theta sc inv out m,
  headDim mod 2 = 0 -> table_launchable headDim ctx -> inv <> out -> room m inv (headDim / 2) -> room m out (size [ctx; headDim; 2]) ->
  exists ls, ropeInitCuda headDim ctx theta sc inv out = Ok ([ctx; headDim; 2], ls) /\
    computes_all ls m out [inv] [ctx; headDim; 2] (turns headDim (invFreq headDim theta sc)).
Proof. intros headDim ctx theta sc inv out m He HL NE RI RO. rewrite size_numel in RO. apply init_launches; auto. Qed.

(* Applying a table T: element i and element i + D/2 of each row are rotated by the
   cosine and sine that T holds for the row's position. *)
Theorem cuda_rope_apply_partial : forall B H S D ctx off F T m input rope out,
  D mod 2 = 0 -> heads_launchable B H S D -> off + S <= ctx -> input <> out -> rope <> out ->
  has m input [B; H; S; D] F -> has m rope [ctx; D; 2] T -> room m out (size [B; H; S; D]) ->
  exists l G, ropeApplyCuda (mkD input [B; H; S; D]) (mkD rope [ctx; D; 2]) (Z.of_nat off) out = Ok ([B; H; S; D], l) /\
    computes l m out [B; H; S; D] G /\
    forall b h t i, i < D / 2 -> let j := i + D / 2 in let c := T [off + t; i; 0] in let s := T [off + t; i; 1] in
      G [b; h; t; i] = (F [b; h; t; i] * c - F [b; h; t; j] * s)%R /\
      G [b; h; t; j] = (F [b; h; t; i] * s + F [b; h; t; j] * c)%R.
Proof.
  intros B H S D ctx off F T m input rope out He HL HC NI NR HF HT HR. rewrite size_numel in HR. apply Nat.eqb_eq in He.
  destruct (apply_launch B H S D ctx off input rope out F T m He HL HC HF HT HR NI NR) as (l & E & C).
  exists l. eexists. split; [exact E|]. split; [exact C|]. intros b h t i Hi j c s.
  split; [apply rotated_low; exact Hi|]. unfold j. rewrite rotated_high by exact Hi. fold c s. ring.
Qed.

(* Building the table and applying it, launch after launch: the numbers of the CPU. *)
Theorem cuda_rope_cpu_partial : forall B H S D ctx theta sc off F m input inv rope out,
  D mod 2 = 0 -> table_launchable D ctx -> heads_launchable B H S D -> off + S <= ctx -> NoDup [input; inv; rope; out] ->
  has m input [B; H; S; D] F -> room m inv (D / 2) -> room m rope (size [ctx; D; 2]) -> room m out (size [B; H; S; D]) ->
  exists ls l T G, ropeInitCuda D ctx theta sc inv rope = Ok ([ctx; D; 2], ls) /\
    ropeApplyCuda (mkD input [B; H; S; D]) (mkD rope [ctx; D; 2]) (Z.of_nat off) out = Ok ([B; H; S; D], l) /\
    ropeInit D ctx theta sc = Ok (tensor_of [ctx; D; 2] T) /\
    ropeApply (tensor_of [B; H; S; D] F) (tensor_of [ctx; D; 2] T) (Z.of_nat off) = Ok (tensor_of [B; H; S; D] G) /\
    always_all (ls ++ [l]) m (fun m' => has m' rope [ctx; D; 2] T /\ has m' out [B; H; S; D] G /\
      forall p, ~ In p [inv; rope; out] -> forall i, m' (p, i) = m (p, i)).
Proof.
  intros B H S D ctx theta sc off F m input inv rope out He HL HL' HC ND HF RI RR RO.
  assert (N : input <> inv /\ input <> rope /\ input <> out /\ inv <> rope /\ inv <> out /\ rope <> out).
  { inversion ND as [|? ? N1 ND1]; subst. inversion ND1 as [|? ? N2 ND2]; subst. inversion ND2 as [|? ? N3 _]; subst. cbn [In] in *.
    split; [intros e; apply N1; auto|]. split; [intros e; apply N1; auto|]. split; [intros e; apply N1; auto|].
    split; [intros e; apply N2; auto|]. split; [intros e; apply N2; auto|]. intros e; apply N3; auto. }
  destruct N as (N1 & N2 & N3 & N4 & N5 & N6).
  destruct (cuda_rope_table_partial D ctx theta sc inv rope m He HL N4 RI RR) as (ls & E1 & C1).
  assert (EB : (D mod 2 =? 0) = true) by (apply Nat.eqb_eq; exact He).
  set (f := invFreq D theta sc) in *. set (c := fun p i => cos (INR p * f i)). set (s := fun p i => sin (INR p * f i)).
  set (G := rotated D off c s F). rewrite size_numel in RO.
  assert (AP : exists l, ropeApplyCuda (mkD input [B; H; S; D]) (mkD rope [ctx; D; 2]) (Z.of_nat off) out = Ok ([B; H; S; D], l) /\
    forall m1, has m1 input [B; H; S; D] F -> has m1 rope [ctx; D; 2] (turns D f) -> room m1 out (numel [B; H; S; D]) -> computes l m1 out [B; H; S; D] G).
  { unfold ropeApplyCuda. cbn [dshape dbuf]. rewrite EB. eexists. split; [reflexivity|]. intros m1 X1 X2 X3.
    destruct (apply_launch B H S D ctx off input rope out F (turns D f) m1 EB HL' HC X1 X2 X3 N3 N6) as (l & E & C).
    unfold ropeApplyCuda in E. cbn [dshape dbuf] in E. rewrite EB in E. injection E as <-.
    unfold computes in *. eapply always_mono; [exact C|]. intros m2 [Y1 Y2]. split; [|exact Y2]. eapply has_eq; [exact Y1|].
    intros idx Hv. apply valid4 in Hv as (b & h & t & j & -> & Hb & Hh & Ht & Hj). unfold G, rotated. cbv zeta.
    assert (Hm : j mod (D / 2) < D / 2) by (apply Nat.mod_upper_bound; pose proof (even_half D EB); lia).
    unfold turns, c, s. cbn [Nat.eqb]. rewrite !Nat.mod_mod by lia. reflexivity. }
  destruct AP as (l & E2 & C2). exists ls, l, (turns D f), G. split; [exact E1|]. split; [exact E2|].
  assert (ET : table ctx D c s = tensor_of [ctx; D; 2] (turns D f)).
  { unfold table, turns. apply tensor_of_ext. intros idx Hv. apply valid3 in Hv as (p & j & k & -> & _). reflexivity. }
  split. { unfold ropeInit. rewrite ropeTable_ok by exact EB. rewrite <- ET. reflexivity. }
  split. { rewrite <- ET. apply ropeApply_ok; auto. }
  apply always_all_app. unfold computes_all in C1. eapply always_all_mono; [|exact C1]. intros m1 [H1 S1]. cbn [always_all].
  assert (KI : forall p, p <> rope -> p <> inv -> forall i, m1 (p, i) = m (p, i)).
  { intros p A A'. apply S1; [exact A|]. intros [e|[]]. apply A'. auto. }
  eapply always_mono.
  - apply C2; [|exact H1|].
    + apply (has_same m); [exact HF|]. apply KI; auto.
    + apply (room_same m); [exact RO|]. apply KI; auto.
  - intros m2 [H2 S2]. split; [|split; [exact H2|]].
    + apply (has_same m1); [exact H1|]. intros i. apply S2. exact N6.
    + intros p Hp i. cbn [In] in Hp. rewrite S2 by (intros ->; apply Hp; auto). apply KI; intros ->; apply Hp; auto.
Qed.

(* An odd head size, and anything but four dimensions, is refused. *)
Theorem cuda_rope_rejects :
  (forall headDim ctx theta sc inv out, headDim mod 2 = 1 -> ropeInitCuda headDim ctx theta sc inv out = Fail) /\
  (forall x rope off out, length (dshape x) <> 4 -> ropeApplyCuda x rope off out = Fail) /\
  (forall x rope off out, last (dshape x) 0 mod 2 = 1 -> ropeApplyCuda x rope off out = Fail).
Proof.
  split; [|split].
  - intros headDim ctx theta sc inv out E. unfold ropeInitCuda. rewrite E. reflexivity.
  - intros x rope off out E. unfold ropeApplyCuda. destruct (dshape x) as [|a [|b [|c [|d [|e l]]]]]; try reflexivity. cbn [length] in E. lia.
  - intros x rope off out E. unfold ropeApplyCuda. destruct (dshape x) as [|a [|b [|c [|d [|e l]]]]]; try reflexivity. cbn [last] in E. rewrite E. reflexivity.
Qed.

(* A position outside the table is read all the same: there is no check of the
   offset against it. *)
Theorem cuda_rope_position_refuted : forall B H S D ctx (off : Z) F T m input rope out t,
  D mod 2 = 0 -> heads_launchable B H S D -> t < S -> ~ (0 <= off + Z.of_nat t < Z.of_nat ctx)%Z ->
  has m input [B; H; S; D] F -> has m rope [ctx; D; 2] T ->
  exists l, ropeApplyCuda (mkD input [B; H; S; D]) (mkD rope [ctx; D; 2]) off out = Ok ([B; H; S; D], l) /\ may_crash l m.
Proof.
  intros B H S D ctx off F T m input rope out t He HL Ht Hoff HF HT. apply Nat.eqb_eq in He. pose proof (even_half D He) as Eh.
  unfold ropeApplyCuda. cbn [dshape dbuf]. rewrite He. eexists. split; [reflexivity|].
  destruct HL as [HN HS]. assert (PB : 0 < B) by (apply Nat.neq_0_lt_0; intros ->; cbn in HN; lia).
  assert (PH : 0 < H) by (apply Nat.neq_0_lt_0; intros ->; rewrite Z.mul_0_r in HN; cbn in HN; lia).
  assert (PD : 0 < D) by (apply Nat.neq_0_lt_0; intros ->; rewrite Z.mul_0_r in HN; cbn in HN; lia).
  assert (HS' : (0 < Z.of_nat S <= 2 ^ 32)%Z) by lia.
  assert (BH : (0 < Z.of_nat (B * H) < 2 ^ 31)%Z).
  { rewrite Nat2Z.inj_mul. split; [apply Z.mul_pos_pos; lia|]. assert (2 <= D) by lia. set (x := (Z.of_nat B * Z.of_nat H)%Z) in *.
    assert (0 < x)%Z by (apply Z.mul_pos_pos; lia). assert (2 <= Z.of_nat S * Z.of_nat D)%Z by nia.
    assert (x * 2 <= x * (Z.of_nat S * Z.of_nat D))%Z by (apply Z.mul_le_mono_nonneg_l; lia). change (2 ^ 32)%Z with (2 ^ 31 * 2)%Z in HN. lia. }
  rewrite (Z.mod_small (Z.of_nat (B * H))) by lia.
  destruct (grid_ok (Z.of_nat S) HS') as [EG GB]. rewrite EG.
  pose proof (Z.div_mod (Z.of_nat S + 511) 512 ltac:(lia)) as DM. pose proof (Z.mod_pos_bound (Z.of_nat S + 511) 512 ltac:(lia)) as MB.
  set (q := ((Z.of_nat S + 511) / 512)%Z) in *.
  assert (Hty : t / blockSize < Z.to_nat q).
  { apply Nat.div_lt_upper_bound; [unfold blockSize; lia|]. change blockSize with (Z.to_nat 512). rewrite <- Z2Nat.inj_mul by lia. lia. }
  assert (Htx : t mod blockSize < blockSize) by (apply Nat.mod_upper_bound; unfold blockSize; lia).
  assert (P0 : 0 < B * H) by lia.
  apply (fails_crash _ m ((0 * Z.to_nat q + t / blockSize) * (B * H) + 0) (0 * blockSize + t mod blockSize)).
  - unfold launch3. cbn [grid]. change (1 <=? 65535)%Z with true. replace (Z.of_nat (B * H) <=? 2 ^ 31 - 1)%Z with true by (symmetry; apply Z.leb_le; lia).
    replace (q <=? 65535)%Z with true by (symmetry; apply Z.leb_le; lia). cbn [andb]. rewrite Nat2Z.id. apply block_lt; auto.
  - unfold launch3. cbn [bdim]. lia.
  - unfold launch3. cbn [code]. rewrite Nat2Z.id.
    pose proof (launch3_at R (B * H) (Z.to_nat q) 0 (t / blockSize) 0 blockSize (t mod blockSize) 0
      (fun bx by_ _ tx _ => ropeAt input rope out B H S D off bx by_ tx) P0 Hty Htx) as LA. cbv beta zeta in LA. rewrite LA. clear LA.
    unfold ropeAt. cbv zeta. rewrite Nat.div_0_l, Nat.mod_0_l by lia.
    assert (Eg : gidx blockSize (t / blockSize) (t mod blockSize) = Z.of_nat t).
    { rewrite (gidx_ok (Z.of_nat S)); auto; [|rewrite EG; exact Hty]. pose proof (Nat.div_mod t blockSize). change 512%Z with (Z.of_nat blockSize). unfold blockSize in *. lia. }
    rewrite Eg. destruct (Nat.ltb_spec 0 B); [|lia]. destruct (Z.ltb_spec (Z.of_nat t) (Z.of_nat S)); [|lia]. cbn [andb].
    destruct (D / 2) as [|h'] eqn:Eh2; [lia|]. cbn [seq each].
    assert (RD : forall j, j < D -> m (input, ((Z.of_nat (0 * H + 0) * Z.of_nat S + Z.of_nat t) * Z.of_nat D + Z.of_nat j)%Z) = Some (Some (F [0; 0; t; j]))).
    { intros j Hj. pose proof (has_at _ m input _ _ _ HF (mk_valid4 B H S D 0 0 t j PB PH Ht Hj)) as A. rewrite ravel4 in A. rewrite <- A. f_equal. f_equal. lia. }
    eapply fails_ld_next; [apply (RD 0); lia|]. eapply fails_ld_next.
    { rewrite <- Nat2Z.inj_add. apply RD. lia. }
    apply fails_ld. intros v Hv. assert (HRm : room m rope (numel [ctx; D; 2])) by (eapply has_room; exact HT).
    assert (Hn : m (rope, ((off + Z.of_nat t) * Z.of_nat D * 2 + Z.of_nat 0 * 2)%Z) = None).
    { apply HRm. rewrite numel3, !Nat2Z.inj_mul. change (Z.of_nat 2) with 2%Z. intros [A1 A2]. apply Hoff. split.
      - destruct (Z.lt_ge_cases (off + Z.of_nat t) 0) as [Hneg|]; [exfalso; nia|assumption].
      - destruct (Z.lt_ge_cases (off + Z.of_nat t) (Z.of_nat ctx)) as [|Hge]; [assumption|exfalso; nia]. }
    rewrite Hn in Hv. discriminate.
Qed.

(* Empty tables and tensors, which the CPU handles, and sequences of more than
   65535 * 512 positions, make a launch that CUDA refuses. *)
Theorem cuda_rope_empty_refuted :
  (forall headDim ctx theta sc inv out m, headDim mod 2 = 0 -> headDim = 0 \/ ctx = 0 ->
     (exists x, ropeInit headDim ctx theta sc = Ok x) /\
     exists ls, ropeInitCuda headDim ctx theta sc inv out = Ok ([ctx; headDim; 2], ls) /\ forall Q, ~ always_all ls m Q) /\
  (forall B H S D F ctx T off input rope out, D mod 2 = 0 -> off + S <= ctx -> B = 0 \/ H = 0 \/ S = 0 \/ (65535 * 512 < Z.of_nat S < 2 ^ 32)%Z ->
     (exists x, ropeApply (tensor_of [B; H; S; D] F) (rotations T ctx D) (Z.of_nat off) = Ok x) /\
     exists l, ropeApplyCuda (mkD input [B; H; S; D]) (mkD rope [ctx; D; 2]) (Z.of_nat off) out = Ok ([B; H; S; D], l) /\ ~ accepted l).
Proof.
  split.
  - intros headDim ctx theta sc inv out m He HZ. apply Nat.eqb_eq in He. split; [eexists; unfold ropeInit; apply ropeTable_ok; exact He|].
    unfold ropeInitCuda. rewrite He. eexists. split; [reflexivity|]. intros Q A. cbn [app always_all] in A. destruct HZ as [-> | ->].
    + destruct A as [(G & _) _]. change (grid _) with 0 in G. lia.
    + apply always_some in A as (s1 & _ & _ & A). destruct sc as [s|]; cbn [app always_all] in A.
      * apply always_some in A as (s2 & _ & _ & A). destruct A as [(G & _) _]. cbn in G. lia.
      * destruct A as [(G & _) _]. cbn in G. lia.
  - intros B H S D F ctx T off input rope out He HC HZ. apply Nat.eqb_eq in He. split; [eexists; apply ropeApply_ok; auto|].
    unfold ropeApplyCuda. cbn [dshape dbuf]. rewrite He. eexists. split; [reflexivity|]. intros (G & _). unfold launch3 in G. cbn [grid] in G.
    destruct HZ as [-> | [-> | [-> | HZ]]].
    + cbn in G. destruct (_ && _)%bool in G; lia.
    + rewrite Nat.mul_0_r in G. cbn in G. destruct (_ && _)%bool in G; lia.
    + change (gridSize (Z.of_nat blockSize) (Z.of_nat 0) 1) with 0%Z in G. change (Z.to_nat 0) with 0 in G. rewrite Nat.mul_0_r in G. cbn in G. destruct (_ && _)%bool in G; lia.
    + destruct (grid_ok (Z.of_nat S) ltac:(lia)) as [EG GB]. rewrite EG in G.
      assert (HQ : (65535 < (Z.of_nat S + 511) / 512)%Z).
      { pose proof (Z.div_mod (Z.of_nat S + 511) 512 ltac:(lia)). pose proof (Z.mod_pos_bound (Z.of_nat S + 511) 512 ltac:(lia)). lia. }
      destruct (Z.leb_spec ((Z.of_nat S + 511) / 512) 65535); [lia|]. rewrite andb_false_r in G. cbn [andb] in G. lia.
Qed.

(* A batch of 2, 3 heads, 5 positions from 7 on, heads of 4; a table of 12 positions. *)
Example cuda_rope_met : let m := mem_of [map (fun idx => Some (INR (ravel [2; 3; 5; 4] idx))) (indices [2; 3; 5; 4]); repeat None 2; repeat None 96; repeat None 120] in
  4 mod 2 = 0 /\ table_launchable 4 12 /\ heads_launchable 2 3 5 4 /\ 7 + 5 <= 12 /\ NoDup [0; 1; 2; 3] /\
  has m 0 [2; 3; 5; 4] (fun idx => INR (ravel [2; 3; 5; 4] idx)) /\ room m 1 2 /\ room m 2 (size [12; 4; 2]) /\ room m 3 (size [2; 3; 5; 4]).
Proof.
  intros m. split; [reflexivity|]. split. { split; cbn; lia. } split. { split; cbn; lia. } split; [lia|]. split. { repeat constructor; cbn; lia. }
  split. { apply holds_of. rewrite map_map. reflexivity. }
  split; [apply room_of; reflexivity|]. split; apply room_of; reflexivity.
Qed.

Print Assumptions cuda_rope_table_partial.
Print Assumptions cuda_rope_apply_partial.
Print Assumptions cuda_rope_cpu_partial.
Print Assumptions cuda_rope_rejects.
Print Assumptions cuda_rope_position_refuted.
Print Assumptions cuda_rope_empty_refuted.
Print Assumptions cuda_rope_met.
