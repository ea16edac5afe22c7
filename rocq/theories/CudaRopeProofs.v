(* Rotary embedding on the GPU: proofs. *)
From Coq Require Import List Arith ZArith Bool Lia Reals Lra.
From Verif Require Import ShapeModel ShapeSpec ShapeProofs TensorModel TensorSpec TensorLemmas BcastModel BufModel ReduceModel RopeModel RopeSpec RopeProofs
  GpuModel GpuSpec GpuProofs CudaModel CudaSpec GpuLemmas CudaProofs GpuOrder CudaItems CudaFillProofs CudaMoveModel CudaMoveProofs5 CudaReduceSpec CudaMeanProofs
  CudaLineModel CudaLineProofs2 CudaRopeModel CudaRopeSpec.
Import ListNotations.
Local Open Scope nat_scope.

Lemma plan_each : forall V is (body : nat -> unit -> (unit -> thr V) -> thr V) m (Rs : nat -> list addr) (Ws : nat -> list (addr * V)),
  (forall i k R W, In i is -> plan (k tt) m = Some (R, W) -> plan (body i tt k) m = Some (Rs i ++ R, Ws i ++ W)) ->
  plan (each is body tt (fun _ => Done)) m = Some (flat_map Rs is, flat_map Ws is).
Proof.
  intros V is body m Rs Ws. induction is as [|i is IH]; intros H; [reflexivity|]. cbn [each flat_map]. apply H; [left; reflexivity|].
  apply IH. intros j k R W Hj. apply H. right. exact Hj.
Qed.

(* ---- the frequencies ---- *)
Lemma inv_launch : forall half theta inv m, (0 < Z.of_nat half <= 2 ^ 31)%Z -> room m inv half ->
  computes (kRopeComputeInvFreq inv half theta) m inv [half] (fun idx => invFreq0 (half * 2) theta (nth 0 idx 0)).
Proof.
  intros half theta inv m Hh HR. assert (EN : numel [half] = half) by (unfold numel; simpl; lia).
  apply (gathers_at _ m inv [half] _ (fun i => St (inv, i) (1 / Rpower theta (IZR ((i * 2) mod 2 ^ 32) / IZR (Z.of_nat half * 2)))%R Done)).
  - rewrite EN. apply kernel1d_is.
  - rewrite EN. lia.
  - rewrite EN. exact HR.
  - intros idx Hv. inversion Hv as [|x ? ? ? Hx Hv']; subst. inversion Hv'; subst. rewrite ravel1. exists []. split; [|intros a []].
    assert (E : (1 / Rpower theta (IZR ((Z.of_nat x * 2) mod 2 ^ 32) / IZR (Z.of_nat half * 2)))%R = invFreq0 (half * 2) theta x).
    { unfold invFreq0. rewrite Z.mod_small by lia. rewrite !INR_IZR_INZ. do 3 f_equal; f_equal; lia. }
    rewrite E. apply plan_st; [|reflexivity]. intros N. apply HR in N. lia.
Qed.

Lemma scale_launch : forall half s f inv m, (0 < Z.of_nat half <= 2 ^ 31)%Z -> has m inv [half] (fun idx => f (nth 0 idx 0)) ->
  computes (kRopeApplyScaling inv half s) m inv [half] (fun idx => rescale s (f (nth 0 idx 0))).
Proof.
  intros half s f inv m Hh HF. assert (EN : numel [half] = half) by (unfold numel; simpl; lia).
  assert (HR : room m inv half) by (rewrite <- EN; eapply has_room; exact HF).
  assert (AT : forall i, (0 <= i < Z.of_nat half)%Z -> m (inv, i) = Some (Some (f (Z.to_nat i)))).
  { intros i Hi. pose proof (has_at _ m inv [half] _ [Z.to_nat i] HF) as A. rewrite ravel1 in A. rewrite Z2Nat.id in A by lia. apply A. repeat constructor. lia. }
  set (keeps := fun x => if Rlt_dec (origLen s / lowFreq s) (2 * PI / x) then false else if Rlt_dec (2 * PI / x) (origLen s / highFreq s) then true else false).
  set (L := fun i : Z => let x := f (Z.to_nat i) in
    if keeps x then mkLane m (fun _ => None) (@Done R) [(inv, i)] [] [] []
    else mkLane (upd m (inv, i) (Some (Some (rescale s x)))) (fun _ => None) (@Done R)
      (if Rlt_dec (origLen s / lowFreq s) (2 * PI / x) then [(inv, i); (inv, i)] else [(inv, i)]) [(inv, i)] [] []).
  assert (GW : forall i a, In a (gw (L i)) -> a = (inv, i)).
  { intros i a. unfold L. destruct (keeps _); cbn [gw]; [intros []|intros [<-|[]]; reflexivity]. }
  assert (GRd : forall i a, In a (gr (L i)) -> a = (inv, i)).
  { intros i a. unfold L. destruct (keeps _); cbn [gr]; [intros [<-|[]]; reflexivity|]. destruct (Rlt_dec _ _); [intros [<-|[<-|[]]]; reflexivity|intros [<-|[]]; reflexivity]. }
  unfold computes, kRopeApplyScaling. eapply (linear _ (Z.of_nat half) _ m L); [apply kernel1d_is|lia| | |].
  - intros i Hi. pose proof (AT i Hi) as E. unfold L, keeps, rescale. cbn [solo]. rewrite E. cbv zeta. set (x := f (Z.to_nat i)) in *.
    destruct (Rlt_dec (origLen s / lowFreq s) (2 * PI / x)).
    + cbn [solo]. rewrite E. auto.
    + destruct (Rlt_dec (2 * PI / x) (origLen s / highFreq s)); cbn [solo]; [auto|]. rewrite E. auto.
  - intros i j a Hi Hj N Hw. apply GW in Hw. subst a. split; intros H; [apply GRd in H|apply GW in H]; congruence.
  - intros m' Hm.
    assert (A : forall i, (0 <= i < Z.of_nat half)%Z -> m' (inv, i) = Some (Some (rescale s (f (Z.to_nat i))))).
    { intros i Hi. destruct (Hm (inv, i)) as [(j & Hj & Hw & E)|[Hn E]].
      - pose proof (GW _ _ Hw) as e. injection e as <-. rewrite E. clear E. unfold L in *. cbv zeta in *. destruct (keeps (f (Z.to_nat i))); [destruct Hw|]. cbn [lg]. apply upd_same.
      - rewrite E, AT by exact Hi. specialize (Hn i Hi). unfold L, keeps in Hn. cbv zeta in Hn. unfold rescale. cbv zeta.
        destruct (Rlt_dec _ _); [exfalso; apply Hn; left; reflexivity|]. destruct (Rlt_dec _ _); [reflexivity|exfalso; apply Hn; left; reflexivity]. }
    destruct (filled m m' inv half (fun i => rescale s (f i)) HR A) as [H1 H2].
    { intros a Ha. destruct (Hm a) as [(j & Hj & Hw & E)|[Hn E]]; [|exact E]. exfalso. apply GW in Hw. exact (Ha j Hj Hw). }
    split; [|exact H2]. unfold has. intros z. rewrite (H1 z). destruct (z <? 0)%Z; [reflexivity|].
    assert (EI : map (fun i => rescale s (f i)) (seq 0 half) = map (fun idx => rescale s (f (nth 0 idx 0))) (indices [half])).
    { rewrite <- (map_seq_indices [half]), EN. apply map_ext_in. intros q Hq. apply in_seq in Hq.
      assert (V : valid [half] [q]) by (repeat constructor; lia). pose proof (o2i_ravel [half] [q] V) as O. rewrite ravel1 in O. rewrite O. reflexivity. }
    rewrite EI. reflexivity.
Qed.

(* ---- the table ---- *)
Lemma turns_at : forall D f pos i k, i < D / 2 -> D = D / 2 + D / 2 ->
  let a := (INR pos * f i)%R in
  turns D f [pos; i; k] = (if k =? 0 then cos a else sin a) /\ turns D f [pos; D / 2 + i; k] = (if k =? 0 then cos a else sin a).
Proof. intros D f pos i k Hi HD a. unfold turns. destruct (mod_low i _ Hi) as [-> ->]. auto. Qed.

Lemma table_launch : forall D ctx f inv out m, table_launchable D ctx -> (D mod 2 =? 0) = true -> inv <> out ->
  has m inv [D / 2] (fun idx => f (nth 0 idx 0)) -> room m out (numel [ctx; D; 2]) ->
  computes (kRopePrecomputeCosSin inv out ctx D) m out [ctx; D; 2] (turns D f).
Proof.
  intros D ctx f inv out m [HD HC] He NE HF HR. pose proof (even_half D He) as Eh. set (half := D / 2) in *.
  assert (RM : forall pos j k, pos < ctx -> j < D -> k < 2 -> m (out, Z.of_nat ((pos * D + j) * 2 + k)) <> None).
  { intros pos j k Hp Hj Hk N. apply HR in N. apply N. pose proof (ravel_lt _ _ (mk_valid3 ctx D 2 pos j k Hp Hj Hk)) as Q. rewrite ravel3 in Q. lia. }
  set (Rs := fun i : nat => [(inv, Z.of_nat i)]).
  set (Ws := fun pos i : nat => [((out, Z.of_nat ((pos * D + i) * 2)), cos (INR pos * f i)); ((out, (Z.of_nat ((pos * D + i) * 2) + 1)%Z), sin (INR pos * f i));
     ((out, Z.of_nat ((pos * D + half + i) * 2)), cos (INR pos * f i)); ((out, (Z.of_nat ((pos * D + half + i) * 2) + 1)%Z), sin (INR pos * f i))]).
  assert (PL : forall pos t, pos < ctx -> plan (code (kRopePrecomputeCosSin inv out ctx D) pos t) m
     = Some (flat_map Rs (strided half t blockSize half), flat_map (Ws pos) (strided half t blockSize half))).
  { intros pos t Hp. cbn [code kRopePrecomputeCosSin]. destruct (Nat.ltb_spec pos ctx); [|lia]. cbv zeta. fold half. apply plan_each.
    intros i k R W Hi E. assert (Hi' : i < half).
    { clear -Hi. revert Hi. generalize half at 1 as fuel. intros fuel. revert t. induction fuel as [|n IH]; intros t; cbn [strided]; [intros []|].
      destruct (Nat.ltb_spec t half); [|intros []]. intros [<-|H']; [assumption|eapply IH; exact H']. }
    cbn [Rs app]. apply (plan_ld _ _ _ (f i)).
    - pose proof (has_at _ m inv [half] _ [i] HF) as A. rewrite ravel1 in A. apply A. repeat constructor. lia.
    - cbv beta. cbn [Ws app]. 
      repeat apply plan_st; [..|exact E].
      + pose proof (RM pos i 0 Hp ltac:(lia) ltac:(lia)) as Q. rewrite Nat.add_0_r in Q. exact Q.
      + pose proof (RM pos i 1 Hp ltac:(lia) ltac:(lia)) as Q. rewrite Nat2Z.inj_add in Q. exact Q.
      + pose proof (RM pos (half + i) 0 Hp ltac:(lia) ltac:(lia)) as Q. rewrite Nat.add_0_r, Nat.add_assoc in Q. exact Q.
      + pose proof (RM pos (half + i) 1 Hp ltac:(lia) ltac:(lia)) as Q. rewrite Nat2Z.inj_add, Nat.add_assoc in Q. exact Q. }
  assert (IN : forall t i, In i (strided half t blockSize half) -> i < half).
  { intros t i. generalize half at 1 as fuel. intros fuel. revert t. induction fuel as [|n IH]; intros t; cbn [strided]; [intros []|].
    destruct (Nat.ltb_spec t half); [|intros []]. intros [<-|H']; [assumption|eapply IH; exact H']. }
  apply covers.
  - split; [cbn; lia|]. split; [exact (proj2 HC)|]. cbn [bdim kRopePrecomputeCosSin]. unfold blockSize. lia.
  - exact HR.
  - intros b t Hb Ht. cbn [grid kRopePrecomputeCosSin] in Hb. eexists. eexists. split; [apply PL; exact Hb|]. split.
    + intros a Ha. apply in_flat_map in Ha as (i & _ & [<-|[]]). exact NE.
    + intros a v Hin. apply in_flat_map in Hin as (i & Hi & Hin). apply IN in Hi.
      destruct (turns_at D f b i 0 Hi Eh) as [T0 T0']. destruct (turns_at D f b i 1 Hi Eh) as [T1 T1']. cbn [Nat.eqb] in *.
      destruct Hin as [e|[e|[e|[e|[]]]]]; injection e as <- <-.
      * exists [b; i; 0]. split; [apply mk_valid3; lia|]. rewrite ravel3, T0. split; [f_equal; lia|reflexivity].
      * exists [b; i; 1]. split; [apply mk_valid3; lia|]. rewrite ravel3, T1. split; [f_equal; lia|reflexivity].
      * exists [b; half + i; 0]. split; [apply mk_valid3; lia|]. rewrite ravel3. unfold half. rewrite T0'. split; [f_equal; lia|reflexivity].
      * exists [b; half + i; 1]. split; [apply mk_valid3; lia|]. rewrite ravel3. unfold half. rewrite T1'. split; [f_equal; lia|reflexivity].
  - intros idx Hv. apply valid3 in Hv as (pos & j & k & -> & Hp & Hj & Hk). 
    assert (Hc : exists i, i < half /\ (j = i \/ j = half + i)) by (destruct (Nat.lt_ge_cases j half); [exists j; auto|exists (j - half); lia]).
    destruct Hc as (i & Hi & Ej). destruct (strided_all half blockSize i ltac:(unfold blockSize; lia) Hi) as [Ht Hin].
    exists pos, (i mod blockSize). split; [exact Hp|]. split; [exact Ht|]. intros R W E. rewrite (PL pos _ Hp) in E. injection E as _ <-.
    apply in_flat_map. exists i. split; [exact Hin|]. rewrite ravel3. destruct (turns_at D f pos i k Hi Eh) as [T T'].
    assert (Hk' : k = 0 \/ k = 1) by lia. fold half in T'. unfold Ws.
    destruct Ej as [-> | ->]; [rewrite T|rewrite T']; destruct Hk' as [->| ->]; cbn [Nat.eqb].
    + left. do 2 f_equal. lia.
    + right. left. do 2 f_equal. lia.
    + right. right. left. do 2 f_equal. lia.
    + right. right. right. left. do 2 f_equal. lia.
Qed.

Lemma init_launches : forall D ctx theta sc inv out m, table_launchable D ctx -> D mod 2 = 0 -> inv <> out ->
  room m inv (D / 2) -> room m out (numel [ctx; D; 2]) ->
  exists ls, ropeInitCuda D ctx theta sc inv out = Ok ([ctx; D; 2], ls) /\
    computes_all ls m out [inv] [ctx; D; 2] (turns D (invFreq D theta sc)).
Proof.
  intros D ctx theta sc inv out m HL He NE RI RO. apply Nat.eqb_eq in He. pose proof (even_half D He) as Eh. unfold ropeInitCuda. rewrite He.
  eexists. split; [reflexivity|]. destruct HL as [HD HC].
  assert (Hh : (0 < Z.of_nat (D / 2) <= 2 ^ 31)%Z) by lia.
  unfold computes_all. cbn [app always_all]. eapply always_mono; [apply inv_launch; [exact Hh|exact RI]|].
  intros m1 [H1 S1]. cbv beta in H1. replace (D / 2 * 2) with D in H1 by lia.
  assert (R1 : room m1 out (numel [ctx; D; 2])) by (intros i; rewrite (S1 out i) by auto; apply RO).
  destruct sc as [s|].
  - cbn [app always_all]. eapply always_mono; [apply (scale_launch _ s (invFreq0 D theta)); [exact Hh|exact H1]|].
    intros m2 [H2 S2]. cbv beta in H2.
    assert (R2 : room m2 out (numel [ctx; D; 2])) by (intros i; rewrite (S2 out i) by auto; apply R1).
    eapply always_mono; [apply (table_launch D ctx (fun i => rescale s (invFreq0 D theta i))); [split; assumption|exact He|exact NE|exact H2|exact R2]|].
    intros m3 [H3 S3]. cbn [always_all]. split; [exact H3|]. intros p N1 N2 i. assert (p <> inv) by (intros ->; apply N2; left; reflexivity).
    rewrite (S3 p i), (S2 p i), (S1 p i) by assumption. reflexivity.
  - cbn [app always_all].
    eapply always_mono; [apply (table_launch D ctx (invFreq0 D theta)); [split; assumption|exact He|exact NE|exact H1|exact R1]|].
    intros m3 [H3 S3]. cbn [always_all]. split; [exact H3|]. intros p N1 N2 i. assert (p <> inv) by (intros ->; apply N2; left; reflexivity).
    rewrite (S3 p i), (S1 p i) by assumption. reflexivity.
Qed.

(* ---- applying it ---- *)
Section Apply.
Variables B H S D ctx off input rope out : nat.
Variables F T : list nat -> R.
Variable m : addr -> cell R.
Hypothesis He : (D mod 2 =? 0) = true.
Hypothesis HL : heads_launchable B H S D.
Hypothesis HC : off + S <= ctx.
Hypothesis HF : has m input [B; H; S; D] F.
Hypothesis HT : has m rope [ctx; D; 2] T.
Hypothesis HR : room m out (numel [B; H; S; D]).
Hypothesis NI : input <> out.
Hypothesis NR : rope <> out.

Let half := D / 2.
Let c := fun p i => T [p; i; 0].
Let s := fun p i => T [p; i; 1].
Let base (b h t : nat) : Z := Z.of_nat (((b * H + h) * S + t) * D).
Let Rs (b h t i : nat) : list addr :=
  [(input, base b h t + Z.of_nat i)%Z; (input, base b h t + (Z.of_nat half + Z.of_nat i))%Z;
   (rope, (Z.of_nat off + Z.of_nat t) * Z.of_nat D * 2 + Z.of_nat i * 2)%Z; (rope, (Z.of_nat off + Z.of_nat t) * Z.of_nat D * 2 + Z.of_nat i * 2 + 1)%Z].
Let Ws (b h t i : nat) : list (addr * R) :=
  [((out, (base b h t + Z.of_nat i)%Z), rotated D off c s F [b; h; t; i]);
   ((out, (base b h t + (Z.of_nat half + Z.of_nat i))%Z), rotated D off c s F [b; h; t; i + half])].

Lemma heads : 0 < B /\ 0 < H /\ 0 < S /\ 0 < D.
Proof. destruct HL as [A _]. repeat split; apply Nat.neq_0_lt_0; intros ->; cbn in A; lia. Qed.

Lemma read_in : forall b h t j, b < B -> h < H -> t < S -> j < D -> m (input, base b h t + Z.of_nat j)%Z = Some (Some (F [b; h; t; j])).
Proof.
  intros b h t j Hb Hh Ht Hj. pose proof (has_at _ m input _ _ _ HF (mk_valid4 B H S D b h t j Hb Hh Ht Hj)) as A. rewrite ravel4 in A.
  unfold base. rewrite <- Nat2Z.inj_add. exact A.
Qed.

Lemma read_table : forall t i k, t < S -> i < half -> k < 2 ->
  m (rope, (Z.of_nat off + Z.of_nat t) * Z.of_nat D * 2 + Z.of_nat i * 2 + Z.of_nat k)%Z = Some (Some (T [off + t; i; k])).
Proof.
  intros t i k Ht Hi Hk. assert (Hid : i < D) by (pose proof (even_half D He) as Eh; fold half in Eh; lia).
  pose proof (has_at _ m rope _ _ _ HT (mk_valid3 ctx D 2 (off + t) i k ltac:(lia) Hid Hk)) as A. rewrite ravel3 in A.
  replace (_ + Z.of_nat k)%Z with (Z.of_nat (((off + t) * D + i) * 2 + k)) by lia. exact A.
Qed.

Lemma out_room : forall b h t j, b < B -> h < H -> t < S -> j < D -> m (out, base b h t + Z.of_nat j)%Z <> None.
Proof.
  intros b h t j Hb Hh Ht Hj N. apply HR in N. apply N. pose proof (ravel_lt _ _ (mk_valid4 B H S D b h t j Hb Hh Ht Hj)) as Q. rewrite ravel4 in Q.
  unfold base. lia.
Qed.

Lemma apply_plan : forall b h t by_ tx, b < B -> h < H -> t < S -> gidx blockSize by_ tx = Z.of_nat t ->
  plan (ropeAt input rope out B H S D (Z.of_nat off) (b * H + h) by_ tx) m = Some (flat_map (Rs b h t) (seq 0 half), flat_map (Ws b h t) (seq 0 half)).
Proof.
  intros b h t by_ tx Hb Hh Ht Eg. unfold ropeAt. cbv zeta. rewrite Eg.
  assert (E1 : (b * H + h) / H = b) by (rewrite Nat.div_add_l by lia; rewrite Nat.div_small by lia; lia).
  assert (E2 : (b * H + h) mod H = h) by (rewrite Nat.add_comm, Nat.mod_add by lia; apply Nat.mod_small; lia).
  rewrite E1, E2. destruct (Nat.ltb_spec b B); [|lia]. destruct (Z.ltb_spec (Z.of_nat t) (Z.of_nat S)); [|lia]. cbn [andb].
  replace ((Z.of_nat (b * H + h) * Z.of_nat S + Z.of_nat t) * Z.of_nat D)%Z with (base b h t) by (unfold base; lia).
  fold half. apply plan_each. intros i k R W Hi E. apply in_seq in Hi. pose proof (even_half D He) as Eh. fold half in Eh.
  unfold Rs, Ws. cbn [app].
  apply (plan_ld _ _ _ (F [b; h; t; i])); [apply read_in; lia|].
  apply (plan_ld _ _ _ (F [b; h; t; i + half])).
  { rewrite <- Nat2Z.inj_add. rewrite (Nat.add_comm half i). apply read_in; lia. }
  apply (plan_ld _ _ _ (c (off + t) i)).
  { pose proof (read_table t i 0 Ht ltac:(lia) ltac:(lia)) as A. rewrite Z.add_0_r in A. exact A. }
  apply (plan_ld _ _ _ (s (off + t) i)).
  { exact (read_table t i 1 Ht ltac:(lia) ltac:(lia)). }
  cbv beta. rewrite (rotated_low D off c s F b h t i) by (fold half; lia). pose proof (rotated_high D off c s F b h t i) as RH. fold half in RH. rewrite RH by lia. fold half.
  apply plan_st; [apply out_room; lia|]. apply plan_st; [|exact E]. rewrite <- Nat2Z.inj_add. apply out_room; lia.
Qed.

Lemma apply_launch : exists l, ropeApplyCuda (mkD input [B; H; S; D]) (mkD rope [ctx; D; 2]) (Z.of_nat off) out = Ok ([B; H; S; D], l) /\
  computes l m out [B; H; S; D] (rotated D off c s F).
Proof.
  unfold ropeApplyCuda. cbn [dshape dbuf]. rewrite He. eexists. split; [reflexivity|].
  destruct heads as (PB & PH & PS & PD). destruct HL as [HN HS]. pose proof (even_half D He) as Eh.
  assert (PBH : 0 < B * H) by nia.
  assert (BHS : (Z.of_nat (B * H) * Z.of_nat S < 2 ^ 31)%Z).
  { assert (2 <= D) by lia. assert (Z.of_nat B * Z.of_nat H * Z.of_nat S * 2 <= Z.of_nat B * Z.of_nat H * Z.of_nat S * Z.of_nat D)%Z by (apply Z.mul_le_mono_nonneg_l; lia).
    rewrite Nat2Z.inj_mul. change (2 ^ 32)%Z with (2 ^ 31 * 2)%Z in HN. lia. }
  assert (BH : (Z.of_nat (B * H) < 2 ^ 31)%Z) by nia.
  rewrite (Z.mod_small (Z.of_nat (B * H))) by lia.
  assert (HS' : (0 < Z.of_nat S <= 2 ^ 32)%Z) by lia.
  destruct (grid_ok (Z.of_nat S) HS') as [EG GB]. 
  pose proof (Z.div_mod (Z.of_nat S + 511) 512 ltac:(lia)) as DM. pose proof (Z.mod_pos_bound (Z.of_nat S + 511) 512 ltac:(lia)) as MB.
  set (ny := gridSize (Z.of_nat blockSize) (Z.of_nat S) 1) in *. rewrite EG in *. set (q := ((Z.of_nat S + 511) / 512)%Z) in *.
  assert (NY : (q <= 65535)%Z) by lia.
  set (l := launch3 _ _ _ _ _ _ _).
  assert (GR : grid l = B * H * Z.to_nat q).
  { unfold l, launch3. cbn [grid]. change (1 <=? 65535)%Z with true. replace (Z.of_nat (B * H) <=? 2 ^ 31 - 1)%Z with true by (symmetry; apply Z.leb_le; lia).
    replace (q <=? 65535)%Z with true by (symmetry; apply Z.leb_le; exact NY). cbn [andb]. rewrite Nat2Z.id. change (Z.to_nat 1) with 1. lia. }
  assert (BD : bdim l = blockSize) by (unfold l, launch3; cbn [bdim]; lia).
  apply covers.
  - split; [rewrite GR; nia|]. split; [|rewrite BD; unfold blockSize; lia].
    rewrite GR, !Nat2Z.inj_mul, Z2Nat.id by lia. assert (q <= Z.of_nat S)%Z by lia. rewrite <- Nat2Z.inj_mul.
    assert (Z.of_nat (B * H) * q <= Z.of_nat (B * H) * Z.of_nat S)%Z by (apply Z.mul_le_mono_nonneg_l; lia). lia.
  - exact HR.
  - intros b t Hb Ht. rewrite BD in Ht. rewrite GR in Hb. unfold l, launch3. cbn [code]. rewrite Nat2Z.id.
    set (bx := b mod (B * H)). set (by_ := (b / (B * H)) mod Z.to_nat q).
    assert (Hbx : bx < B * H) by (apply Nat.mod_upper_bound; lia).
    assert (Hby : by_ < Z.to_nat q) by (apply Nat.mod_upper_bound; lia).
    rewrite (Nat.mod_small t blockSize) by exact Ht.
    assert (Eg : gidx blockSize by_ t = (Z.of_nat by_ * 512 + Z.of_nat t)%Z).
    { rewrite (gidx_ok (Z.of_nat S)); auto. fold ny. rewrite EG. exact Hby. }
    assert (Ebx : bx = bx / H * H + bx mod H) by (rewrite Nat.mul_comm; apply Nat.div_mod; lia).
    assert (Hbb : bx / H < B) by (apply Nat.div_lt_upper_bound; lia).
    assert (Hhh : bx mod H < H) by (apply Nat.mod_upper_bound; lia).
    destruct (Z.ltb_spec (gidx blockSize by_ t) (Z.of_nat S)) as [Hlt|Hge].
    + set (tt := Z.to_nat (gidx blockSize by_ t)). assert (Htt : gidx blockSize by_ t = Z.of_nat tt) by (unfold tt; rewrite Z2Nat.id; lia).
      eexists. eexists. split.
      { rewrite Ebx at 1. apply (apply_plan (bx / H) (bx mod H) tt by_ t); auto. lia. }
      split.
      * intros a Ha. apply in_flat_map in Ha as (i & _ & [<-|[<-|[<-|[<-|[]]]]]); assumption.
      * intros a v Hin. apply in_flat_map in Hin as (i & Hi & Hin). apply in_seq in Hi. destruct Hin as [e|[e|[]]]; injection e as <- <-.
        -- exists [bx / H; bx mod H; tt; i]. fold half in Eh. split; [apply mk_valid4; lia|]. split; [|reflexivity]. rewrite ravel4. unfold base. f_equal. lia.
        -- exists [bx / H; bx mod H; tt; i + half]. fold half in Eh. split; [apply mk_valid4; lia|]. split; [|reflexivity]. rewrite ravel4. unfold base. f_equal. lia.
    + exists [], []. split; [|split; intros ? *; intros []]. unfold ropeAt. destruct (Z.ltb_spec (gidx blockSize by_ t) (Z.of_nat S)); [lia|]. rewrite andb_false_r. reflexivity.
  - intros idx Hv. apply valid4 in Hv as (b & h & t & j & -> & Hb & Hh & Ht & Hj).
    assert (Hc : exists i, i < half /\ (j = i \/ j = i + half)) by (fold half in Eh; destruct (Nat.lt_ge_cases j half); [exists j; auto|exists (j - half); lia]).
    destruct Hc as (i & Hi & Ej).
    assert (Hty : t / blockSize < Z.to_nat q).
    { apply Nat.div_lt_upper_bound; [unfold blockSize; lia|]. change blockSize with (Z.to_nat 512). rewrite <- Z2Nat.inj_mul by lia. lia. }
    assert (Htx : t mod blockSize < blockSize) by (apply Nat.mod_upper_bound; unfold blockSize; lia).
    assert (Hbx : b * H + h < B * H) by nia.
    exists ((0 * Z.to_nat q + t / blockSize) * (B * H) + (b * H + h)), (0 * blockSize + t mod blockSize). rewrite GR, BD.
    split; [replace (B * H * Z.to_nat q) with (B * H * Z.to_nat q * 1) by lia; apply block_lt; auto|]. split; [lia|].
    intros R' W E. unfold l, launch3 in E. cbn [code] in E. rewrite Nat2Z.id in E.
    pose proof (launch3_at R (B * H) (Z.to_nat q) (b * H + h) (t / blockSize) 0 blockSize (t mod blockSize) 0
      (fun bx by_ _ tx _ => ropeAt input rope out B H S D (Z.of_nat off) bx by_ tx) Hbx Hty Htx) as LA. cbv beta zeta in LA. rewrite LA in E. clear LA.
    rewrite (apply_plan b h t) in E; auto.
    + injection E as _ <-. apply in_flat_map. exists i. split; [apply in_seq; lia|]. rewrite ravel4. unfold Ws, base.
      destruct Ej as [-> | ->]; [left|right; left]; do 2 f_equal; lia.
    + rewrite (gidx_ok (Z.of_nat S)); auto; [|fold ny; rewrite EG; exact Hty]. pose proof (Nat.div_mod t blockSize). change 512%Z with (Z.of_nat blockSize). unfold blockSize in *. lia.
Qed.
End Apply.
