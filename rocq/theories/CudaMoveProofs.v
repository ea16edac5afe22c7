(* The CUDA operations that move elements: one thread per element of the
   result. *)
From Coq Require Import List Arith ZArith Bool Lia Permutation.
From Verif Require Import ShapeModel ShapeSpec ShapeProofs TensorModel TensorSpec TensorLemmas
  BcastModel BcastSpec BcastProofs BufModel BufProofs CutModel CutSpec PermModel PermSpec PermProofs PermProofs2
  IndexModel IndexSpec IndexProofs AdvModel AdvSpec AdvProofs
  GpuModel GpuSpec GpuProofs CudaModel CudaSpec GpuLemmas CudaProofs GpuOrder CudaFillModel CudaItems CudaFillProofs CudaMoveModel.
Import ListNotations.
Local Open Scope nat_scope.

(* ---- index arithmetic ---- *)

Lemma coordsZ_acc : forall sh idx acc, valid sh idx ->
  snd (fold_left (fun acc s => (fst acc mod Z.of_nat s, snd acc ++ [fst acc / Z.of_nat s])%Z) (strides sh) (Z.of_nat (ravel sh idx), acc))
  = acc ++ map Z.of_nat idx.
Proof.
  intros sh idx acc Hv. revert acc. induction Hv as [|i d idx sh Hi Hv IH]; intros acc.
  - cbn. rewrite app_nil_r. reflexivity.
  - rewrite strides_cons, ravel_cons. cbn [fold_left fst snd].
    pose proof (ravel_lt sh idx Hv) as L.
    assert (E1 : (Z.of_nat (i * numel sh + ravel sh idx) mod Z.of_nat (numel sh) = Z.of_nat (ravel sh idx))%Z).
    { rewrite Nat2Z.inj_add, Nat2Z.inj_mul, Z.add_comm, Z.mod_add by lia. apply Z.mod_small. lia. }
    assert (E2 : (Z.of_nat (i * numel sh + ravel sh idx) / Z.of_nat (numel sh) = Z.of_nat i)%Z).
    { rewrite Nat2Z.inj_add, Nat2Z.inj_mul, Z.div_add_l by lia. rewrite Z.div_small by lia. lia. }
    rewrite E1, E2, IH. cbn [map]. rewrite <- app_assoc. reflexivity.
Qed.
Lemma coordsZ_ok : forall sh idx, valid sh idx -> coordsZ (strides sh) (Z.of_nat (ravel sh idx)) = map Z.of_nat idx.
Proof. intros sh idx Hv. unfold coordsZ. rewrite coordsZ_acc by exact Hv. reflexivity. Qed.

Lemma offsetAt_ito : forall st c, offsetAt (map Z.of_nat c) st = Z.of_nat (indicesToOffset st c).
Proof.
  induction st as [|s st IH]; intros [|x c]; try reflexivity. cbn [map]. rewrite offsetAt_cons, IH, ito_cons. lia.
Qed.
Lemma offsetAt_ravel : forall sh c, offsetAt (map Z.of_nat c) (strides sh) = Z.of_nat (ravel sh c).
Proof. intros sh c. rewrite offsetAt_ito. reflexivity. Qed.

Lemma setZ_map : forall idx d x, d < length idx -> setZ (map Z.of_nat idx) d (Z.of_nat x) = map Z.of_nat (set_nth idx d x).
Proof.
  unfold setZ. induction idx as [|y idx IH]; intros d x Hd; [cbn in Hd; lia|].
  destruct d as [|d]; [reflexivity|]. cbn [map firstn skipn app set_nth]. f_equal. apply IH. cbn in Hd. lia.
Qed.
Lemma nth_mapZ : forall idx d, nth d (map Z.of_nat idx) 0%Z = Z.of_nat (nth d idx 0).
Proof. intros. change 0%Z with (Z.of_nat 0). apply map_nth. Qed.

(* ---- kernels of one load ---- *)

Lemma one_load : forall V (l : launch V) m out sh F P (s : list nat -> addr),
  is1d l (Z.of_nat (numel sh)) P -> (0 < Z.of_nat (numel sh) <= 2 ^ 32)%Z -> room m out (numel sh) ->
  (forall idx, valid sh idx ->
     P (Z.of_nat (ravel sh idx)) = Ld (s idx) (fun v => St (out, Z.of_nat (ravel sh idx)) v Done) /\
     m (s idx) = Some (Some (F idx)) /\ fst (s idx) <> out) ->
  computes l m out sh F.
Proof.
  intros V l m out sh F P s K HZ HR H. apply (gathers_at l m out sh F P); auto.
  intros idx Hv. destruct (H idx Hv) as (E & Em & N). exists [s idx]. split.
  - rewrite E. apply (plan_ld _ _ _ (F idx)); [exact Em|]. apply plan_st; [|reflexivity].
    apply (room_at V m out _ _ HR). pose proof (ravel_lt sh idx Hv). lia.
  - intros a [<-|[]]. exact N.
Qed.

(* ---- permute ---- *)

Lemma origin_accZ : forall ps a i,
  fst (fold_left (fun acc p => (fst acc + snd acc / Z.of_nat (fst p) * Z.of_nat (snd p), snd acc mod Z.of_nat (fst p))%Z) ps (Z.of_nat a, Z.of_nat i))
  = Z.of_nat (fst (fold_left (fun acc p => (fst acc + snd acc / fst p * snd p, snd acc mod fst p)) ps (a, i))).
Proof.
  induction ps as [|[s w] ps IH]; intros a i; [reflexivity|]. cbn [fold_left fst snd].
  rewrite <- IH. do 3 f_equal.
  - rewrite <- Nat2Z.inj_div. lia.
  - rewrite <- Nat2Z.inj_mod. reflexivity.
Qed.

Lemma permuteIndex_ok : forall rstr sstr ds i, Forall (fun d => d < length sstr) ds ->
  permuteIndex rstr sstr (map Z.of_nat ds) (Z.of_nat i) = Some (Z.of_nat (originIndex rstr (map (fun d => nth d sstr 0) ds) i)).
Proof.
  intros rstr sstr ds i H. unfold permuteIndex.
  assert (E : seqopt (map (arr sstr) (map Z.of_nat ds)) = Some (map (fun d => nth d sstr 0) ds)).
  { rewrite map_map. induction H as [|d ds Hd H IH]; [reflexivity|]. cbn [map seqopt]. rewrite IH.
    unfold arr. destruct (Z.ltb_spec (Z.of_nat d) 0); [lia|]. rewrite Nat2Z.id, (nth_error_nth' _ 0 Hd). reflexivity. }
  rewrite E. f_equal. apply (origin_accZ _ 0 i).
Qed.

Lemma permute_ok : forall V sh (F : list nat -> V) ds self out m,
  is_perm (length sh) ds -> (0 < Z.of_nat (numel sh) <= 2 ^ 32)%Z ->
  has m self sh F -> room m out (numel sh) -> out <> self ->
  exists l G, permuteCuda (mkD self sh) (map Z.of_nat ds) out = Ok (permuted ds sh, l) /\
    computes l m out (permuted ds sh) G /\ forall idx, valid sh idx -> G (permuted ds idx) = F idx.
Proof.
  intros V sh F ds self out m HP HZ HF HR N.
  pose proof (is_perm_length _ _ HP) as L.
  assert (HD : Forall (fun d => d < length sh) ds) by (apply Forall_forall; intros d Hd; apply (is_perm_lt _ _ _ HP Hd)).
  destruct (inverse_exists _ _ HP) as (es & PE & I1 & I2).
  assert (NR : numel (permuted ds sh) = numel sh) by (apply numel_perm, (permuted_perm (length sh)); auto).
  assert (LR : length (permuted ds sh) = length sh) by (unfold permuted; rewrite map_length; exact L).
  assert (B : forall idx, valid sh idx -> permuted es (permuted ds idx) = idx).
  { intros idx Hv. apply (permuted_inverse (length sh)); auto. apply (valid_length _ _ Hv). }
  assert (ER : reorderIndices sh (map Z.of_nat ds) = permuted ds sh).
  { unfold reorderIndices. rewrite (names_axis _ _ ds); [reflexivity|]. apply names_of_nat, HD. }
  exists (kernel1d (Z.of_nat (numel sh)) (fun i =>
    match permuteIndex (strides (permuted ds sh)) (strides sh) (map Z.of_nat ds) i with
    | None => Trap
    | Some s => Ld (self, s) (fun v => St (out, i) v Done)
    end)), (fun ridx => F (permuted es ridx)).
  split; [|split].
  - unfold permuteCuda. cbn [dshape dbuf]. rewrite map_length, L, Nat.eqb_refl. cbn [negb]. rewrite ER. reflexivity.
  - rewrite <- NR in *. eapply (one_load V _ m out (permuted ds sh) _ _ (fun ridx => (self, Z.of_nat (ravel sh (permuted es ridx))))).
    + apply kernel1d_is.
    + exact HZ.
    + exact HR.
    + intros ridx Hv. cbv beta.
      assert (Hs : valid sh (permuted es ridx)).
      { pose proof (permuted_valid (length sh) es _ _ PE LR Hv) as Q. rewrite (permuted_inverse (length sh)) in Q; auto. }
      rewrite permuteIndex_ok by (rewrite strides_length; exact HD).
      rewrite origin_spec by (auto; rewrite map_length; lia).
      assert (E : indicesToOffset (map (fun d => nth d (strides sh) 0) ds) ridx = ravel sh (permuted es ridx)).
      { rewrite <- (permuted_inverse (length sh) es ds ridx) at 1; auto.
        - apply (perm_dot (length sh)); auto; [apply strides_length|apply (valid_length _ _ Hs)].
        - apply (is_perm_length _ _ PE).
        - rewrite (valid_length _ _ Hv). exact LR. }
      rewrite E. split; [reflexivity|]. split; [|cbn; congruence]. apply has_at; auto.
  - intros idx Hv. cbv beta. rewrite B by exact Hv. reflexivity.
Qed.

(* ---- expand ---- *)

Lemma isScalar_bare : forall self sh, isScalar (bare (mkD self sh)) = match sh with [] => true | _ => false end.
Proof. intros self [|d sh]; reflexivity. Qed.

Lemma bto_valid : forall sh rsh idx, bto sh rsh -> valid rsh idx -> valid sh (bidx sh idx).
Proof. intros sh rsh idx H Hv. eapply bidx_valid; eauto. Qed.

Lemma ones_map : forall l idx, map (fun p => if fst p =? 1 then 0%Z else snd p) (combine l (map Z.of_nat idx))
  = map Z.of_nat (map (fun p => if fst p =? 1 then 0 else snd p) (combine l idx)).
Proof.
  induction l as [|y l IH]; intros [|x idx]; try reflexivity. cbn [map combine fst snd].
  f_equal; [destruct (y =? 1); reflexivity|apply IH].
Qed.

Lemma expand_ok : forall V sh sizes rsh (F : list nat -> V) self out m,
  expand_target sh sizes rsh -> bto sh rsh -> (0 < Z.of_nat (numel rsh) <= 2 ^ 32)%Z ->
  has m self sh F -> room m out (numel rsh) -> out <> self ->
  exists l, expandCuda (mkD self sh) sizes out = Ok (rsh, l) /\ computes l m out rsh (fun idx => F (bidx sh idx)).
Proof.
  intros V sh sizes rsh F self out m HT HB HZ HF HR N.
  unfold expandCuda. cbn [dshape dbuf]. rewrite (proj2 (expandShape_iff sh sizes rsh) HT). cbn [rbind].
  rewrite isScalar_bare.
  assert (LR : length rsh = length sizes) by (destruct HT as (_ & L & _); exact L).
  assert (LS : length sh <= length sizes) by (destruct HT as (L & _); exact L).
  assert (C : computes (kernel1d (Z.of_nat (numel rsh)) (fun i =>
        Ld (self, offsetAt (map (fun p => if fst p =? 1 then 0%Z else snd p) (combine (repeat 1 (length sizes - length sh) ++ sh) (coordsZ (strides rsh) i)))
              (repeat 0 (length sizes - length sh) ++ strides sh)) (fun v => St (out, i) v Done)))
      m out rsh (fun idx => F (bidx sh idx))).
  { eapply (one_load V _ m out rsh _ _ (fun idx => (self, Z.of_nat (ravel sh (bidx sh idx))))).
    - apply kernel1d_is.
    - exact HZ.
    - exact HR.
    - intros idx Hv. cbv beta. rewrite coordsZ_ok by exact Hv. split; [|split; [|cbn; congruence]].
      + do 2 f_equal. rewrite <- (ito_pad (length sizes - length sh) sh idx).
        * rewrite <- offsetAt_ito. f_equal. apply ones_map.
        * rewrite (valid_length _ _ Hv). lia.
      + apply has_at; [exact HF|]. eapply bto_valid; eauto. }
  destruct sh as [|d sh].
  - eexists. split; [reflexivity|].
    apply (computes_of V _ m out rsh (fun _ => F (bidx [] []))); [exact HR|].
    eapply always_mono.
    + apply (fill_range_device V (F []) out self m 0 (Z.of_nat (numel rsh)) HZ).
      * intros i Hi. apply (room_at V m out _ _ HR Hi).
      * apply (has_at V m self [] F [] HF). constructor.
      * intros e. congruence.
    + intros m' H. exact H.
  - eexists. split; [reflexivity|exact C].
Qed.
