(* C72: permute, transpose, tril, triu, expand, gather, scatter, index_select,
   repeat_interleave and indexing by tensors on CUDA tensors. *)
From Coq Require Import List Arith ZArith Bool Lia Permutation.
From Verif Require Import ShapeModel ShapeSpec ShapeProofs TensorModel TensorSpec TensorLemmas BufModel BufProofs
  BcastModel BcastSpec BcastProofs CutSpec PermModel PermSpec PermProofs IndexModel IndexSpec IndexProofs AdvSpec AdvProofs
  GpuModel GpuSpec GpuProofs CudaModel CudaSpec GpuLemmas CudaProofs GpuOrder CudaFillModel CudaItems CudaFillProofs
  CudaMoveModel CudaMoveProofs CudaMoveProofs2 CudaMoveProofs3 CudaMoveProofs4 CudaMoveProofs5 CudaMoveProofs6.
Import ListNotations.
Local Open Scope nat_scope.

(* ---- permute ---- *)

(* Whatever the schedule: element idx of the source is element permuted ds idx
   of the result. *)
Theorem cuda_permute_partial : forall V sh (F : list nat -> V) ds self out m,
  is_perm (length sh) ds -> (0 < Z.of_nat (size sh) <= 2 ^ 32)%Z ->
  has m self sh F -> room m out (size sh) -> out <> self ->
  exists l G, permuteCuda (mkD self sh) (map Z.of_nat ds) out = Ok (permuted ds sh, l) /\
    computes l m out (permuted ds sh) G /\ forall idx, valid sh idx -> G (permuted ds idx) = F idx.
Proof. intros V sh F ds self out m. rewrite size_numel. apply permute_ok. Qed.

(* Without dimensions: all of them in reverse order. *)
Theorem cuda_permute_all_partial : forall V sh (F : list nat -> V) self out m,
  (0 < Z.of_nat (size sh) <= 2 ^ 32)%Z -> has m self sh F -> room m out (size sh) -> out <> self ->
  exists l, permuteAllCuda (mkD self sh) out = Ok (rev sh, l) /\ computes l m out (rev sh) (fun idx => F (rev idx)).
Proof.
  intros V sh F self out m HZ HF HR N. rewrite size_numel in *.
  assert (P : is_perm (length sh) (rev (seq 0 (length sh)))) by apply Permutation_sym, Permutation_rev.
  assert (E : forall l : list nat, length l = length sh -> permuted (rev (seq 0 (length sh))) l = rev l).
  { intros l L. rewrite <- L. unfold permuted. rewrite map_rev. f_equal. clear L. induction l as [|x l IH]; [reflexivity|].
    cbn [length seq map]. f_equal. rewrite <- seq_shift, map_map. exact IH. }
  destruct (permute_ok V sh F _ self out m P HZ HF HR N) as (l & G & E1 & C & HG). rewrite E in E1, C by reflexivity.
  exists l. split; [exact E1|]. eapply always_mono; [exact C|]. intros m' [A B]. split; [|exact B]. apply (has_ext V m' out _ _ _ A).
  intros idx Hv. assert (Vr : valid sh (rev idx)).
  { rewrite <- (rev_involutive sh). pose proof (valid_length _ _ Hv) as L. rewrite rev_length in L.
    apply valid_nth in Hv. destruct Hv as [_ Hv]. apply valid_nth. rewrite !rev_length in *. split; [exact L|].
    intros i Hi. rewrite (rev_nth idx) by lia. rewrite (rev_nth (rev sh)) by (rewrite rev_length; lia). rewrite rev_length.
    rewrite L. apply Hv. lia. }
  rewrite <- (HG _ Vr), E by (apply (valid_length _ _ Vr)). rewrite rev_involutive. reflexivity.
Qed.

Theorem cuda_permute_rejects_partial : forall V self dims out, length dims <> length (dshape self) ->
  permuteCuda (V := V) self dims out = Fail.
Proof.
  intros V self dims out N. unfold permuteCuda. destruct (Nat.eqb_spec (length dims) (length (dshape self))); [contradiction|reflexivity].
Qed.

(* Negative dimensions, which the CPU accepts, make the kernel read outside the
   array of strides. *)
Theorem cuda_permute_negative_refuted :
  let m := mem_of [map Some [1; 2; 3; 4; 5; 6]; repeat None 6] in
  names 2 [-1; 0]%Z [1; 0] /\
  permute (mkT [2; 3] [1; 2; 3; 4; 5; 6]) [-1; 0]%Z = Ok (mkT [3; 2] [1; 4; 2; 5; 3; 6]) /\
  exists l, permuteCuda (mkD 0 [2; 3]) [-1; 0]%Z 1 = Ok ([3; 2], l) /\ may_crash l m.
Proof.
  cbv zeta. split; [repeat constructor; lia|]. split; [reflexivity|]. eexists. split; [reflexivity|].
  apply (fails_crash _ _ 0 0).
  - apply Nat.ltb_lt. vm_compute. reflexivity.
  - apply Nat.ltb_lt. vm_compute. reflexivity.
  - vm_compute. apply fails_trap.
Qed.

(* ---- transpose ---- *)

(* Dimensions a and b exchanged: by a launch, or as a view of the same buffer.  A
   matrix may have up to 2097120 rows. *)
Theorem cuda_transpose_partial : forall V sh (F : list nat -> V) d0 d1 a b self out m,
  dim_is (length sh) d0 a -> dim_is (length sh) d1 b ->
  (0 < Z.of_nat (size sh) <= 2 ^ 32)%Z -> (length sh = 2 -> (Z.of_nat (nth 0 sh 0%nat) <= 2097120)%Z) ->
  has m self sh F -> room m out (size sh) -> out <> self ->
  exists ol, transposeCuda (mkD self sh) d0 d1 out = Ok (swapped a b sh, ol) /\
    match ol with Some l => computes l m out (swapped a b sh) (fun idx => F (swapped a b idx))
                | None => has m self (swapped a b sh) (fun idx => F (swapped a b idx)) end.
Proof.
  intros V sh F d0 d1 a b self out m H0 H1. rewrite size_numel. apply transpose_ok; apply axis_some; assumption.
Qed.

Theorem cuda_transpose_rejects_partial : forall V self d0 d1 out,
  (forall k, ~ dim_is (length (dshape self)) d0 k) \/ (forall k, ~ dim_is (length (dshape self)) d1 k) ->
  transposeCuda (V := V) self d0 d1 out = Fail.
Proof.
  intros V self d0 d1 out H. unfold transposeCuda.
  assert (Q : forall d, (forall k, ~ dim_is (length (dshape self)) d k) -> axis (length (dshape self)) d = None).
  { intros d Hd. destruct (axis _ d) as [k|] eqn:E; [|reflexivity]. apply axis_some in E. destruct (Hd k E). }
  destruct H as [H|H]; rewrite (Q _ H); [reflexivity|]. destruct (axis _ d0); reflexivity.
Qed.

(* A taller matrix is refused by the device: nothing is computed. *)
Theorem cuda_transpose_tall_refuted : exists l : launch nat,
  transposeCuda (mkD 0 [Z.to_nat 2097121; 2]) 0 1 1 = Ok ([2; Z.to_nat 2097121], Some l) /\ ~ accepted l.
Proof.
  assert (Er : Z.of_nat (Z.to_nat 2097121) = 2097121%Z) by (apply Z2Nat.id; discriminate).
  set (r := Z.to_nat 2097121) in *. clearbody r.
  unfold transposeCuda. cbn [dshape length]. change (axis 2 0) with (Some 0). change (axis 2 1) with (Some 1).
  assert (E : (r =? 1)%nat = false) by (apply Nat.eqb_neq; lia).
  cbv beta iota zeta. change (0 =? 1) with false. change (Nat.min 0 1) with 0. change (Nat.max 0 1) with 1. cbn [nth]. rewrite E. change (2 =? 1) with false.
  cbn [orb andb]. change (2 =? 2) with true. unfold transpose2dCuda. cbn [dshape dbuf]. eexists. split; [reflexivity|].
  intros (G & _). revert G. unfold cudaTranspose2d, launch3. cbn [grid]. rewrite Er.
  change (((2097121 + 31) / 32) mod 2 ^ 32)%Z with 65536%Z. change (65536 <=? 65535)%Z with false. rewrite andb_false_r. cbn [andb]. lia.
Qed.

(* ---- tril, triu ---- *)

(* Up to 65535 matrices of up to 1048560 rows. *)
Theorem cuda_tril_partial : forall V (zero_ : V) bsh r c F diagonal self out m,
  (0 < Z.of_nat (size (bsh ++ [r; c])) <= 2 ^ 32)%Z -> (Z.of_nat (size bsh) <= 65535)%Z -> (Z.of_nat r <= 1048560)%Z ->
  has m self (bsh ++ [r; c]) F -> room m out (size (bsh ++ [r; c])) -> out <> self ->
  exists l, trilCuda zero_ (mkD self (bsh ++ [r; c])) diagonal out = Ok (bsh ++ [r; c], l) /\
    computes l m out (bsh ++ [r; c]) (fun idx =>
      let i := Z.of_nat (nth (length bsh) idx 0) in let j := Z.of_nat (nth (length bsh + 1) idx 0) in
      if (j <=? i + diagonal)%Z then F idx else zero_).
Proof. intros V zero_ bsh r c F diagonal self out m. rewrite !size_numel. apply (triangle_ok V zero_ true). Qed.
Theorem cuda_triu_partial : forall V (zero_ : V) bsh r c F diagonal self out m,
  (0 < Z.of_nat (size (bsh ++ [r; c])) <= 2 ^ 32)%Z -> (Z.of_nat (size bsh) <= 65535)%Z -> (Z.of_nat r <= 1048560)%Z ->
  has m self (bsh ++ [r; c]) F -> room m out (size (bsh ++ [r; c])) -> out <> self ->
  exists l, triuCuda zero_ (mkD self (bsh ++ [r; c])) diagonal out = Ok (bsh ++ [r; c], l) /\
    computes l m out (bsh ++ [r; c]) (fun idx =>
      let i := Z.of_nat (nth (length bsh) idx 0) in let j := Z.of_nat (nth (length bsh + 1) idx 0) in
      if (i + diagonal <=? j)%Z then F idx else zero_).
Proof. intros V zero_ bsh r c F diagonal self out m. rewrite !size_numel. apply (triangle_ok V zero_ false). Qed.

(* More matrices are refused by the device. *)
Theorem cuda_tril_batch_refuted : exists l : launch nat,
  trilCuda 0 (mkD 0 [Z.to_nat 65536; 2; 2]) 0 1 = Ok ([Z.to_nat 65536; 2; 2], l) /\ ~ accepted l.
Proof.
  set (b := Z.to_nat 65536). unfold trilCuda, triangleCuda. cbn [dshape length]. change (3 <? 2) with false. cbv beta iota zeta.
  eexists. split; [reflexivity|]. intros (G & _). revert G. unfold launch3. cbn [grid firstn Nat.sub fold_left]. rewrite Nat.mul_1_l.
  replace (Z.of_nat b mod 2 ^ 32)%Z with 65536%Z; [rewrite andb_false_r; lia|]. unfold b. rewrite Z2Nat.id by lia. reflexivity.
Qed.

(* ---- expand ---- *)

Theorem cuda_expand_partial : forall V sh sizes rsh (F : list nat -> V) self out m,
  expand_target sh sizes rsh -> bto sh rsh ->
  (0 < Z.of_nat (size rsh) <= 2 ^ 32)%Z -> has m self sh F -> room m out (size rsh) -> out <> self ->
  exists l, expandCuda (mkD self sh) sizes out = Ok (rsh, l) /\ computes l m out rsh (fun idx => F (bidx sh idx)).
Proof. intros V sh sizes rsh F self out m. rewrite size_numel. apply expand_ok. Qed.

(* ---- gather and scatter ---- *)

Theorem cuda_gather_partial : forall A sh dim d (F : list nat -> A) ish I J self index out m,
  dim_is (length sh) dim d -> length ish = length sh ->
  (forall k, k < length sh -> k <> d -> nth k ish 0 <= nth k sh 0) ->
  (forall idx, valid ish idx -> dim_is (nth d sh 0) (I idx) (J idx)) ->
  (0 < Z.of_nat (size ish) <= 2 ^ 32)%Z ->
  has m self sh (fun idx => El (F idx)) -> has m index ish (fun idx => Ix (I idx)) ->
  room m out (size ish) -> out <> self -> out <> index ->
  exists l, gatherCuda (mkD self sh) dim (mkD index ish) out = Ok (ish, l) /\
    computes l m out ish (fun idx => El (F (set_nth idx d (J idx)))).
Proof. intros A sh dim d F ish I J self index out m. rewrite size_numel. apply gather_ok. Qed.

Theorem cuda_gather_scatter_rejects_partial : forall A self dim index src out,
  (forall k, ~ dim_is (length (dshape self)) dim k) \/ length (dshape index) <> length (dshape self) ->
  gatherCuda (A := A) self dim index out = Fail /\ scatterCuda (A := A) self dim index src = Fail.
Proof.
  intros A self dim index src out H. unfold gatherCuda, scatterCuda, gatherScatter.
  destruct (axis (length (dshape self)) dim) as [k|] eqn:E; [|auto]. apply axis_some in E.
  destruct H as [H|H]; [destruct (H k E)|]. destruct (Nat.eqb_spec (length (dshape index)) (length (dshape self))); [contradiction|auto].
Qed.

(* The index values are not checked: a value out of range, which the CPU
   rejects, is an access outside the buffer. *)
Theorem cuda_gather_unchecked_refuted :
  let m := mem_of [map (fun x => Some (El x)) [1; 2]; [Some (Ix 5)]; [None]; [Some (El 7)]] in
  gather (mkT [2] [1; 2]) 0 (mkT [1] [5%Z]) = Fail /\ IndexModel.scatter (mkT [2] [1; 2]) 0 (mkT [1] [5%Z]) (mkT [1] [7]) = Fail /\
  (exists l, gatherCuda (mkD 0 [2]) 0 (mkD 1 [1]) 2 = Ok ([1], l) /\ may_crash l m) /\
  (exists l, scatterCuda (mkD 0 [2]) 0 (mkD 1 [1]) (mkD 3 [1]) = Ok l /\ may_crash l m).
Proof.
  cbv zeta. split; [reflexivity|]. split; [reflexivity|].
  split; (eexists; split; [reflexivity|]; apply (fails_crash _ _ 0 0);
    [apply Nat.ltb_lt; vm_compute; reflexivity|apply Nat.ltb_lt; vm_compute; reflexivity|]).
  - vm_compute. eapply fails_ld_next; [reflexivity|]. apply fails_ld. intros v. vm_compute. congruence.
  - vm_compute. eapply fails_ld_next; [reflexivity|]. eapply fails_ld_next; [reflexivity|]. apply fails_st. reflexivity.
Qed.

(* Whatever the schedule, an element named by the index gets one of the values
   sent to it, and an element that is not named keeps its own. *)
Theorem cuda_scatter_one_of_partial : forall A sh dim d (F : list nat -> A) ish I J V self index src m,
  dim_is (length sh) dim d -> length ish = length sh ->
  (forall k, k < length sh -> k <> d -> nth k ish 0 <= nth k sh 0) ->
  (forall idx, valid ish idx -> dim_is (nth d sh 0) (I idx) (J idx)) ->
  (0 < Z.of_nat (size ish) <= 2 ^ 32)%Z ->
  has m self sh (fun idx => El (F idx)) -> has m index ish (fun idx => Ix (I idx)) -> has m src ish (fun idx => El (V idx)) ->
  self <> index -> self <> src ->
  exists l, scatterCuda (mkD self sh) dim (mkD index ish) (mkD src ish) = Ok l /\
    always l m (fun m' => exists G, has m' self sh (fun idx => El (G idx)) /\ same_but self m m' /\
      forall idx, valid sh idx ->
        (exists e, valid ish e /\ set_nth e d (J e) = idx /\ G idx = V e) \/
        (forall e, valid ish e -> set_nth e d (J e) <> idx) /\ G idx = F idx).
Proof.
  intros A sh dim d F ish I J V self index src m HD HL HS HJ HZ HF HI HV N1 N2. rewrite size_numel in HZ.
  eexists. split; [apply (scatter_is (A := A) sh dim d ish self index src HD HL)|]. apply (scatter_one sh dim d F ish I J V); auto.
Qed.
(* So when the values sent to one element agree, the result is that of the CPU. *)
Theorem cuda_scatter_partial : forall A sh dim d (F : list nat -> A) ish I J V self index src m,
  dim_is (length sh) dim d -> length ish = length sh ->
  (forall k, k < length sh -> k <> d -> nth k ish 0 <= nth k sh 0) ->
  (forall idx, valid ish idx -> dim_is (nth d sh 0) (I idx) (J idx)) ->
  (0 < Z.of_nat (size ish) <= 2 ^ 32)%Z ->
  has m self sh (fun idx => El (F idx)) -> has m index ish (fun idx => Ix (I idx)) -> has m src ish (fun idx => El (V idx)) ->
  self <> index -> self <> src ->
  (forall e e', valid ish e -> valid ish e' -> set_nth e d (J e) = set_nth e' d (J e') -> V e = V e') ->
  exists l, scatterCuda (mkD self sh) dim (mkD index ish) (mkD src ish) = Ok l /\
    computes l m self sh (fun idx => El (after_writes (indices ish) (fun e => set_nth e d (J e)) V F idx)).
Proof.
  intros A sh dim d F ish I J V self index src m HD HL HS HJ HZ HF HI HV N1 N2 HA. rewrite size_numel in HZ.
  eexists. split; [apply (scatter_is (A := A) sh dim d ish self index src HD HL)|]. apply (scatter_agree sh dim d F ish I J V); auto.
Qed.
(* Otherwise each of the values sent to an element stays under some schedule. *)
Theorem cuda_scatter_any_refuted : forall A sh dim d (F : list nat -> A) ish I J V self index src m,
  dim_is (length sh) dim d -> length ish = length sh ->
  (forall k, k < length sh -> k <> d -> nth k ish 0 <= nth k sh 0) ->
  (forall idx, valid ish idx -> dim_is (nth d sh 0) (I idx) (J idx)) ->
  (0 < Z.of_nat (size ish) <= 2 ^ 32)%Z ->
  has m self sh (fun idx => El (F idx)) -> has m index ish (fun idx => Ix (I idx)) -> has m src ish (fun idx => El (V idx)) ->
  self <> index -> self <> src ->
  exists l, scatterCuda (mkD self sh) dim (mkD index ish) (mkD src ish) = Ok l /\
    forall e, valid ish e -> sometimes l m (fun m' => m' (self, Z.of_nat (ravel sh (set_nth e d (J e)))) = Some (Some (El (V e)))).
Proof.
  intros A sh dim d F ish I J V self index src m HD HL HS HJ HZ HF HI HV N1 N2. rewrite size_numel in HZ.
  eexists. split; [apply (scatter_is (A := A) sh dim d ish self index src HD HL)|]. apply (scatter_any sh dim d F ish I J V); auto.
Qed.

(* ---- index_select and repeat_interleave ---- *)

Theorem cuda_index_select_partial : forall A sh dim d (F : list nat -> A) n I J self index out m,
  dim_is (length sh) dim d -> (forall k, k < n -> I [k] = Z.of_nat (J k) /\ J k < nth d sh 0) ->
  (0 < Z.of_nat (size (set_nth sh d n)) <= 2 ^ 32)%Z ->
  has m self sh (fun idx => El (F idx)) -> has m index [n] (fun k => Ix (I k)) ->
  room m out (size (set_nth sh d n)) -> out <> self -> out <> index ->
  exists l, indexSelectCuda (mkD self sh) dim (mkD index [n]) out = Ok (set_nth sh d n, Some l) /\
    computes l m out (set_nth sh d n) (fun idx => El (F (set_nth idx d (J (nth d idx 0))))).
Proof. intros A sh dim d F n I J self index out m. rewrite size_numel. apply indexSelect_ok. Qed.
Theorem cuda_repeat_interleave_partial : forall V sh dim d (F : list nat -> V) r self out m,
  dim_is (length sh) dim d -> 0 < r ->
  (0 < Z.of_nat (size (set_nth sh d (nth d sh 0%nat * r)%nat)) <= 2 ^ 32)%Z ->
  has m self sh F -> room m out (size (set_nth sh d (nth d sh 0 * r))) -> out <> self ->
  exists l, repeatInterleaveCuda (mkD self sh) (Z.of_nat r) dim out = Ok (set_nth sh d (nth d sh 0 * r), l) /\
    computes l m out (set_nth sh d (nth d sh 0 * r)) (fun idx => F (set_nth idx d (nth d idx 0 / r))).
Proof. intros V sh dim d F r self out m. rewrite size_numel. apply repeat_ok. Qed.
Theorem cuda_select_repeat_reject_partial : forall A V self dim index out r,
  (forall k, ~ dim_is (length (dshape self)) dim k) ->
  indexSelectCuda (A := A) self dim index out = Fail /\ repeatInterleaveCuda (V := V) self r dim out = Fail.
Proof.
  intros A V self dim index out r H. unfold indexSelectCuda, repeatInterleaveCuda.
  destruct (axis (length (dshape self)) dim) as [k|] eqn:E; [|auto]. apply axis_some in E. destruct (H k E).
Qed.
Theorem cuda_repeat_count_rejected_partial : forall V self dim out r, (r <= 0)%Z -> repeatInterleaveCuda (V := V) self r dim out = Fail.
Proof.
  intros V self dim out r H. unfold repeatInterleaveCuda. destruct (axis _ dim); [|reflexivity].
  destruct (Z.leb_spec r 0); [reflexivity|lia].
Qed.

(* ---- index tensors ---- *)

Theorem cuda_index_tensors_read_partial : forall A sh ish Is P bufs (F : list nat -> A) self out m,
  names_positions sh ish Is P -> Forall2 (fun b I => has m b ish (fun j => Ix (I j))) bufs Is ->
  (0 < Z.of_nat (size ish) <= 2 ^ 32)%Z ->
  has m self sh (fun idx => El (F idx)) -> room m out (size (ish ++ skipn (length Is) sh)) -> out <> self -> ~ In out bufs ->
  exists l, indexAdvanceCuda (mkD self sh) (map (fun b => mkD b ish) bufs) out = Ok (ish ++ skipn (length Is) sh, l) /\
    computes l m out (ish ++ skipn (length Is) sh)
      (fun idx => El (F (P (firstn (length ish) idx) ++ skipn (length ish) idx))).
Proof. intros A sh ish Is P bufs F self out m NP HI HZ HF HR. rewrite size_numel in *. apply (adv_read sh ish Is P bufs m NP HI HZ F self out HF HR). Qed.

(* The value put: a number in device memory, or as many elements as are named. *)
Theorem cuda_index_tensors_put_partial : forall A sh ish Is P bufs (F V : list nat -> A) self val vsh m,
  let esh := ish ++ skipn (length Is) sh in
  names_positions sh ish Is P -> Forall2 (fun b I => has m b ish (fun j => Ix (I j))) bufs Is ->
  (0 < Z.of_nat (size ish) <= 2 ^ 32)%Z ->
  has m self sh (fun idx => El (F idx)) ->
  vsh = [] /\ (forall e, valid esh e -> m (val, 0%Z) = Some (Some (El (V e)))) \/
  vsh <> [] /\ size vsh = size esh /\ has m val esh (fun e => El (V e)) ->
  self <> val -> ~ In self bufs ->
  exists l, indexPutAdvanceCuda (mkD self sh) (map (fun b => mkD b ish) bufs) (mkD val vsh) = Ok l /\
    always l m (fun m' => exists G, has m' self sh (fun idx => El (G idx)) /\ same_but self m m' /\
      forall idx, valid sh idx ->
        (exists e, valid esh e /\ adv_source ish P e = idx /\ G idx = V e) \/
        (forall e, valid esh e -> adv_source ish P e <> idx) /\ G idx = F idx) /\
    ((forall e e', valid esh e -> valid esh e' -> adv_source ish P e = adv_source ish P e' -> V e = V e') ->
     computes l m self sh (fun idx => El (after_writes (indices esh) (adv_source ish P) V F idx))).
Proof.
  intros A sh ish Is P bufs F V self val vsh m esh NP HI HZ HF HV N1 N2. rewrite !size_numel in *.
  destruct (put_launch sh ish Is P bufs m NP HI HZ F V self val vsh HF HV N1 N2) as (l & body & E & K & PL).
  exists l. split; [exact E|]. split.
  - eapply puts; [exact K|exact HZ|exact HF|exact PL| |].
    + intros e. apply (put_items sh ish Is HZ).
    + intros e. apply (source_ok sh ish Is P NP).
  - intros HA. eapply puts_agree; [exact K|exact HZ|exact HF|exact PL| | |exact HA].
    + intros e. apply (put_items sh ish Is HZ).
    + intros e. apply (source_ok sh ish Is P NP).
Qed.
(* When a position is named twice, each of its values stays under some schedule. *)
Theorem cuda_index_tensors_put_any_refuted : forall A sh ish Is P bufs (F V : list nat -> A) self val vsh m,
  let esh := ish ++ skipn (length Is) sh in
  names_positions sh ish Is P -> Forall2 (fun b I => has m b ish (fun j => Ix (I j))) bufs Is ->
  (0 < Z.of_nat (size ish) <= 2 ^ 32)%Z ->
  has m self sh (fun idx => El (F idx)) ->
  vsh = [] /\ (forall e, valid esh e -> m (val, 0%Z) = Some (Some (El (V e)))) \/
  vsh <> [] /\ size vsh = size esh /\ has m val esh (fun e => El (V e)) ->
  self <> val -> ~ In self bufs ->
  exists l, indexPutAdvanceCuda (mkD self sh) (map (fun b => mkD b ish) bufs) (mkD val vsh) = Ok l /\
    forall e, valid esh e -> sometimes l m (fun m' => m' (self, Z.of_nat (ravel sh (adv_source ish P e))) = Some (Some (El (V e)))).
Proof.
  intros A sh ish Is P bufs F V self val vsh m esh NP HI HZ HF HV N1 N2. rewrite !size_numel in *.
  destruct (put_launch sh ish Is P bufs m NP HI HZ F V self val vsh HF HV N1 N2) as (l & body & E & K & PL).
  exists l. split; [exact E|]. eapply puts_any; [exact K|exact HZ|exact HF|exact PL| | | |].
  - intros e. apply (put_items sh ish Is HZ).
  - intros e. apply (source_ok sh ish Is P NP).
  - intros i e e' Hi He He' Ea. apply in_map_iff in He as (k & <- & Hk). apply in_map_iff in He' as (k' & <- & Hk').
    assert (Vi : valid ish (offsetToIndices ish (Z.to_nat i))) by (apply o2i_valid; lia).
    rewrite !source_split in Ea by (apply (valid_length _ _ Vi)). apply app_inv_head in Ea. rewrite Ea. reflexivity.
  - intros i Hi. apply NoDup_map_in; [|apply seq_NoDup]. intros k k' Hk Hk' Ea. apply in_seq in Hk, Hk'. apply app_inv_head in Ea.
    assert (Q : forall k, k < numel (skipn (length Is) sh) -> ravel (skipn (length Is) sh) (offsetToIndices (skipn (length Is) sh) k) = k) by (intros; apply ravel_o2i; auto).
    rewrite <- (Q k), <- (Q k') by lia. rewrite Ea. reflexivity.
Qed.
Theorem cuda_index_tensors_put_rejects_partial : forall A self inds val sh ish,
  dshape self = sh -> inds <> [] -> Forall (fun t => dshape t = ish) inds -> length inds <= length sh ->
  dshape val <> [] -> size (dshape val) <> size (ish ++ skipn (length inds) sh) ->
  indexPutAdvanceCuda (A := A) self inds val = Fail.
Proof.
  intros A self inds val sh ish Es Hne HI HL Hv Hn. rewrite !size_numel in Hn. destruct inds as [|t0 r]; [congruence|].
  unfold indexPutAdvanceCuda. rewrite Es. assert (E0 : dshape t0 = ish) by (inversion HI; auto). rewrite E0. rewrite numel_app in Hn.
  destruct (Nat.ltb_spec (length sh) (length (t0 :: r))); [lia|]. cbv zeta. rewrite stride_last by (cbn [length] in *; lia).
  destruct val as [vb vs]. cbn [dshape] in *. rewrite isScalar_bare.
  replace (match vs with [] => true | _ => false end) with false by (destruct vs; [congruence|reflexivity]).
  assert (G : forall a b : nat, a <> b -> (a =? b) = false) by (intros; apply Nat.eqb_neq; auto).
  assert (Q : (numel vs =? numel (skipn (length (t0 :: r)) sh) * numel ish) = false) by (apply G; lia).
  rewrite Q. destruct sh as [|d0 [|d1 [|d2 sh]]]; try reflexivity. destruct r as [|t1 [|t2 r]]; try reflexivity.
  cbn [length skipn] in Hn. rewrite numel_nil in Hn. rewrite G by lia. reflexivity.
Qed.

(* ---- non-trivial cases ---- *)

(* A 2x3 matrix, on two tiles' worth of threads, and its transpose. *)
Example cuda_transpose_ex : let m := mem_of [map Some [1; 2; 3; 4; 5; 6]; repeat None 6] in
  has m 0 [2; 3] (fun idx => nth 0 idx 0 * 3 + nth 1 idx 0 + 1) /\ room m 1 (size [2; 3]) /\
  exists l, transposeCuda (mkD 0 [2; 3]) 0 (-1) 1 = Ok ([3; 2], Some l) /\ always l m (fun m' => holds m' 1 [1; 4; 2; 5; 3; 6]).
Proof.
  cbv zeta.
  assert (HF : has (mem_of [map Some [1; 2; 3; 4; 5; 6]; repeat None 6]) 0 [2; 3] (fun idx => nth 0 idx 0 * 3 + nth 1 idx 0 + 1)) by (apply holds_of; reflexivity).
  assert (HR : room (mem_of [map Some [1; 2; 3; 4; 5; 6]; repeat None 6]) 1 (size [2; 3])) by (apply room_of; reflexivity).
  split; [exact HF|]. split; [exact HR|].
  destruct (cuda_transpose_partial nat [2; 3] _ 0 (-1) 0 1 0 1 _ ltac:(split; cbn; lia) ltac:(split; cbn; lia) ltac:(vm_compute; split; congruence) ltac:(intros _; vm_compute; congruence) HF HR ltac:(lia)) as (ol & E & C).
  eexists. split; [reflexivity|]. injection E as <-. cbv beta iota in C. eapply always_mono; [exact C|]. intros m' [A _]. exact A.
Qed.
(* Both values sent to element 0 may stay there. *)
Example cuda_scatter_ex : let m := mem_of [[Some (El 1); Some (El 2)]; [Some (Ix 0); Some (Ix (-2))]; [Some (El 7); Some (El 8)]] in
  exists l, scatterCuda (mkD 0 [2]) 0 (mkD 1 [2]) (mkD 2 [2]) = Ok l /\
    sometimes l m (fun m' => m' (0, 0%Z) = Some (Some (El 7))) /\ sometimes l m (fun m' => m' (0, 0%Z) = Some (Some (El 8))).
Proof.
  cbv zeta. set (m := mem_of _).
  destruct (cuda_scatter_any_refuted nat [2] 0 0 (fun i => nth 0 i 0 + 1) [2] (fun i => nth (nth 0 i 0) [0; -2]%Z 0%Z) (fun _ => 0) (fun i => nth 0 i 0 + 7) 0 1 2 m) as (l & E & H).
  - split; cbn; lia.
  - reflexivity.
  - cbn [length]. lia.
  - intros idx Hv. inversion Hv as [|i ? r ? Hi Hv']; subst. inversion Hv'; subst. split; [cbn; lia|]. destruct i as [|[|i]]; cbn; lia.
  - vm_compute. split; congruence.
  - apply holds_of. reflexivity.
  - apply holds_of. reflexivity.
  - apply holds_of. reflexivity.
  - lia.
  - lia.
  - exists l. split; [exact E|]. split; [apply (H [0]); repeat constructor; lia|apply (H [1]); repeat constructor; lia].
Qed.
(* Rows 2 and -3 (= 0) of a 3x2 matrix. *)
Example cuda_index_ex : let m := mem_of [map (fun x => Some (El x)) [0; 1; 2; 3; 4; 5]; [Some (Ix 2); Some (Ix (-3))]; repeat None 4] in
  exists l, indexAdvanceCuda (mkD 0 [3; 2]) [mkD 1 [2]] 2 = Ok ([2; 2], l) /\ always l m (fun m' => holds m' 2 [El 4; El 5; El 0; El 1]).
Proof.
  cbv zeta. set (m := mem_of _).
  destruct (cuda_index_tensors_read_partial nat [3; 2] [2] [fun j => nth (nth 0 j 0) [2; -3]%Z 0%Z] (fun j => [nth (nth 0 j 0) [2; 0] 0]) [1]
    (fun i => nth 0 i 0 * 2 + nth 1 i 0) 0 2 m) as (l & E & H).
  - split; [discriminate|]. split; [cbn; lia|]. intros j Hv. inversion Hv as [|i ? r ? Hi Hv']; subst. inversion Hv'; subst.
    split; [reflexivity|]. split; [cbn; lia|]. cbn [map length]. intros k Hk. replace k with 0 by lia. destruct i as [|[|i]]; [| |lia]; cbn; split; lia.
  - constructor; [|constructor]. apply holds_of. reflexivity.
  - vm_compute. split; congruence.
  - apply holds_of. reflexivity.
  - apply room_of. reflexivity.
  - lia.
  - intros [|[]]; lia.
  - exists l. split; [exact E|]. eapply always_mono; [exact H|]. intros m' [A _]. exact A.
Qed.

Print Assumptions cuda_permute_partial.
Print Assumptions cuda_permute_all_partial.
Print Assumptions cuda_permute_rejects_partial.
Print Assumptions cuda_permute_negative_refuted.
Print Assumptions cuda_transpose_partial.
Print Assumptions cuda_transpose_rejects_partial.
Print Assumptions cuda_transpose_tall_refuted.
Print Assumptions cuda_tril_partial.
Print Assumptions cuda_triu_partial.
Print Assumptions cuda_tril_batch_refuted.
Print Assumptions cuda_expand_partial.
Print Assumptions cuda_gather_partial.
Print Assumptions cuda_gather_scatter_rejects_partial.
Print Assumptions cuda_gather_unchecked_refuted.
Print Assumptions cuda_scatter_one_of_partial.
Print Assumptions cuda_scatter_partial.
Print Assumptions cuda_scatter_any_refuted.
Print Assumptions cuda_index_select_partial.
Print Assumptions cuda_repeat_interleave_partial.
Print Assumptions cuda_select_repeat_reject_partial.
Print Assumptions cuda_repeat_count_rejected_partial.
Print Assumptions cuda_index_tensors_read_partial.
Print Assumptions cuda_index_tensors_put_partial.
Print Assumptions cuda_index_tensors_put_any_refuted.
Print Assumptions cuda_index_tensors_put_rejects_partial.
