(* The sums over several dimensions, for a result buffer as large as the operand. *)
From Coq Require Import List Arith ZArith Bool Lia Permutation Ring.
From Verif Require Import ShapeModel ShapeSpec ShapeProofs TensorModel TensorSpec TensorLemmas BcastModel BcastSpec BcastProofs BcastProofs2 BufModel BufProofs CutSpec
  ReduceModel ReduceSpec ReduceProofs ReduceProofs2
  GpuModel GpuSpec GpuProofs GpuLemmas GpuOrder GpuWarp
  CudaModel CudaSpec CudaProofs CudaFillModel CudaItems CudaFillProofs CudaMoveModel CudaReduceModel CudaReduceSpec CudaReduceProofs3 CudaReduceMulti.
Import ListNotations.
Local Open Scope nat_scope.

(* the number of elements of a group *)
Fixpoint groupSize (sh : list nat) (ax : list bool) : nat :=
  match sh, ax with
  | d :: sh, a :: ax => (if a : bool then d else 1) * groupSize sh ax
  | _, _ => 1
  end.

Fixpoint memberIdx (sh : list nat) (ax : list bool) (o r : nat) : list nat :=
  match sh, ax with
  | d :: sh, a :: ax => (if a : bool then (r / groupSize sh ax) mod d else (o / numel (reduced_shape ax false sh)) mod d) :: memberIdx sh ax o r
  | _, _ => []
  end.

Lemma rsize_cons : forall a ax d sh, numel (reduced_shape (a :: ax) false (d :: sh)) = (if a : bool then 1 else d) * numel (reduced_shape ax false sh).
Proof. intros. rewrite rshape_cons, numel_app. destruct a; cbn [numel]; rewrite ?numel_cons, ?numel_nil; lia. Qed.

Lemma rsize_pos : forall sh ax, Forall (fun d => 0 < d) sh -> length ax = length sh -> 0 < numel (reduced_shape ax false sh) /\ 0 < groupSize sh ax.
Proof.
  induction sh as [|d sh IH]; intros [|a ax] HP HL; try discriminate; [cbn; lia|]. inversion HP; subst. rewrite rsize_cons. cbn [groupSize].
  destruct (IH ax) as [A B]; auto. destruct a; nia.
Qed.

Lemma multi_state : forall sh ax o r, Forall (fun d => 0 < d) sh -> length ax = length sh ->
  fold_right (fun (p : nat * nat * bool) (acc : Z * Z * Z) =>
         let '(d, st, reduced) := p in let '(o, q, i) := acc in
         if reduced then (o, q / Z.of_nat d, i + q mod Z.of_nat d * Z.of_nat st)%Z
         else (o / Z.of_nat d, q, i + o mod Z.of_nat d * Z.of_nat st)%Z)
       (Z.of_nat o, Z.of_nat r, 0%Z) (combine (combine sh (strides sh)) ax)
  = (Z.of_nat (o / numel (reduced_shape ax false sh)), Z.of_nat (r / groupSize sh ax), Z.of_nat (ravel sh (memberIdx sh ax o r))).
Proof.
  induction sh as [|d sh IH]; intros [|a ax] o r HP HL; try discriminate.
  - cbn [combine fold_right groupSize memberIdx]. change (numel (reduced_shape [] false [])) with 1. rewrite !Nat.div_1_r. reflexivity.
  - inversion HP as [|? ? Hd HP']; subst. cbn [length] in HL. destruct (rsize_pos sh ax HP' ltac:(lia)) as [R0 G0].
    rewrite strides_cons. cbn [combine fold_right]. rewrite IH by (auto; lia). rewrite rsize_cons. cbn [groupSize memberIdx]. rewrite ravel_cons.
    destruct a; rewrite ?Nat.mul_1_l; f_equal; try f_equal.
    + rewrite (Nat.mul_comm d), <- Nat.div_div by lia. rewrite !Nat2Z.inj_div. reflexivity.
    + rewrite Nat2Z.inj_add, Nat2Z.inj_mul, Nat2Z.inj_mod, Nat2Z.inj_div. lia.
    + rewrite (Nat.mul_comm d), <- Nat.div_div by lia. rewrite !Nat2Z.inj_div. reflexivity.
    + rewrite Nat2Z.inj_add, Nat2Z.inj_mul, Nat2Z.inj_mod, Nat2Z.inj_div. lia.
Qed.

Lemma multi_member : forall sh ax o r, Forall (fun d => 0 < d) sh -> length ax = length sh ->
  multiIndex sh ax (Z.of_nat o) (Z.of_nat r) = Z.of_nat (ravel sh (memberIdx sh ax o r)).
Proof. intros. unfold multiIndex. rewrite multi_state by auto. reflexivity. Qed.

Lemma member_valid : forall sh ax o r, Forall (fun d => 0 < d) sh -> length ax = length sh -> valid sh (memberIdx sh ax o r).
Proof.
  induction sh as [|d sh IH]; intros [|a ax] o r HP HL; try discriminate; [constructor|]. inversion HP; subst. cbn [memberIdx]. constructor.
  - destruct a; apply Nat.mod_upper_bound; lia.
  - apply IH; auto.
Qed.

Lemma member_add : forall sh ax o r x y, Forall (fun d => 0 < d) sh -> length ax = length sh ->
  memberIdx sh ax (o + x * numel (reduced_shape ax false sh)) (r + y * groupSize sh ax) = memberIdx sh ax o r.
Proof.
  induction sh as [|d sh IH]; intros [|a ax] o r x y HP HL; try discriminate; [reflexivity|]. inversion HP as [|? ? Hd HP']; subst. cbn [length] in HL.
  destruct (rsize_pos sh ax HP' ltac:(lia)) as [R0 G0]. rewrite rsize_cons. cbn [groupSize memberIdx]. f_equal.
  - destruct a.
    + rewrite Nat.mul_assoc, Nat.div_add, Nat.mod_add by lia. reflexivity.
    + rewrite Nat.mul_assoc, Nat.div_add, Nat.mod_add by lia. reflexivity.
  - rewrite !Nat.mul_assoc. apply IH; auto.
Qed.

Lemma seq_from : forall c n, seq c n = map (fun r => c + r) (seq 0 n).
Proof.
  intros c n. revert c. induction n as [|n IH]; intros c; [reflexivity|]. cbn [seq map]. rewrite Nat.add_0_r. f_equal.
  rewrite IH, (IH 1), map_map. apply map_ext. intros r. lia.
Qed.

Section Ring.
Context {K : cring}.
Add Ring Kr : (cring_ring K).

Lemma sum_blocks : forall (f : nat -> K) n d, sum f (seq 0 (d * n)) = sum (fun i => sum (fun r => f (i * n + r)) (seq 0 n)) (seq 0 d).
Proof.
  intros f n d. induction d as [|d IH]; [reflexivity|]. rewrite seq_S, sum_app, sum_cons, sum_nil, <- IH. cbn [Nat.add].
  replace (S d * n) with (d * n + n) by lia. rewrite seq_app, sum_app. f_equal. cbn [Nat.add]. rewrite add_0_r.
  rewrite (seq_from (d * n) n), sum_map. reflexivity.
Qed.

(* the members of a group, by their number *)
Lemma group_members : forall sh ax o (f : list nat -> K), Forall (fun d => 0 < d) sh -> length ax = length sh -> o < numel (reduced_shape ax false sh) ->
  sum (fun idx => if ravel (reduced_shape ax false sh) (reduced_idx ax false idx) =? o then f idx else zero) (indices sh)
  = sum (fun r => f (memberIdx sh ax o r)) (seq 0 (groupSize sh ax)).
Proof.
  induction sh as [|d sh IH]; intros [|a ax] o f HP HL Ho; try discriminate.
  - change (numel (reduced_shape [] false [])) with 1 in Ho. assert (o = 0) as -> by lia. reflexivity.
  - inversion HP as [|? ? Hd HP']; subst. cbn [length] in HL. destruct (rsize_pos sh ax HP' ltac:(lia)) as [R0 G0].
    rewrite rsize_cons in Ho. cbn [indices]. rewrite sum_flat_map. cbn [groupSize].
    destruct a.
    + rewrite sum_blocks. apply sum_ext. intros i Hi. apply in_seq in Hi. rewrite sum_map.
      rewrite (sum_ext _ (fun idx => if ravel (reduced_shape ax false sh) (reduced_idx ax false idx) =? o then f (i :: idx) else zero)) by reflexivity.
      rewrite (IH ax o (fun idx => f (i :: idx))) by (auto; lia). apply sum_ext. intros r Hr. apply in_seq in Hr. f_equal. cbn [memberIdx]. f_equal.
      * rewrite Nat.add_comm, Nat.div_add, Nat.div_small, Nat.add_0_l, Nat.mod_small by lia. reflexivity.
      * symmetry. transitivity (memberIdx sh ax (o + 0 * numel (reduced_shape ax false sh)) (r + i * groupSize sh ax)); [f_equal; lia|apply member_add; auto; lia].
    + rewrite Nat.mul_1_l. set (R := numel (reduced_shape ax false sh)) in *.
      assert (Eo : o = o / R * R + o mod R) by (pose proof (Nat.div_mod o R ltac:(lia)); lia).
      assert (Hq : o / R < d) by (apply Nat.div_lt_upper_bound; lia).
      pose proof (Nat.mod_upper_bound o R ltac:(lia)) as Hm.
      rewrite (sum_ext _ (fun i => if i =? o / R then sum (fun idx => if ravel (reduced_shape ax false sh) (reduced_idx ax false idx) =? o mod R then f (i :: idx) else zero) (indices sh) else zero)).
      * rewrite (sum_single Nat.eqb Nat.eqb_eq (fun i => sum (fun idx => if ravel (reduced_shape ax false sh) (reduced_idx ax false idx) =? o mod R then f (i :: idx) else zero) (indices sh)) (o / R));
          [|apply seq_NoDup|apply in_seq; split; [apply Nat.le_0_l|exact Hq]].
        rewrite (IH ax (o mod R) (fun idx => f (o / R :: idx))) by (auto; lia). apply sum_ext. intros r Hr. f_equal. cbn [memberIdx]. f_equal.
        -- rewrite Nat.mod_small by exact Hq. reflexivity.
        -- transitivity (memberIdx sh ax (o mod R + o / R * R) (r + 0 * groupSize sh ax)); [symmetry; apply member_add; auto; lia|f_equal; lia].
      * intros i Hi. rewrite sum_map. destruct (Nat.eqb_spec i (o / R)) as [->|N].
        -- apply sum_ext. intros idx Hin. apply indices_in in Hin. rewrite reduced_cons, rshape_cons. cbn [app]. rewrite ravel_cons.
           pose proof (ravel_lt _ _ (reduced_valid false sh ax idx ltac:(lia) Hin)) as HL2. fold R in HL2 |- *.
           destruct (Nat.eqb_spec (o / R * R + ravel (reduced_shape ax false sh) (reduced_idx ax false idx)) o), (Nat.eqb_spec (ravel (reduced_shape ax false sh) (reduced_idx ax false idx)) (o mod R)); try reflexivity; lia.
        -- apply sum_zero'. intros idx Hin. apply indices_in in Hin. rewrite reduced_cons, rshape_cons. cbn [app]. rewrite ravel_cons.
           pose proof (ravel_lt _ _ (reduced_valid false sh ax idx ltac:(lia) Hin)) as HL2. fold R in HL2 |- *.
           destruct (Nat.eqb_spec (i * R + ravel (reduced_shape ax false sh) (reduced_idx ax false idx)) o) as [E|]; [|reflexivity]. exfalso. apply N.
           rewrite <- E. rewrite Nat.add_comm, Nat.div_add, Nat.div_small by lia. reflexivity.
Qed.

(* the strided loads of the threads of a block are all of them *)
Lemma block_all : forall (x : Z -> K) n, blockSum x (Z.of_nat n) = sum (fun r => x (Z.of_nat r)) (seq 0 n).
Proof.
  intros x. unfold blockSum. induction n as [|n IH].
  - apply sum_zero'. intros t Ht. apply in_seq in Ht. replace (Z.to_nat ((Z.of_nat 0 - Z.of_nat t + 511) / 512)) with 0 by lia. reflexivity.
  - rewrite (seq_S n 0), sum_app, sum_cons, sum_nil, add_0_r, <- IH. cbn [Nat.add].
    rewrite <- (sum_single Nat.eqb Nat.eqb_eq (fun _ => x (Z.of_nat n)) (n mod 512) (seq 0 512)); [|apply seq_NoDup|apply in_seq; pose proof (Nat.mod_upper_bound n 512); lia].
    rewrite <- sum_add. apply sum_ext. intros t Ht. apply in_seq in Ht.
    assert (En : Z.of_nat n = (Z.of_nat n / 512 * 512 + Z.of_nat (n mod 512))%Z) by (rewrite Nat2Z.inj_mod; change (Z.of_nat 512) with 512%Z; pose proof (Z.div_mod (Z.of_nat n) 512); lia).
    pose proof (Nat.mod_upper_bound n 512 ltac:(lia)) as Hm.
    destruct (Nat.eqb_spec t (n mod 512)) as [->|N].
    + set (a := n mod 512) in *. set (q := (Z.of_nat n / 512)%Z) in *. assert (0 <= q)%Z by (apply Z.div_pos; lia). clearbody a q.
      replace (Z.to_nat ((Z.of_nat (S n) - Z.of_nat a + 511) / 512)) with (S (Z.to_nat q)) by lia.
      replace (Z.to_nat ((Z.of_nat n - Z.of_nat a + 511) / 512)) with (Z.to_nat q) by lia.
      rewrite (seq_S (Z.to_nat q) 0), map_app, sum_app. f_equal. cbn [map Nat.add]. rewrite sum_cons, sum_nil, add_0_r. f_equal. lia.
    + rewrite add_0_r. set (a := n mod 512) in *. set (q := (Z.of_nat n / 512)%Z) in *. assert (0 <= q)%Z by (apply Z.div_pos; lia). clearbody a q.
      replace (Z.to_nat ((Z.of_nat (S n) - Z.of_nat t + 511) / 512)) with (Z.to_nat ((Z.of_nat n - Z.of_nat t + 511) / 512)) by lia. reflexivity.
Qed.
End Ring.

(* ---- the count ---- *)

Definition marked (ax : list bool) : list nat := filter (fun k => nth k ax false) (seq 0 (length ax)).
Definition prodAt (sh : list nat) (ks : list nat) : nat := fold_right (fun k c => nth k sh 0 * c) 1 ks.

Lemma prod_perm : forall sh l l', Permutation l l' -> prodAt sh l = prodAt sh l'.
Proof. intros sh l l' H. induction H; cbn [prodAt fold_right] in *; fold (prodAt sh) in *; unfold prodAt in *; cbn; lia. Qed.

Lemma prod_shift : forall d sh ks, prodAt (d :: sh) (map S ks) = prodAt sh ks.
Proof. induction ks as [|k ks IH]; [reflexivity|]. transitivity (nth k sh 0 * prodAt (d :: sh) (map S ks)); [reflexivity|]. rewrite IH. reflexivity. Qed.

Lemma filter_shift : forall a ax l, filter (fun k => nth k (a :: ax) false) (map S l) = map S (filter (fun k => nth k ax false) l).
Proof. induction l as [|k l IH]; [reflexivity|]. cbn [map]. cbn [filter]. rewrite IH. change (nth (S k) (a :: ax) false) with (nth k ax false). destruct (nth k ax false); reflexivity. Qed.

Lemma marked_size : forall sh ax, length ax = length sh -> prodAt sh (marked ax) = groupSize sh ax.
Proof.
  induction sh as [|d sh IH]; intros [|a ax] HL; try discriminate; [reflexivity|]. unfold marked. cbn [length seq].
  rewrite <- seq_shift. cbn [filter groupSize]. rewrite filter_shift. fold (marked ax). change (nth 0 (a :: ax) false) with a.
  assert (E : prodAt (d :: sh) (map S (marked ax)) = groupSize sh ax) by (rewrite prod_shift; apply IH; cbn in HL; lia).
  destruct a; [|lia]. rewrite <- E. reflexivity.
Qed.

Definition normal (rank : nat) (d : Z) : nat := Z.to_nat (if d <? 0 then d + Z.of_nat rank else d)%Z.

Lemma count_dims : forall sh dims ax, axes_named (length sh) dims ax -> NoDup (map (fun d => d mod Z.of_nat (length sh))%Z dims) ->
  fold_left (fun c d => c * Z.of_nat (nth (Z.to_nat (if d <? 0 then d + Z.of_nat (length sh) else d)) sh 0%nat))%Z dims 1%Z = Z.of_nat (groupSize sh ax).
Proof.
  intros sh dims ax (HL & HA & HB) ND. rewrite <- (marked_size sh ax HL).
  assert (F : forall l c, fold_left (fun c d => c * Z.of_nat (nth (Z.to_nat (if d <? 0 then d + Z.of_nat (length sh) else d)) sh 0%nat))%Z l c = (c * Z.of_nat (prodAt sh (map (normal (length sh)) l)))%Z).
  { induction l as [|d l IH]; intros c; [cbn; lia|]. cbn [fold_left map prodAt fold_right]. rewrite IH. fold (prodAt sh (map (normal (length sh)) l)). unfold normal at 2. rewrite Nat2Z.inj_mul. lia. }
  rewrite F, Z.mul_1_l. f_equal. apply prod_perm.
  assert (E : forall d, In d dims -> Z.of_nat (normal (length sh) d) = (d mod Z.of_nat (length sh))%Z /\ dim_is (length sh) d (normal (length sh) d)).
  { intros d Hd. destruct (HA d Hd) as (k & Hk & [->|Ek]); unfold normal.
    - destruct (Z.ltb_spec (Z.of_nat k) 0); [lia|]. rewrite Nat2Z.id, Z.mod_small by lia. split; [reflexivity|]. split; [exact Hk|left; reflexivity].
    - destruct (Z.ltb_spec d 0); [|lia]. replace (d + Z.of_nat (length sh))%Z with (Z.of_nat k) by lia. rewrite Nat2Z.id. split; [|split; [exact Hk|right; exact Ek]].
      rewrite Ek. replace (Z.of_nat k - Z.of_nat (length sh))%Z with (Z.of_nat k + (-1) * Z.of_nat (length sh))%Z by lia. rewrite Z.mod_add, Z.mod_small by lia. reflexivity. }
  apply NoDup_Permutation.
  - revert ND E. clear. induction dims as [|d dims IH]; intros ND E; [constructor|]. cbn [map] in *. inversion ND; subst. constructor.
    + intros Hin. apply in_map_iff in Hin as (d' & Ed & Hd'). apply H1. apply in_map_iff. exists d'. split; [|exact Hd'].
      rewrite <- (proj1 (E d' (or_intror Hd'))), <- (proj1 (E d (or_introl eq_refl))), Ed. reflexivity.
    + apply IH; auto. intros x Hx. apply E. right. exact Hx.
  - apply NoDup_filter, seq_NoDup.
  - intros k. unfold marked. rewrite filter_In, in_seq, in_map_iff. split.
    + intros (d & <- & Hd). destruct (E d Hd) as (_ & Hk). split; [destruct Hk; lia|]. apply HB. exists d. auto.
    + intros [H1 H3].
      apply HB in H3 as (d & Hd & Hk). exists d. split; [|exact Hd]. destruct (E d Hd) as (_ & Hk'). destruct Hk, Hk'. lia.
Qed.

Theorem sum_dims_large : forall {K : cring} p sh dims ax keep (F : list nat -> K) m out tmp tr,
  axes_named (length sh) dims ax -> 2 <= length dims -> NoDup (map (fun d => d mod Z.of_nat (length sh))%Z dims) -> 0 < numel sh -> (Z.of_nat (numel sh) <= 2 ^ 31 - 1)%Z ->
  out <> p -> has m p sh F -> room m out (numel sh) ->
  exists ls, sumDimsCuda (mkD p sh) dims keep out tmp tr = Ok (reduced_shape ax keep sh, Some ls) /\
    always_all ls m (fun m' => (forall ridx, valid (reduced_shape ax keep sh) ridx ->
        m' (out, Z.of_nat (ravel (reduced_shape ax keep sh) ridx)) = Some (Some (sum F (group ax keep sh ridx)))) /\
      forall q i, q <> out -> m' (q, i) = m (q, i)).
Proof.
  intros K p sh dims ax keep F m out tmp tr HA HD ND H0 HG N HF HR. set (rsh := reduced_shape ax keep sh) in *.
  assert (HP : Forall (fun d => 0 < d) sh).
  { clear - H0. induction sh as [|d sh IH]; [constructor|]. rewrite numel_cons in H0. constructor; [nia|]. apply IH. nia. }
  assert (HL : length ax = length sh) by apply HA.
  assert (En : numel rsh = numel (reduced_shape ax false sh)) by (unfold rsh; destruct keep; [apply rshape_numel, HL|reflexivity]).
  destruct (rsize_pos sh ax HP HL) as [R0 G0].
  assert (Rle : numel rsh <= numel sh).
  { rewrite En. clear - HP HL G0. revert ax HL G0. induction sh as [|d sh IH]; intros [|a ax] HL G0; try discriminate; [cbn; lia|]. inversion HP; subst.
    rewrite rsize_cons, numel_cons. cbn [groupSize] in G0. specialize (IH H2 ax ltac:(cbn in HL; lia) ltac:(destruct a; nia)). destruct a; nia. }
  eexists. split.
  - unfold sumDimsCuda. cbn [dshape]. destruct sh as [|d0 sh']; [exfalso; destruct HA as (_ & HA & _); destruct dims as [|d1 dims]; [cbn in HD; lia|]; destruct (HA d1 (or_introl eq_refl)) as (k & Hk & _); cbn in Hk; lia|].
    destruct dims as [|d1 [|d2 dims]]; [cbn in HD; lia|cbn in HD; lia|]. rewrite (marks_named _ _ _ HA). rewrite (count_dims _ _ _ HA ND). reflexivity.
  - cbn [always_all]. change (getReduceShape sh ax keep) with rsh. rewrite fillCuda_is. eapply always_mono.
    + apply (fill_range K zero out m 0 (Z.of_nat (numel rsh))); [lia|]. intros i Hi. apply (room_at K m out _ _ HR). lia.
    + intros m1 [H1 S1]. rewrite Z.mod_small, Nat2Z.id by lia.
      assert (X1 : forall i, (0 <= i < Z.of_nat (numel sh))%Z -> m1 (out, i) <> None).
      { intros i Hi. destruct (Z.lt_ge_cases i (Z.of_nat (numel rsh))) as [L|L].
        - pose proof (H1 i ltac:(lia)) as Q. cbn beta in Q. rewrite Z.add_0_l in Q. rewrite Q. discriminate.
        - rewrite S1; [apply (room_at K m out _ _ HR); lia|]. intros j Hj E. apply (f_equal snd) in E. cbn [snd] in E. lia. }
      assert (X2 : forall q i, q <> out -> m1 (q, i) = m (q, i)).
      { intros q i Nq. apply S1. intros j _ E. apply (f_equal fst) in E. cbn in E. congruence. }
      eapply always_mono.
      * apply (multi_sum out p sh ax (Z.of_nat (groupSize sh ax)) (numel sh) m1 (fun b r => F (memberIdx sh ax b (Z.to_nat r)))).
        -- split; [|split]; cbn [grid bdim kReduceMultiDimSum]; [lia|exact HG|unfold blockSize; lia].
        -- exact N.
        -- intros b Hb. apply X1. lia.
        -- intros b r Hb Hr. rewrite X2 by congruence. rewrite <- (Z2Nat.id r) at 1 by lia. rewrite multi_member by auto.
           pose proof (member_valid sh ax b (Z.to_nat r) HP HL) as Vm. rewrite (has_ix K m p sh F _ HF) by (pose proof (ravel_lt _ _ Vm); lia). rewrite Nat2Z.id, o2i_ravel by exact Vm. reflexivity.
      * intros m' [A B]. split.
        -- intros ridx Vr. pose proof (ravel_lt _ _ Vr) as Lr. rewrite A by lia. do 2 f_equal. rewrite block_all.
           rewrite (sum_ext _ (fun r => F (memberIdx sh ax (ravel rsh ridx) r))) by (intros r _; rewrite Nat2Z.id; reflexivity).
           rewrite <- group_members by (auto; lia).
           replace (group ax keep sh ridx) with (group ax keep sh (offsetToIndices rsh (ravel rsh ridx))) by (rewrite o2i_ravel by exact Vr; reflexivity).
           unfold rsh at 3. rewrite group_dst by (auto; fold rsh; lia). rewrite sum_filter.
           apply sum_ext. intros idx Hin. apply indices_in in Hin. unfold getReduceDstIndex. rewrite (dst_spec false) by (auto; lia). cbn [fst]. rewrite o2i_ravel by exact Hin. reflexivity.
        -- intros q i Nq. rewrite B; [apply X2, Nq|]. intros b _ E. apply (f_equal fst) in E. cbn in E. congruence.
Qed.
