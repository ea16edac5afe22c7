(* The CUDA element-wise operations. *)
From Coq Require Import List Arith ZArith Bool Lia.
From Verif Require Import ShapeModel ShapeSpec ShapeProofs TensorModel TensorSpec TensorLemmas
  BcastModel BcastSpec BcastProofs GpuModel GpuSpec GpuProofs CudaModel CudaSpec GpuLemmas.
Import ListNotations.

Lemma size_numel : forall sh, size sh = numel sh.
Proof. intros. unfold size. apply indices_length. Qed.

Lemma has_at : forall V (m : addr -> cell V) p sh F idx, has m p sh F -> valid sh idx ->
  m (p, Z.of_nat (ravel sh idx)) = Some (Some (F idx)).
Proof.
  intros V m p sh F idx H Hv. eapply holds_at; [exact H|]. apply (rd_of_idx sh F idx Hv).
Qed.

Lemma has_room : forall V (m : addr -> cell V) p sh F, has m p sh F -> room m p (numel sh).
Proof.
  intros V m p sh F H. apply holds_room in H. rewrite map_length, indices_length in H. exact H.
Qed.

Lemma room_of : forall V (bufs : list (list (option V))) p n, length (nth p bufs []) = n -> room (mem_of bufs) p n.
Proof.
  intros V bufs p n <- i. unfold mem_of. cbn [fst snd]. destruct (Z.ltb_spec i 0); [split; [lia|reflexivity]|].
  split; intros E.
  - apply nth_error_None in E. lia.
  - apply nth_error_None. lia.
Qed.

Lemma holds_of : forall V (bufs : list (list (option V))) p xs, nth p bufs [] = map Some xs -> holds (mem_of bufs) p xs.
Proof.
  intros V bufs p xs E i. unfold mem_of. cbn [fst snd]. rewrite E. destruct (i <? 0)%Z; [reflexivity|].
  rewrite nth_error_map. destruct (nth_error xs (Z.to_nat i)); reflexivity.
Qed.

(* One thread per element of the result. *)
Theorem gathers : forall V (l : launch V) (m : addr -> cell V) out sh (F : list nat -> V) (P : Z -> thr V)
  (srcs : list nat -> list addr) (args : list nat -> list V) (k : Z -> list V -> thr V),
  is1d l (Z.of_nat (numel sh)) P -> (0 < Z.of_nat (numel sh) <= 2 ^ 32)%Z -> room m out (numel sh) ->
  (forall idx, valid sh idx -> P (Z.of_nat (ravel sh idx)) = loads (srcs idx) (k (Z.of_nat (ravel sh idx)))) ->
  (forall idx, valid sh idx -> Forall2 (fun a v => m a = Some (Some v)) (srcs idx) (args idx)) ->
  (forall idx, valid sh idx -> k (Z.of_nat (ravel sh idx)) (args idx) = St (out, Z.of_nat (ravel sh idx)) (F idx) Done) ->
  (forall idx a, valid sh idx -> In a (srcs idx) -> fst a = out -> a = (out, Z.of_nat (ravel sh idx))) ->
  computes l m out sh F.
Proof.
  intros V l m out sh F P srcs args k K Hn R HP HV HK HO.
  set (ix := fun i : Z => offsetToIndices sh (Z.to_nat i)).
  assert (Iv : forall i, (0 <= i < Z.of_nat (numel sh))%Z -> valid sh (ix i) /\ Z.of_nat (ravel sh (ix i)) = i).
  { intros i Hi. unfold ix. split; [apply o2i_valid; lia|]. rewrite ravel_o2i by lia. lia. }
  unfold computes. eapply always_mono.
  - apply (scatter l (Z.of_nat (numel sh)) P m out (fun i => i) (fun i => F (ix i)) (fun i => rev (srcs (ix i)))); auto.
    + intros i Hi. destruct (Iv i Hi) as [Hv E]. 
      pose proof (HP _ Hv) as EP. pose proof (HK _ Hv) as EK. rewrite E in EP, EK. rewrite EP.
      apply (solo_gather _ (args (ix i))).
      * apply HV, Hv.
      * exact EK.
      * intros N. apply (R i) in N. apply N, Hi.
    + intros i j Hi Hj N. split; [exact N|]. intros Hin. apply in_rev in Hin.
      destruct (Iv j Hj) as [Hv E]. apply (HO _ _ Hv) in Hin; [|reflexivity]. rewrite E in Hin. congruence.
  - intros m' [H1 H2]. cbv beta in *.
    destruct (filled m m' out (numel sh) (fun i => F (offsetToIndices sh i)) R H1 H2) as [A B].
    split; [|exact B]. unfold has. rewrite <- (map_seq_indices sh F). exact A.
Qed.

Lemma coords_ok : forall sh k, Forall (fun d => 0 < d) sh ->
  snd (coords sh (Z.of_nat k)) = map Z.of_nat (offsetToIndices sh k) /\
  fst (coords sh (Z.of_nat k)) = Z.of_nat (k / numel sh).
Proof.
  induction sh as [|d sh IH]; intros k HP.
  - split; [reflexivity|]. rewrite numel_nil, Nat.div_1_r. reflexivity.
  - inversion HP as [|? ? Hd HP']; subst. destruct (IH k HP') as [E1 E2].
    assert (0 < numel sh) by (apply positive_numel, HP').
    unfold coords in *. cbn [fold_right fst snd]. rewrite E1, E2. split.
    + rewrite o2i_cons by lia. cbn [map]. f_equal. symmetry. apply Nat2Z.inj_mod.
    + rewrite <- Nat2Z.inj_div. f_equal. rewrite numel_cons, Nat.div_div by lia. f_equal. lia.
Qed.

Lemma offsetAt_acc : forall c st a,
  fold_left (fun acc p => acc + fst p * Z.of_nat (snd p))%Z (combine c st) a = (a + offsetAt c st)%Z.
Proof.
  unfold offsetAt. induction c as [|x c IH]; intros [|s st] a; cbn [combine fold_left fst snd]; try lia.
  rewrite IH, (IH st (0 + _)%Z). lia.
Qed.

Lemma offsetAt_cons : forall x c s st, offsetAt (x :: c) (s :: st) = (x * Z.of_nat s + offsetAt c st)%Z.
Proof. intros. unfold offsetAt at 1. cbn [combine fold_left fst snd]. rewrite offsetAt_acc. lia. Qed.

Lemma offsetAt_own : forall s idx, length idx = length s ->
  offsetAt (map Z.of_nat idx) (map (fun p => if fst p =? 1 then 0 else snd p) (combine s (strides s)))
  = Z.of_nat (ravel s (map (fun p => if fst p =? 1 then 0 else snd p) (combine s idx))).
Proof.
  induction s as [|d s IH]; intros [|i idx] H; try discriminate; [reflexivity|].
  rewrite strides_cons. cbn [combine map fst snd]. rewrite offsetAt_cons, IH by (cbn in H; lia).
  rewrite ravel_cons. destruct (d =? 1); lia.
Qed.

Lemma offsetAt_zeros : forall k idx st, length idx >= k ->
  offsetAt (map Z.of_nat idx) (repeat 0 k ++ st) = offsetAt (map Z.of_nat (skipn k idx)) st.
Proof.
  induction k as [|k IH]; intros [|i idx] st H; cbn in H; try lia; try reflexivity.
  cbn [repeat app map skipn]. rewrite offsetAt_cons, IH by lia. lia.
Qed.

Lemma offsetAt_aligned : forall s n idx, length s <= n -> length idx = n ->
  offsetAt (map Z.of_nat idx) (alignStrides n s) = Z.of_nat (ravel s (bidx s idx)).
Proof.
  intros s n idx H1 H2. unfold alignStrides, bidx. rewrite offsetAt_zeros by lia.
  rewrite offsetAt_own by (rewrite skipn_length; lia). rewrite H2. reflexivity.
Qed.

(* An operand: a device tensor and its elements. *)
Section Each.
Context {V : Type}.
Variable f : list V -> V.
Variable ops : list (dtensor * (list nat -> V)).
Variable sh : list nat.
Variable out : nat.
Variable m : addr -> cell V.
Notation ds := (map fst ops).
Hypothesis POS : Forall positive (map dshape ds).
Hypothesis BC : is_broadcast (map dshape ds) sh.
Hypothesis SZ : (Z.of_nat (numel sh) <= 2 ^ 32)%Z.
Hypothesis ROOM : room m out (numel sh).
Hypothesis HAS : forall o, In o ops -> has m (dbuf (fst o)) (dshape (fst o)) (snd o).
Hypothesis OWN : forall o, In o ops -> dbuf (fst o) = out -> dshape (fst o) = sh.

Definition srcOf (idx : list nat) (o : dtensor * (list nat -> V)) : addr :=
  (dbuf (fst o), Z.of_nat (ravel (dshape (fst o)) (bidx (dshape (fst o)) idx))).
Definition valOf (idx : list nat) (o : dtensor * (list nat -> V)) : V :=
  snd o (bidx (dshape (fst o)) idx).

Lemma srcOf_has : forall idx, valid sh idx ->
  Forall2 (fun a v => m a = Some (Some v)) (map (srcOf idx) ops) (map (valOf idx) ops).
Proof.
  intros idx Hv. assert (H : forall o, In o ops -> m (srcOf idx o) = Some (Some (valOf idx o))).
  { intros o Ho. unfold srcOf, valOf. apply has_at; [apply HAS, Ho|].
    apply (bidx_valid _ sh); [|exact Hv]. apply (is_broadcast_bto _ _ _ BC).
    apply in_map, in_map, Ho. }
  clear - H. induction ops as [|o os IH]; cbn [map]; constructor; [apply H; left; reflexivity|].
  apply IH. intros o' Ho'. apply H. right. exact Ho'.
Qed.

Lemma srcOf_own : forall idx a, valid sh idx -> In a (map (srcOf idx) ops) -> fst a = out ->
  a = (out, Z.of_nat (ravel sh idx)).
Proof.
  intros idx a Hv Ha E. apply in_map_iff in Ha as (o & <- & Ho). unfold srcOf in *. cbn [fst] in E.
  rewrite (OWN o Ho E), E, bidx_same by exact Hv. reflexivity.
Qed.

Lemma npos : 0 < numel sh.
Proof. apply positive_numel, (is_broadcast_positive _ _ POS BC). Qed.

Lemma each_linear : forall l (at_ : Z -> list addr),
  is1d l (Z.of_nat (numel sh)) (fun i => loads (at_ i) (fun vs => St (out, i) (f vs) Done)) ->
  (forall idx, valid sh idx -> at_ (Z.of_nat (ravel sh idx)) = map (srcOf idx) ops) ->
  computes l m out sh (fun idx => f (map (valOf idx) ops)).
Proof.
  intros l at_ K H. pose proof npos.
  apply (gathers V l m out sh _ (fun i => loads (at_ i) (fun vs => St (out, i) (f vs) Done))
           (fun idx => map (srcOf idx) ops) (fun idx => map (valOf idx) ops) (fun i vs => St (out, i) (f vs) Done)).
  - exact K.
  - lia.
  - exact ROOM.
  - intros idx Hv. cbv beta. rewrite (H idx Hv). reflexivity.
  - exact srcOf_has.
  - reflexivity.
  - exact srcOf_own.
Qed.

Lemma scalar_src : forall idx o, dshape (fst o) = [] -> srcOf idx o = (dbuf (fst o), 0%Z).
Proof. intros idx o E. unfold srcOf. rewrite E. reflexivity. Qed.

Theorem each_ok : computes (forEachCuda f ds sh out) m out sh (fun idx => f (map (valOf idx) ops)).
Proof.
  pose proof (proj2 (broadcastShape_iff _ _ POS) BC) as BS.
  unfold forEachCuda. destruct (forallb isScalar (map bare ds)) eqn:E1.
  - (* every operand a scalar *)
    assert (Sc : forall o, In o ops -> dshape (fst o) = []).
    { intros o Ho. rewrite forallb_forall in E1. apply (isScalar_nil (bare (fst o))), E1, in_map, in_map, Ho. }
    assert (Esh : sh = []).
    { destruct BC as [Hl _]. apply length_zero_iff_nil. rewrite Hl. apply Nat.le_0_r.
      apply list_max_le, Forall_forall. intros x Hx. apply in_map_iff in Hx as (s & <- & Hs).
      apply in_map_iff in Hs as (d & <- & Hd). apply in_map_iff in Hd as (o & <- & Ho).
      rewrite (Sc o Ho). cbn. lia. }
    apply (each_linear _ (fun i => map (fun p => (p, i)) (map dbuf ds))).
    + rewrite Esh, numel_nil. repeat split. intros b t. cbn [code scalarKernel].
      assert (0 <= gidx blockSize b t)%Z by (apply Z.mod_pos_bound; lia).
      destruct (Z.ltb_spec (gidx blockSize b t) (Z.of_nat 1)), (Z.eqb_spec (gidx blockSize b t) 0); try lia; auto.
      rewrite e. reflexivity.
    + intros idx Hv. rewrite !map_map. apply map_ext_in. intros o Ho. rewrite scalar_src by auto.
      f_equal. rewrite Esh, ravel_nil. reflexivity.
  - destruct (sameShape (map bare ds)) eqn:E2.
    + (* one shape besides scalars *)
      destruct (sameShape_spec _ E2 E1) as (r & Hr & (t0 & Ht0 & Et0) & Hall).
      assert (All : forall o, In o ops -> dshape (fst o) = [] \/ dshape (fst o) = r).
      { intros o Ho. apply (Hall (bare (fst o))), in_map, in_map, Ho. }
      assert (Esh : r = sh).
      { apply in_map_iff in Ht0 as (d & <- & Hd). cbn in Et0.
        assert (B' : is_broadcast (map dshape ds) r).
        { split.
          - apply Nat.le_antisymm.
            + apply le_list_max, in_map_iff. exists r. split; auto. apply in_map_iff. eauto.
            + apply list_max_le, Forall_forall. intros x Hx. apply in_map_iff in Hx as (s & <- & Hs).
              apply in_map_iff in Hs as (d' & <- & Hd'). apply in_map_iff in Hd' as (o & <- & Ho).
              destruct (All o Ho) as [->| ->]; cbn; lia.
          - intros p Hp. split.
            + intros s Hs. apply in_map_iff in Hs as (d' & <- & Hd'). apply in_map_iff in Hd' as (o & <- & Ho).
              destruct (All o Ho) as [->| ->]; auto. left. unfold from_right. destruct p; auto.
            + right. exists r. split; auto. apply in_map_iff. eauto. }
        apply (broadcastShape_iff _ _ POS) in B'. congruence. }
      rewrite Esh in All. clear Esh Hall Et0 Hr.
      destruct (forallb (fun t => negb (isScalar t)) (map bare ds)) eqn:E3.
      * apply (each_linear _ (fun i => map (fun p => (p, i)) (map dbuf ds))); [apply kernel1d_is|].
        intros idx Hv. rewrite !map_map. apply map_ext_in. intros o Ho.
        rewrite forallb_forall in E3. specialize (E3 (bare (fst o)) (in_map _ _ _ (in_map _ _ _ Ho))).
        unfold srcOf. destruct (All o Ho) as [E|E].
        -- apply (isScalar_nil (bare (fst o))) in E. rewrite E in E3. discriminate.
        -- rewrite E, bidx_same by exact Hv. reflexivity.
      * apply (each_linear _ (fun i => map (fun p => (fst p, if snd p : bool then 0%Z else i))
                 (map (fun d => (dbuf d, isScalar (bare d))) ds))); [apply kernel1d_is|].
        intros idx Hv. rewrite !map_map. apply map_ext_in. intros o Ho. cbn [fst snd].
        destruct (isScalar (bare (fst o))) eqn:Es.
        -- apply isScalar_nil in Es. cbn in Es. rewrite scalar_src by exact Es. reflexivity.
        -- unfold srcOf. destruct (All o Ho) as [E|E].
           ++ apply (isScalar_nil (bare (fst o))) in E. congruence.
           ++ rewrite E, bidx_same by exact Hv. reflexivity.
    + (* broadcast *)
      pose proof (is_broadcast_positive _ _ POS BC) as Psh.
      apply (each_linear _ (fun i => map (fun p => (fst (fst p), if snd (fst p) : bool then 0%Z
                 else offsetAt (snd (coords sh i)) (snd p)))
               (map (fun d => (dbuf d, isScalar (bare d), alignStrides (length sh) (dshape d))) ds))); [apply kernel1d_is|].
      intros idx Hv. rewrite !map_map. apply map_ext_in. intros o Ho. cbn [fst snd].
      destruct (isScalar (bare (fst o))) eqn:Es.
      * apply isScalar_nil in Es. cbn in Es. rewrite scalar_src by exact Es. reflexivity.
      * unfold srcOf. f_equal. rewrite (proj1 (coords_ok sh _ Psh)), o2i_ravel by exact Hv.
        apply offsetAt_aligned; [|apply valid_length, Hv].
        apply (broadcast_len _ _ _ POS BS). apply in_map, in_map, Ho.
Qed.
End Each.

(* ---- stores only where allowed ---- *)
Section Only.
Context {V : Type}.

Inductive only (A : addr -> Prop) : thr V -> Prop :=
  | only_done : only A Done
  | only_ld : forall a k, (forall v, only A (k v)) -> only A (Ld a k)
  | only_st : forall a v k, A a -> only A k -> only A (St a v k)
  | only_sld : forall a k, (forall v, only A (k v)) -> only A (SLd a k)
  | only_sst : forall a v k, only A k -> only A (SSt a v k)
  | only_sync : forall k, only A k -> only A (Sync k)
  | only_shfl : forall v d k, (forall v, only A (k v)) -> only A (Shfl v d k)
  | only_trap : only A Trap.

Theorem untouched : forall (l : launch V) m A, (forall b t, only A (code l b t)) ->
  forall s, reach l (start l m) s -> (forall b t, only A (pr s b t)) /\ forall a, ~ A a -> mem s a = m a.
Proof.
  intros l m A H s R. induction R as [|s s' R IH St]; [split; auto|].
  destruct IH as [IH1 IH2].
  assert (U : forall b t p, only A p -> forall b' t', only A (updt (pr s) b t p b' t')).
  { intros b t p Hp b' t'. unfold updt. destruct (b =? b')%nat, (t =? t')%nat; cbn; auto. }
  destruct St as [s b t a v k Hb Ht Hp Hm|s b t a v k Hb Ht Hp Hm
    |s b t a v k Hb Ht Hp Hm|s b t a v k Hb Ht Hp Hm|s b w Hb Hw Hs|s b Hb Hq Hx]; cbn [mem pr].
  - pose proof (IH1 b t) as O. rewrite Hp in O. inversion O; subst. split; auto.
  - pose proof (IH1 b t) as O. rewrite Hp in O. inversion O; subst. split; auto.
    intros x Hx. rewrite upd_other; auto. intros ->. contradiction.
  - pose proof (IH1 b t) as O. rewrite Hp in O. inversion O; subst. split; auto.
  - pose proof (IH1 b t) as O. rewrite Hp in O. inversion O; subst. split; auto.
  - split; auto. intros b' t. destruct (b =? b')%nat, (t / 32 =? w)%nat; cbn [andb]; auto.
    pose proof (IH1 b t) as O. unfold shuffled. destruct (pr s b t); auto.
    inversion O; subst. destruct (pr s b (src t d)); auto; constructor.
  - split; auto. intros b' t. destruct (b =? b')%nat; auto.
    pose proof (IH1 b t) as O. destruct (pr s b t); auto. inversion O; subst. auto.
Qed.

Lemma only_loads : forall A addrs (k : list V -> thr V), (forall vs, only A (k vs)) -> only A (loads addrs k).
Proof.
  intros A addrs. induction addrs as [|a r IH]; intros k H; cbn [loads]; auto.
  constructor. intros v. apply IH. auto.
Qed.
End Only.
