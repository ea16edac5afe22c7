(* transpose on the device: the views, the tiled kernel and the kernel over
   merged dimensions. *)
From Coq Require Import List Arith ZArith Bool Lia Permutation.
From Verif Require Import ShapeModel ShapeSpec ShapeProofs TensorModel TensorSpec TensorLemmas BufModel BufProofs
  BcastModel PermSpec PermProofs PermProofs2 GpuModel GpuSpec GpuProofs CudaModel CudaSpec GpuLemmas CudaProofs CudaItems CudaFillProofs
  CudaMoveModel CudaMoveProofs CudaMoveProofs2 CudaMoveProofs5 CudaTile.
Import ListNotations.
Local Open Scope nat_scope.

Lemma swapped_invol : forall a b l, a < length l -> b < length l -> swapped a b (swapped a b l) = l.
Proof.
  intros a b l Ha Hb. apply (nth_ext _ _ 0 0); [rewrite !swapped_length; reflexivity|]. intros i Hi.
  rewrite !swapped_nth by (rewrite ?swapped_length; auto). f_equal.
  unfold tr. destruct (Nat.eqb_spec i a), (Nat.eqb_spec i b); subst; rewrite ?Nat.eqb_refl; auto;
    repeat match goal with |- context [?x =? ?y] => destruct (Nat.eqb_spec x y) end; subst; auto; congruence.
Qed.
Lemma swapped_sym : forall a b l, a < length l -> b < length l -> swapped a b l = swapped b a l.
Proof.
  intros a b l Ha Hb. apply (nth_ext _ _ 0 0); [rewrite !swapped_length; reflexivity|]. intros i Hi.
  rewrite !swapped_nth by auto. f_equal. apply tr_sym.
Qed.
Lemma swapped_split : forall A x B y C, swapped (length A) (length A + S (length B)) (A ++ x :: B ++ y :: C) = A ++ y :: B ++ x :: C.
Proof.
  intros A x B y C. unfold swapped.
  assert (E1 : nth (length A) (A ++ x :: B ++ y :: C) 0 = x) by (rewrite app_nth2, Nat.sub_diag by lia; reflexivity).
  assert (E2 : nth (length A + S (length B)) (A ++ x :: B ++ y :: C) 0 = y).
  { rewrite app_nth2 by lia. replace (length A + S (length B) - length A) with (S (length B)) by lia. cbn [nth].
    rewrite app_nth2, Nat.sub_diag by lia. reflexivity. }
  rewrite E1, E2. clear E1 E2. induction A as [|z A IH]; cbn [app length set_nth Nat.add].
  - f_equal. induction B as [|z B IHB]; cbn [app length set_nth]; [reflexivity|]. f_equal. exact IHB.
  - f_equal. exact IH.
Qed.

(* a group of dimensions as one dimension, or none *)
Definition one (n : nat) : list nat := if (1 <? n)%nat then [n] else [].
Definition one_at (n r : nat) : list nat := if (1 <? n)%nat then [r] else [].
Lemma one_len : forall n r, length (one_at n r) = length (one n).
Proof. intros n r. unfold one, one_at. destruct (1 <? n); reflexivity. Qed.
Lemma one_valid : forall n r, r < n -> valid (one n) (one_at n r).
Proof. intros n r H. unfold one, one_at. destruct (1 <? n); repeat constructor; auto. Qed.
Lemma one_numel : forall n, 0 < n -> numel (one n) = n.
Proof. intros n H. unfold one. destruct (Nat.ltb_spec 1 n); rewrite ?numel_cons, numel_nil; lia. Qed.
Lemma one_ravel : forall n r, r < n -> ravel (one n) (one_at n r) = r.
Proof. intros n r H. unfold one, one_at. destruct (Nat.ltb_spec 1 n); rewrite ?ravel_cons, ?numel_nil, ravel_nil; lia. Qed.

Lemma merged_ravel : forall A x B y C ia i ib j ic, valid A ia -> valid B ib -> valid C ic ->
  0 < numel A -> 0 < numel B -> 0 < numel C ->
  ravel (one (numel A) ++ x :: one (numel B) ++ y :: one (numel C))
        (one_at (numel A) (ravel A ia) ++ i :: one_at (numel B) (ravel B ib) ++ j :: one_at (numel C) (ravel C ic))
  = ravel (A ++ x :: B ++ y :: C) (ia ++ i :: ib ++ j :: ic).
Proof.
  intros A x B y C ia i ib j ic VA VB VC PA PB PC.
  pose proof (ravel_lt _ _ VA). pose proof (ravel_lt _ _ VB). pose proof (ravel_lt _ _ VC).
  rewrite !ravel_app by (rewrite ?one_len; auto using valid_length). rewrite !ravel_cons, !ravel_app by (rewrite ?one_len; auto using valid_length).
  rewrite !ravel_cons, !numel_cons, !numel_app, !numel_cons, !one_numel, !one_ravel by auto. reflexivity.
Qed.
Lemma merged_numel : forall A x B y C, 0 < numel A -> 0 < numel B -> 0 < numel C ->
  numel (one (numel A) ++ x :: one (numel B) ++ y :: one (numel C)) = numel (A ++ x :: B ++ y :: C).
Proof. intros. rewrite !numel_app, !numel_cons, !numel_app, !numel_cons, !one_numel by auto. reflexivity. Qed.

Lemma valid_split : forall A x B y C idx, valid (A ++ x :: B ++ y :: C) idx ->
  exists ia i ib j ic, idx = ia ++ i :: ib ++ j :: ic /\ valid A ia /\ i < x /\ valid B ib /\ j < y /\ valid C ic.
Proof.
  intros A x B y C idx Hv. apply Forall2_app_inv_r in Hv. destruct Hv as (ia & r & VA & VR & ->).
  inversion VR as [|i ? r' ? Hi VR']; subst. apply Forall2_app_inv_r in VR'. destruct VR' as (ib & r & VB & VR2 & ->).
  inversion VR2 as [|j ? ic ? Hj VC]; subst. exists ia, i, ib, j, ic. auto 7.
Qed.
Lemma valid_join : forall A x B y C ia i ib j ic, valid A ia -> i < x -> valid B ib -> j < y -> valid C ic ->
  valid (A ++ x :: B ++ y :: C) (ia ++ i :: ib ++ j :: ic).
Proof. intros. apply Forall2_app; [auto|]. constructor; [auto|]. apply Forall2_app; [auto|]. constructor; auto. Qed.

Lemma nd_ok : forall V A x B y C (F : list nat -> V) self out m,
  (0 < Z.of_nat (numel (A ++ x :: B ++ y :: C)) <= 2 ^ 32)%Z ->
  has m self (A ++ x :: B ++ y :: C) F -> room m out (numel (A ++ x :: B ++ y :: C)) -> out <> self ->
  let msh := one (numel A) ++ x :: one (numel B) ++ y :: one (numel C) in
  let mosh := one (numel A) ++ y :: one (numel B) ++ x :: one (numel C) in
  computes (kTransposeND out self (length (one (numel A))) (S (length (one (numel A)) + length (one (numel B)))) (Z.of_nat (numel mosh)) (strides mosh) (strides msh))
    m out (A ++ y :: B ++ x :: C) (fun idx => F (swapped (length A) (length A + S (length B)) idx)).
Proof.
  intros V A x B y C F self out m HZ HF HR N msh mosh.
  assert (PP : numel A * (x * (numel B * (y * numel C))) <> 0).
  { rewrite numel_app, numel_cons, numel_app, numel_cons in HZ. lia. }
  assert (PA : 0 < numel A) by (destruct (numel A); cbn in PP; lia).
  assert (PB : 0 < numel B) by (destruct (numel B); [rewrite Nat.mul_0_l in PP; lia|lia]).
  assert (PC : 0 < numel C) by (destruct (numel C); [rewrite !Nat.mul_0_r in PP; lia|lia]). clear PP.
  assert (NM : numel mosh = numel (A ++ y :: B ++ x :: C)) by (apply merged_numel; auto).
  assert (NS : numel (A ++ y :: B ++ x :: C) = numel (A ++ x :: B ++ y :: C)) by (rewrite !numel_app, !numel_cons, !numel_app, !numel_cons; lia).
  rewrite NM. eapply (one_load V _ m out _ _ _ (fun idx => (self, Z.of_nat (ravel (A ++ x :: B ++ y :: C) (swapped (length A) (length A + S (length B)) idx))))).
  - apply kernel1d_is.
  - rewrite NS. exact HZ.
  - rewrite NS. exact HR.
  - intros idx Hv. apply valid_split in Hv. destruct Hv as (ia & j & ib & i & ic & -> & VA & Hj & VB & Hi & VC).
    set (mi := one_at (numel A) (ravel A ia) ++ j :: one_at (numel B) (ravel B ib) ++ i :: one_at (numel C) (ravel C ic)).
    assert (VM : valid mosh mi) by (apply valid_join; auto using one_valid, ravel_lt).
    assert (RM : ravel (A ++ y :: B ++ x :: C) (ia ++ j :: ib ++ i :: ic) = ravel mosh mi) by (symmetry; apply merged_ravel; auto).
    assert (LM : length mi = length (one (numel A)) + S (length (one (numel B)) + S (length (one (numel C))))).
    { unfold mi. rewrite app_length. cbn [length]. rewrite app_length. cbn [length]. rewrite !one_len. reflexivity. }
    rewrite RM. rewrite (coordsZ_ok _ _ VM). cbv zeta. rewrite !nth_mapZ, setZ_map by lia. rewrite setZ_map by (rewrite set_nth_length; lia).
    change (set_nth (set_nth mi (length (one (numel A))) (nth (S (length (one (numel A)) + length (one (numel B)))) mi 0))
      (S (length (one (numel A)) + length (one (numel B)))) (nth (length (one (numel A))) mi 0))
      with (swapped (length (one (numel A))) (S (length (one (numel A)) + length (one (numel B)))) mi).
    assert (SM : swapped (length (one (numel A))) (S (length (one (numel A)) + length (one (numel B)))) mi
      = one_at (numel A) (ravel A ia) ++ i :: one_at (numel B) (ravel B ib) ++ j :: one_at (numel C) (ravel C ic)).
    { rewrite <- swapped_split. unfold mi. f_equal; rewrite !one_len; [reflexivity|lia]. }
    rewrite SM.
    rewrite offsetAt_ravel. unfold msh. rewrite merged_ravel by auto.
    rewrite <- (valid_length _ _ VA), <- (valid_length _ _ VB), swapped_split.
    split; [reflexivity|]. split; [|cbn [fst]; congruence].
    apply has_at; auto. apply valid_join; auto.
Qed.

Lemma split_at : forall (sh : list nat) d0 d1, d0 < d1 -> d1 < length sh ->
  sh = firstn d0 sh ++ nth d0 sh 0 :: firstn (d1 - S d0) (skipn (S d0) sh) ++ nth d1 sh 0 :: skipn (S d1) sh
  /\ length (firstn d0 sh) = d0 /\ length (firstn (d1 - S d0) (skipn (S d0) sh)) = d1 - S d0.
Proof.
  intros sh d0 d1 H H1. split; [|split].
  - rewrite <- (firstn_skipn d0 sh) at 1. f_equal.
    assert (Q : forall (l : list nat) d, d < length l -> skipn d l = nth d l 0 :: skipn (S d) l).
    { induction l as [|z l IH]; intros [|d] Hd; cbn in Hd; try lia; [reflexivity|]. cbn [skipn nth]. rewrite IH by lia. reflexivity. }
    rewrite (Q sh d0) by lia. f_equal. rewrite <- (firstn_skipn (d1 - S d0) (skipn (S d0) sh)) at 1. f_equal.
    assert (QS : forall (l : list nat) a b, skipn a (skipn b l) = skipn (b + a) l).
    { induction l as [|z l IH]; intros [|a] [|b]; rewrite ?skipn_nil; auto; cbn [skipn Nat.add]; [rewrite Nat.add_0_r; auto|]. apply (IH (S a) b). }
    rewrite QS. replace (S d0 + (d1 - S d0)) with d1 by lia. apply Q. lia.
  - rewrite firstn_length. lia.
  - rewrite firstn_length, skipn_length. lia.
Qed.

Lemma view_ok : forall V sh (F : list nat -> V) d0 m self, S d0 < length sh -> nth d0 sh 0 = 1 \/ nth (S d0) sh 0 = 1 ->
  has m self sh F -> has m self (swapped d0 (S d0) sh) (fun idx => F (swapped d0 (S d0) idx)).
Proof.
  intros V sh F d0 m self HL H1 HF.
  assert (P := swapped_perm d0 (S d0) (length sh) ltac:(lia) ltac:(lia)).
  assert (HS : forall l, length l = length sh -> swapped d0 (S d0) l = permuted (swapped d0 (S d0) (seq 0 (length sh))) l).
  { intros l El. rewrite <- El. apply swapped_permuted; lia. }
  assert (M : moves_only_ones sh (swapped d0 (S d0) (seq 0 (length sh)))) by (rewrite swapped_seq by lia; apply only_ones_adjacent; auto).
  assert (NE : numel (swapped d0 (S d0) sh) = numel sh) by (rewrite HS by auto; apply numel_perm, (permuted_perm (length sh)); auto).
  apply (placed V m m self); [rewrite NE; apply (has_room _ _ _ _ _ HF)| |reflexivity].
  intros idx Hv. pose proof (valid_length _ _ Hv) as L. rewrite swapped_length in L.
  set (j := swapped d0 (S d0) idx).
  assert (Ej : idx = swapped d0 (S d0) j) by (unfold j; rewrite swapped_invol by lia; reflexivity).
  assert (Lj : length j = length sh) by (unfold j; rewrite swapped_length; exact L).
  assert (Vj : valid sh j).
  { unfold j. rewrite <- (swapped_invol d0 (S d0) sh) by lia. rewrite (swapped_permuted d0 (S d0) (swapped d0 (S d0) sh)) by (rewrite swapped_length; lia).
    rewrite (swapped_permuted d0 (S d0) idx) by lia. rewrite swapped_length, L. apply (permuted_valid (length sh)); auto. rewrite swapped_length. auto. }
  rewrite Ej, (HS sh), (HS j) by auto. rewrite ravel_only_ones by auto. apply has_at; auto.
Qed.

Lemma has_ext : forall V (m : addr -> cell V) p sh F G, has m p sh F -> (forall idx, valid sh idx -> F idx = G idx) -> has m p sh G.
Proof.
  intros V m p sh F G H E. unfold has. rewrite <- (map_ext_in F G); [exact H|]. intros idx Hi. apply E, indices_in, Hi.
Qed.

Lemma transpose_ok : forall V sh (F : list nat -> V) d0 d1 a b self out m,
  axis (length sh) d0 = Some a -> axis (length sh) d1 = Some b ->
  (0 < Z.of_nat (numel sh) <= 2 ^ 32)%Z -> (length sh = 2 -> (Z.of_nat (nth 0 sh 0%nat) <= 65535 * 32)%Z) ->
  has m self sh F -> room m out (numel sh) -> out <> self ->
  exists ol, transposeCuda (mkD self sh) d0 d1 out = Ok (swapped a b sh, ol) /\
    match ol with Some l => computes l m out (swapped a b sh) (fun idx => F (swapped a b idx))
                | None => has m self (swapped a b sh) (fun idx => F (swapped a b idx)) end.
Proof.
  intros V sh F d0 d1 a b self out m E0 E1 HZ H2 HF HR N.
  pose proof (proj1 (axis_some _ _ _) E0) as [Ha _]. pose proof (proj1 (axis_some _ _ _) E1) as [Hb _].
  unfold transposeCuda. cbn [dshape dbuf]. rewrite E0, E1. clear E0 E1 d0 d1.
  destruct (Nat.eqb_spec a b) as [->|Hab].
  { exists None. assert (SI : forall l, swapped b b l = l).
    { intro l. apply (nth_ext _ _ 0 0); [apply swapped_length|]. intros i Hi. unfold swapped. rewrite !nth_set_nth.
      destruct (Nat.eqb_spec i b); subst; cbn [andb]; auto. repeat match goal with |- context [if ?c then _ else _] => destruct c end; auto. }
    rewrite SI. split; [reflexivity|]. apply (has_ext V m self sh F); auto. intros idx _. rewrite SI. reflexivity. }
  set (p := Nat.min a b). set (q := Nat.max a b).
  assert (Hpq : p < q) by (unfold p, q; lia). assert (Hq : q < length sh) by (unfold q; lia).
  assert (SW : forall l, length l = length sh -> swapped a b l = swapped p q l).
  { intros l L. unfold p, q. destruct (Nat.le_gt_cases a b).
    - rewrite Nat.min_l, Nat.max_r by lia. reflexivity.
    - rewrite Nat.min_r, Nat.max_l by lia. apply swapped_sym; lia. }
  assert (NE : numel (swapped p q sh) = numel sh).
  { rewrite swapped_permuted by lia. apply numel_perm, (permuted_perm (length sh)); auto. apply swapped_perm; lia. }
  assert (K : exists ol, (if ((nth p sh 0 =? 1) || (nth q sh 0 =? 1)) && (q - p =? 1) then Ok (swapped p q sh, None)
      else if length sh =? 2 then match transpose2dCuda (mkD self sh) out with Ok (s, l) => Ok (s, Some l) | Fail => Fail | UB => UB end
      else Ok (swapped p q sh, Some (kTransposeND out self
        (length (one (fold_left Nat.mul (firstn p sh) 1)))
        (S (length (one (fold_left Nat.mul (firstn p sh) 1)) + length (one (fold_left Nat.mul (firstn (q - S p) (skipn (S p) sh)) 1))))
        (Z.of_nat (numel (one (fold_left Nat.mul (firstn p sh) 1) ++ [nth q sh 0] ++ one (fold_left Nat.mul (firstn (q - S p) (skipn (S p) sh)) 1) ++ [nth p sh 0] ++ one (fold_left Nat.mul (skipn (S q) sh) 1))))
        (strides (one (fold_left Nat.mul (firstn p sh) 1) ++ [nth q sh 0] ++ one (fold_left Nat.mul (firstn (q - S p) (skipn (S p) sh)) 1) ++ [nth p sh 0] ++ one (fold_left Nat.mul (skipn (S q) sh) 1)))
        (strides (one (fold_left Nat.mul (firstn p sh) 1) ++ [nth p sh 0] ++ one (fold_left Nat.mul (firstn (q - S p) (skipn (S p) sh)) 1) ++ [nth q sh 0] ++ one (fold_left Nat.mul (skipn (S q) sh) 1))))))
      = Ok (swapped p q sh, ol) /\
    match ol with Some l => computes l m out (swapped p q sh) (fun idx => F (swapped p q idx))
                | None => has m self (swapped p q sh) (fun idx => F (swapped p q idx)) end).
  { destruct (((nth p sh 0 =? 1) || (nth q sh 0 =? 1)) && (q - p =? 1)) eqn:EV.
    - exists None. split; [reflexivity|]. apply andb_prop in EV as [EV1 EV2]. apply Nat.eqb_eq in EV2. assert (EQ : q = S p) by lia. rewrite EQ in *.
      apply view_ok; auto. apply orb_prop in EV1 as [X|X]; apply Nat.eqb_eq in X; auto.
    - destruct (Nat.eqb_spec (length sh) 2) as [L2|L2].
      + assert (EP : p = 0) by lia. assert (EQ : q = 1) by lia. rewrite EP, EQ in *.
        destruct sh as [|x [|y [|z sh]]]; cbn [length] in L2; try lia. unfold transpose2dCuda. cbn [dshape dbuf].
        eexists. split; [reflexivity|]. change (swapped 0 1 [x; y]) with [y; x]. cbn [nth] in H2.
        rewrite !numel_cons, numel_nil, Nat.mul_1_r in HZ, HR.
        pose proof (tile_ok y x F out self m HZ (H2 eq_refl) HF HR N) as T.
        apply (always_mono _ _ _ _ T). intros m' [A B]. split; [|exact B]. apply (has_ext V m' out _ _ _ A).
        intros idx Hv. inversion Hv as [|i ? r ? Hi Hv']; subst. inversion Hv' as [|j ? r' ? Hj Hv'']; subst. inversion Hv''; subst. reflexivity.
      + eexists. split; [reflexivity|].
        destruct (split_at sh p q Hpq Hq) as (E & LA & LB). repeat match goal with |- context [fold_left Nat.mul ?l 1] => change (fold_left Nat.mul l 1) with (numel l) end.
        set (A := firstn p sh) in *. set (x := nth p sh 0) in *. set (B := firstn (q - S p) (skipn (S p) sh)) in *.
        set (y := nth q sh 0) in *. set (C := skipn (S q) sh) in *.
        assert (EP : p = length A) by lia. assert (EQ : q = length A + S (length B)) by lia.
        rewrite E in HZ, HF, HR |- *. clearbody A x B y C. rewrite EP, EQ, swapped_split.
        apply (nd_ok V A x B y C F self out m); auto. }
  destruct K as (ol & K1 & K2). exists ol. rewrite (SW sh eq_refl). split; [exact K1|].
  assert (EXT : forall m' p', has m' p' (swapped p q sh) (fun idx => F (swapped p q idx)) -> has m' p' (swapped p q sh) (fun idx => F (swapped a b idx))).
  { intros m' p' A. apply (has_ext V m' p' _ _ _ A). intros idx Hv. apply valid_length in Hv. rewrite swapped_length in Hv. rewrite SW by exact Hv. reflexivity. }
  destruct ol as [l|]; [|apply EXT; exact K2].
  apply (always_mono _ _ _ _ K2). intros m' [A B]. split; [apply EXT; exact A|exact B].
Qed.
