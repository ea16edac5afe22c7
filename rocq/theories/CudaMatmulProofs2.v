(* Matrix multiplication of CUDA tensors: batches. *)
From Coq Require Import List Arith ZArith Bool Lia.
From Verif Require Import ShapeModel ShapeSpec ShapeProofs TensorModel TensorSpec TensorLemmas BcastModel BcastSpec BcastProofs BufModel BufProofs
  PermModel PermProofs2 CutModel CutProofs CutProofs2 ReduceModel ReduceProofs ReduceProofs2 LinalgModel LinalgSpec LinalgProofs LinalgProofs2 CudaMatmulModel CudaMatmulProofs.
Import ListNotations.

(* A shape preceded by dimensions of size 1. *)
Definition pad (r : nat) (b : list nat) : list nat := repeat 1 (r - length b) ++ b.
Lemma pad_length r b : length b <= r -> length (pad r b) = r.
Proof. intros H. unfold pad. rewrite app_length, repeat_length. lia. Qed.
Lemma ones_numel e : numel (repeat 1 e) = 1.
Proof. induction e as [|e IH]; [reflexivity|]. cbn [repeat]. rewrite numel_cons, IH. reflexivity. Qed.
Lemma pad_numel r b : numel (pad r b) = numel b.
Proof. unfold pad. rewrite numel_app, ones_numel. lia. Qed.
Lemma pad_from_right r b i : length b <= r -> i < r -> nth i (pad r b) 1 = from_right b (r - 1 - i).
Proof.
  intros L Hi. unfold pad, from_right. destruct (Nat.ltb_spec i (r - length b)) as [H|H].
  - rewrite app_nth1 by (rewrite repeat_length; exact H). rewrite nth_overflow with (l := rev b) by (rewrite rev_length; lia). apply nth_repeat.
  - rewrite app_nth2 by (rewrite repeat_length; exact H). rewrite repeat_length. rewrite rev_nth by lia. f_equal. lia.
Qed.

Lemma numel_le : forall s r, length s = length r -> positive r -> (forall i, i < length s -> nth i s 1 = 1 \/ nth i s 1 = nth i r 1) -> numel s <= numel r /\ (numel s = numel r -> s = r).
Proof.
  induction s as [|d s IH]; intros [|e r] L P H; try discriminate; [split; auto|]. inversion_clear P as [|? ? Pe Pr].
  destruct (IH r) as [H1 H2]; [cbn in L; lia|exact Pr|intros i Hi; apply (H (S i)); cbn; lia|].
  pose proof (H 0 ltac:(cbn; lia)) as H0. cbn [nth] in H0. rewrite !numel_cons. pose proof (positive_numel r Pr) as Pn.
  split; [destruct H0 as [-> | ->]; nia|]. intros E.
  assert (d = e /\ numel s = numel r) as [-> E']; [destruct H0 as [-> | ->]; nia|]. f_equal. apply H2, E'.
Qed.

Section Batches.
Variables (ba bb bs : list nat).
Hypothesis (Pa : positive ba) (Pb : positive bb) (HB : is_broadcast [ba; bb] bs).

Lemma bs_length : length ba <= length bs /\ length bb <= length bs.
Proof. destruct HB as [L _]. cbn in L. lia. Qed.
Lemma bs_positive : positive bs.
Proof. apply (is_broadcast_positive [ba; bb]); auto. Qed.
Lemma aligned b : In b [ba; bb] -> length b <= length bs /\ forall i, i < length bs -> nth i (pad (length bs) b) 1 = 1 \/ nth i (pad (length bs) b) 1 = nth i bs 1.
Proof.
  intros Hb. assert (L : length b <= length bs) by (destruct bs_length; destruct Hb as [<-|[<-|[]]]; assumption). split; [exact L|].
  intros i Hi. rewrite pad_from_right by assumption. destruct HB as [_ H]. destruct (H (length bs - 1 - i) ltac:(lia)) as [H1 _]. specialize (H1 b Hb).
  replace (nth i bs 1) with (from_right bs (length bs - 1 - i)); [exact H1|]. unfold from_right. rewrite rev_nth by lia. f_equal. lia.
Qed.
Lemma full b : In b [ba; bb] -> numel b = numel bs -> pad (length bs) b = bs.
Proof.
  intros Hb E. destruct (aligned b Hb) as [L H]. apply (numel_le (pad (length bs) b) bs); [apply pad_length, L|apply bs_positive|intros i Hi; apply H; rewrite pad_length in Hi; assumption|].
  rewrite pad_numel. exact E.
Qed.
Lemma full_ravel b be : In b [ba; bb] -> numel b = numel bs -> valid bs be -> ravel b (bidx b be) = ravel bs be.
Proof.
  intros Hb E V. destruct (aligned b Hb) as [L _]. pose proof (full b Hb E) as EF. unfold pad in EF. rewrite <- EF in V |- *. clear EF.
  pose proof (valid_length _ _ V) as LV. rewrite app_length, repeat_length in LV.
  rewrite <- (firstn_skipn (length bs - length b) be) in V |- *. set (z := firstn _ be) in *. set (q := skipn _ be) in *.
  assert (Lz : length z = length bs - length b) by (unfold z; apply firstn_length_le; lia).
  apply valid_app in V; [|rewrite repeat_length; first [exact Lz|symmetry; exact Lz]]. destruct V as [V1 V2].
  assert (EQ : bidx b (z ++ q) = q).
  { unfold bidx. rewrite app_length. rewrite (valid_length _ _ V2). replace (length z + length b - length b) with (length z) by lia.
    rewrite skipn_app, Nat.sub_diag, skipn_all. cbn [app skipn]. clear - V2. revert V2. generalize q. clear. induction b as [|d b IH]; intros [|x q] V; inversion V; subst; auto.
    cbn [combine map fst snd]. f_equal; [|apply IH; assumption]. destruct (Nat.eqb_spec d 1); [lia|reflexivity]. }
  rewrite EQ. rewrite ravel_app by (rewrite repeat_length; first [exact Lz|symmetry; exact Lz]).
  assert (EZ : ravel (repeat 1 (length bs - length b)) z = 0); [|rewrite EZ; lia].
  pose proof (ravel_lt _ _ V1) as R. rewrite ones_numel in R. lia.
Qed.

(* The test of the code. *)
Lemma needs_dim b i : In b [ba; bb] -> i < length bs ->
  (if length bs - length b <=? i then nth (i - (length bs - length b)) b 0 else 1) = nth i (pad (length bs) b) 1.
Proof.
  intros Hb Hi. destruct (aligned b Hb) as [L _]. unfold pad. destruct (Nat.leb_spec (length bs - length b) i) as [H|H].
  - rewrite app_nth2 by (rewrite repeat_length; exact H). rewrite repeat_length. apply nth_indep. lia.
  - rewrite app_nth1 by (rewrite repeat_length; exact H). symmetry. apply nth_repeat.
Qed.
Lemma pad_pos b i : In b [ba; bb] -> 0 < nth i (pad (length bs) b) 1.
Proof.
  intros Hb. destruct (Nat.ltb_spec i (length (pad (length bs) b))) as [H|H]; [|rewrite nth_overflow by exact H; lia].
  assert (P : positive (pad (length bs) b)).
  { unfold pad. apply Forall_app. split; [apply Forall_forall; intros x Hx; apply repeat_spec in Hx; lia|]. destruct Hb as [<-|[<-|[]]]; assumption. }
  unfold positive in P. rewrite Forall_forall in P. apply P. apply nth_In. exact H.
Qed.
Lemma needs_spec : needsBroadcast ba bb (length bs) = false <-> numel ba = numel bs /\ numel bb = numel bs.
Proof.
  assert (S : needsBroadcast ba bb (length bs) = true <-> exists i, i < length bs /\ nth i (pad (length bs) ba) 1 <> nth i (pad (length bs) bb) 1).
  { unfold needsBroadcast. cbv zeta. rewrite existsb_exists. split.
    - intros (i & Hi & H). apply in_seq in Hi. exists i. split; [lia|]. rewrite (needs_dim ba), (needs_dim bb) in H by (cbn [In]; auto; lia).
      rewrite orb_true_iff, !andb_true_iff, !Nat.eqb_eq, !Nat.ltb_lt in H. lia.
    - intros (i & Hi & H). exists i. split; [apply in_seq; lia|]. rewrite (needs_dim ba), (needs_dim bb) by (cbn [In]; auto; lia).
      destruct (aligned ba) as [_ Ha]; [cbn; auto|]. destruct (aligned bb) as [_ Hb']; [cbn; auto|]. specialize (Ha i Hi). specialize (Hb' i Hi).
      pose proof (pad_pos ba i ltac:(cbn; auto)). pose proof (pad_pos bb i ltac:(cbn; auto)).
      rewrite orb_true_iff, !andb_true_iff, !Nat.eqb_eq, !Nat.ltb_lt. lia. }
  split.
  - intros N. assert (EE : pad (length bs) ba = pad (length bs) bb).
    { destruct bs_length as [La Lb]. apply (nth_ext _ _ 1 1); [rewrite !pad_length by assumption; reflexivity|]. intros i Hi. rewrite pad_length in Hi by exact La.
      destruct (Nat.eq_dec (nth i (pad (length bs) ba) 1) (nth i (pad (length bs) bb) 1)) as [E|E]; [exact E|exfalso].
      assert (T : needsBroadcast ba bb (length bs) = true) by (apply S; exists i; auto). congruence. }
    assert (EB : pad (length bs) ba = bs).
    { destruct bs_length as [La Lb]. apply (nth_ext _ _ 1 1); [apply pad_length, La|]. intros i Hi. rewrite pad_length in Hi by exact La.
      destruct HB as [_ H]. destruct (H (length bs - 1 - i) ltac:(lia)) as [_ H2].
      assert (E3 : nth i bs 1 = from_right bs (length bs - 1 - i)) by (unfold from_right; rewrite rev_nth by lia; f_equal; lia).
      rewrite <- E3 in H2. destruct H2 as [H2|(s & Hs & H2)].
      - destruct (aligned ba) as [_ Ha]; [cbn; auto|]. specialize (Ha i Hi). lia.
      - destruct Hs as [<-|[<-|[]]]; [|rewrite EE]; rewrite pad_from_right by assumption; exact H2. }
    split; [rewrite <- (pad_numel (length bs) ba), EB|rewrite <- (pad_numel (length bs) bb), <- EE, EB]; reflexivity.
  - intros [Ea Eb]. apply not_true_iff_false. intros N. apply S in N. destruct N as (i & Hi & N).
    rewrite (full ba), (full bb) in N by (cbn; auto). congruence.
Qed.
End Batches.

Section Matmul.
Context {K : cring}.
Add Ring Kr : (cring_ring K).

Definition sized (m k n : nat) : Prop := 0 < m /\ 0 < k /\ 0 < n /\ (Z.of_nat m < 2 ^ 31)%Z /\ (Z.of_nat k < 2 ^ 31)%Z /\ (Z.of_nat n < 2 ^ 31)%Z.

Lemma single (a b : list K) (ta tb : bool) m k n (A B : nat -> nat -> K) : sized m k n ->
  (forall i p, i < m -> p < k -> nth_error a (if ta then p * m + i else i * k + p) = Some (A i p)) ->
  (forall p j, p < k -> j < n -> nth_error b (if tb then j * k + p else p * n + j) = Some (B p j)) ->
  rbind (gemmCuda (fresh (m * n)) a b m k n 1 [(0, 0, 0)] ta tb) (fun c => finish [m; n] (Some c)) = Ok (tensor_of [m; n] (on2 zero (product A B k))).
Proof.
  intros (Pm & Pk & Pn & Im & Ik & In') HA HB.
  pose proof (gemmCuda_fill a b m k n [] (fun _ => (0, 0)) ta tb (fun _ => A) (fun _ => B) (on2 zero (product A B k)) Pm Pk Pn Im Ik In') as H.
  cbn [app] in H. change (numel []) with 1 in H. cbn [seq map fst snd Nat.mul Nat.add] in H.
  replace (numel [m; n]) with (m * n) in H by (rewrite !numel_cons, numel_nil; lia). apply H; auto.
Qed.

Lemma flat ta tb m k n (A B : list nat -> K) : sized m k n ->
  matmulCuda (tensor_of (at_ ta m k) A) (tensor_of (at_ tb k n) B) ta tb
  = Ok (tensor_of [m; n] (on2 zero (product (fun i p => A (at_ ta i p)) (fun p j => B (at_ tb p j)) k))).
Proof.
  intros S. unfold matmulCuda. change (tshape (tensor_of ?s ?F)) with s.
  assert (R : rbind (gemmCuda (fresh (m * n)) (tdata (tensor_of (at_ ta m k) A)) (tdata (tensor_of (at_ tb k n) B)) m k n 1 [(0, 0, 0)] ta tb) (fun c => finish [m; n] (Some c))
    = Ok (tensor_of [m; n] (on2 zero (product (fun i p => A (at_ ta i p)) (fun p j => B (at_ tb p j)) k)))).
  { apply single; [exact S| |].
    - intros i p Hi Hp. apply (operand_read [] ta m k A [] i p); auto. constructor.
    - intros p j Hp Hj. apply (operand_read [] tb k n B [] p j); auto. constructor. }
  destruct ta, tb; cbn [at_] in *; rewrite Nat.eqb_refl; cbn [negb]; exact R.
Qed.

Lemma detail (a b : tensor K) ta tb : length (tshape a) <> 2 \/ length (tshape b) <> 2 -> matmulCuda a b ta tb = matmulDetailCuda a b ta tb.
Proof.
  intro H. unfold matmulCuda. destruct (tshape a) as [|a0 [|a1 [|a2 sa]]]; auto. destruct (tshape b) as [|b0 [|b1 [|b2 sb]]]; auto. cbn in H. lia.
Qed.

Lemma batched ba bb bs ta tb m k n (A B : list nat -> K) : positive ba -> positive bb -> is_broadcast [ba; bb] bs ->
  length ba = length bb \/ ba = [] \/ bb = [] \/ (numel ba = numel bs /\ numel bb = numel bs) -> sized m k n -> (Z.of_nat (numel bs) < 2 ^ 31)%Z ->
  matmulCuda (tensor_of (ba ++ at_ ta m k) A) (tensor_of (bb ++ at_ tb k n) B) ta tb = Ok (tensor_of (bs ++ [m; n]) (mprod ba bb bs ta tb k A B)).
Proof.
  intros Pa Pb HB HL Hs Hbs. pose proof Hs as (Pm & Pk & Pn & Im & Ik & In').
  destruct (bs_length ba bb bs HB) as [La Lb]. assert (Lbs : length bs = Nat.max (length ba) (length bb)) by (destruct HB as [L _]; cbn in L; lia).
  pose proof (bs_positive ba bb bs Pa Pb HB) as Ps.
  destruct bs as [|d0 bs0].
  { destruct ba; [|cbn in La; lia]. destruct bb; [|cbn in Lb; lia]. cbn [app]. apply flat, Hs. }
  set (bs := d0 :: bs0) in *.
  rewrite detail. 2:{ cbn [tensor_of tshape]. rewrite !app_length, !at_length. cbn [length bs] in Lbs. destruct ba, bb; cbn in *; lia. }
  unfold matmulDetailCuda. cbv zeta. unfold tstrides. change (tshape (tensor_of ?s ?F)) with s.
  rewrite (proj2 (Nat.eqb_neq _ 0)) by (rewrite app_length, at_length; lia). rewrite (proj2 (Nat.eqb_neq _ 0)) by (rewrite app_length, at_length; lia). cbn [orb].
  rewrite (proj2 (Nat.eqb_neq (length (ba ++ _)) 1)) by (rewrite app_length, at_length; lia). rewrite (proj2 (Nat.eqb_neq (length (bb ++ _)) 1)) by (rewrite app_length, at_length; lia).
  rewrite !nth_cols, !nth_rows. rewrite Nat.eqb_refl. cbn [negb].
  assert (EB : exists z, broadcastBatch (ba ++ at_ ta m k) (bb ++ at_ tb k n) 2 = Some (bs ++ z) /\ length z = 2).
  { assert (E : forall t r c, exists x y, at_ t r c = [x; y]) by (intros [] r c; cbn; eauto).
    destruct (E ta m k) as (x & y & ->). destruct (E tb k n) as (u & v & ->). destruct (broadcastBatch_bc ba bb x y u v) as (z & -> & Lz).
    exists z. split; auto. apply is_broadcast_bc in HB; auto. rewrite HB. cbn [option_map]. rewrite rev_involutive. auto. }
  destruct EB as (z & -> & Lz). rewrite !app_length, !at_length, Lz. rewrite !Nat.add_sub.
  rewrite !firstn_app, !Nat.sub_diag, !firstn_all. cbn [firstn]. rewrite !app_nil_r.
  rewrite (proj2 (Nat.ltb_lt _ _)) by (unfold bs; cbn [length]; lia).
  assert (Hmn : m * n <> 0) by nia. rewrite (proj2 (Nat.eqb_neq _ _) Hmn).
  replace (numel (bs ++ [m; n]) / (m * n)) with (numel bs).
  2:{ rewrite numel_app, !numel_cons, numel_nil, Nat.mul_1_r, Nat.div_mul; auto. }
  rewrite (toInt_id (numel bs)) by exact Hbs. unfold squeezed.
  assert (G : forall batch i j, batch < numel bs -> i < m -> j < n -> mprod ba bb bs ta tb k A B (offsetToIndices bs batch ++ [i; j])
    = product (fun i p => A (bidx ba (offsetToIndices bs batch) ++ at_ ta i p)) (fun p j => B (bidx bb (offsetToIndices bs batch) ++ at_ tb p j)) k i j).
  { intros batch i j _ _ _. unfold mprod. cbv zeta. assert (Lo : length (offsetToIndices bs batch) = length bs) by apply o2i_length.
    rewrite firstn_app, skipn_app, Lo, Nat.sub_diag, <- Lo, firstn_all, skipn_all. cbn [firstn skipn app]. rewrite app_nil_r. reflexivity. }
  assert (RB : forall r, rbind (rbind r (fun c => finish (bs ++ [m; n]) (Some c))) (fun x => Ok x) = rbind r (fun c => rbind (finish (bs ++ [m; n]) (Some c)) (fun x : tensor K => Ok x))).
  { intros [| |c]; reflexivity. }
  destruct (needsBroadcast ba bb (length bs)) eqn:EN.
  - rewrite <- RB. rewrite (map_ext _ (fun batch => (fst (batchOffset (ba ++ at_ ta m k) (makePaddedStrides (strides (ba ++ at_ ta m k)) (length bs + 2)) bs batch,
        batchOffset (bb ++ at_ tb k n) (makePaddedStrides (strides (bb ++ at_ tb k n)) (length bs + 2)) bs batch),
        snd (batchOffset (ba ++ at_ ta m k) (makePaddedStrides (strides (ba ++ at_ ta m k)) (length bs + 2)) bs batch,
        batchOffset (bb ++ at_ tb k n) (makePaddedStrides (strides (bb ++ at_ tb k n)) (length bs + 2)) bs batch), batch * (m * n)))).
    2:{ intros batch. cbn [fst snd]. f_equal. lia. }
    assert (HL' : (length ba = length bs \/ ba = []) /\ (length bb = length bs \/ bb = [])).
    { destruct HL as [?|[-> |[-> |C]]]; [| | |apply (needs_spec ba bb bs Pa Pb HB) in C; congruence]; cbn [length] in *; split; auto; left; lia. }
    destruct HL' as [HLa HLb].
    rewrite (gemmCuda_fill _ _ m k n bs (fun batch => (batchOffset (ba ++ at_ ta m k) (makePaddedStrides (strides (ba ++ at_ ta m k)) (length bs + 2)) bs batch,
        batchOffset (bb ++ at_ tb k n) (makePaddedStrides (strides (bb ++ at_ tb k n)) (length bs + 2)) bs batch)) ta tb
        (fun batch i p => A (bidx ba (offsetToIndices bs batch) ++ at_ ta i p)) (fun batch p j => B (bidx bb (offsetToIndices bs batch) ++ at_ tb p j)) (mprod ba bb bs ta tb k A B)); auto.
    + intros batch i p Hb Hi Hp. cbn [fst]. apply (batch_read ba bb); cbn [In]; auto.
    + intros batch p j Hb Hp Hj. cbn [snd]. apply (batch_read ba bb); cbn [In]; auto.
  - apply (needs_spec ba bb bs Pa Pb HB) in EN. destruct EN as [Ea Eb]. rewrite <- RB.
    change (fun batch => (batch * (m * k), batch * (k * n), batch * (m * n))) with (fun batch => (fst (batch * (m * k), batch * (k * n)), snd (batch * (m * k), batch * (k * n)), batch * (m * n))).
    rewrite (gemmCuda_fill _ _ m k n bs (fun batch => (batch * (m * k), batch * (k * n))) ta tb
        (fun batch i p => A (bidx ba (offsetToIndices bs batch) ++ at_ ta i p)) (fun batch p j => B (bidx bb (offsetToIndices bs batch) ++ at_ tb p j)) (mprod ba bb bs ta tb k A B)); auto.
    + intros batch i p Hb Hi Hp. cbn [fst].
      assert (V : valid ba (bidx ba (offsetToIndices bs batch))) by (apply (bidx_valid ba bs); [apply (is_broadcast_bto [ba; bb]); cbn; auto|apply o2i_valid; auto]).
      rewrite <- (ravel_o2i bs batch) at 1 by exact Hb. rewrite <- (full_ravel ba bb bs Pa Pb HB ba) by (cbn [In]; auto; apply o2i_valid; auto).
      apply operand_read; auto.
    + intros batch p j Hb Hp Hj. cbn [snd].
      assert (V : valid bb (bidx bb (offsetToIndices bs batch))) by (apply (bidx_valid bb bs); [apply (is_broadcast_bto [ba; bb]); cbn; auto|apply o2i_valid; auto]).
      rewrite <- (ravel_o2i bs batch) at 1 by exact Hb. rewrite <- (full_ravel ba bb bs Pa Pb HB bb) by (cbn [In]; auto; apply o2i_valid; auto).
      apply operand_read; auto.
Qed.

(* Vectors. *)
Lemma vec_read k (A : list nat -> K) p : p < k -> nth_error (tdata (tensor_of [k] A)) p = Some (A [p]).
Proof.
  intros Hp. pose proof (rd_of_idx [k] A [p]) as R. rewrite ravel_cons, ravel_nil, numel_nil in R. replace (p * 1 + 0) with p in R by lia. apply R. repeat constructor; auto.
Qed.
Lemma rbind_after (r : res (list (option K))) rsh (f : tensor K -> tensor K) : rbind r (fun c => rbind (finish rsh (Some c)) (fun x => Ok (f x))) = rbind (rbind r (fun c => finish rsh (Some c))) (fun x => Ok (f x)).
Proof. destruct r; reflexivity. Qed.
Lemma vec_vec k (A B : list nat -> K) ta tb : 0 < k -> (Z.of_nat k < 2 ^ 31)%Z ->
  matmulCuda (tensor_of [k] A) (tensor_of [k] B) ta tb = Ok (tensor_of [] (fun _ => product (fun _ p => A [p]) (fun p _ => B [p]) k 0 0)).
Proof.
  intros Pk Ik. rewrite detail by (left; cbn; lia). unfold matmulDetailCuda. cbv zeta. unfold tstrides. change (tshape (tensor_of ?s ?F)) with s.
  cbn [length Nat.eqb orb app Nat.sub nth]. rewrite Nat.eqb_refl. cbn [negb].
  change (broadcastBatch [1; k] [k; 1] 2) with (Some [k; 1]). cbn [length Nat.ltb Nat.leb Nat.sub firstn app].
  rewrite (rbind_after _ [1; 1]). change (numel [1; 1]) with (1 * 1).
  rewrite (single _ _ _ _ _ _ _ (fun _ p => A [p]) (fun p _ => B [p])).
  - cbn [rbind]. unfold squeezed, tensor_of at 1. rewrite row_data. rewrite (viewAs_flat [1; 1] [1]) by (cbn; auto). rewrite viewAs_flat by (cbn; auto). reflexivity.
  - unfold sized. lia.
  - intros i p Hi Hp. replace (i * k + p) with p by nia. apply vec_read, Hp.
  - intros p j Hp Hj. replace (p * 1 + j) with p by lia. apply vec_read, Hp.
Qed.
Lemma vec_mat k n (A B : list nat -> K) ta tb : sized 1 k n ->
  matmulCuda (tensor_of [k] A) (tensor_of (at_ tb k n) B) ta tb
  = Ok (tensor_of [n] (fun idx => product (fun _ p => A [p]) (fun p j => B (at_ tb p j)) k 0 (nth 0 idx 0))).
Proof.
  intros Hs. rewrite detail by (left; cbn; lia). unfold matmulDetailCuda. cbv zeta. unfold tstrides. change (tshape (tensor_of ?s ?F)) with s. rewrite at_length.
  cbn [length Nat.eqb orb]. pose proof (nth_cols [] tb k n) as E1. pose proof (nth_rows [] tb k n) as E2. cbn [app] in E1, E2. rewrite at_length in E1, E2.
  rewrite ?at_length, E1, E2. cbn [nth Nat.sub]. rewrite Nat.eqb_refl. cbn [negb].
  replace (broadcastBatch [1; k] (at_ tb k n) 2) with (Some (at_ tb k n)) by (destruct tb; reflexivity). rewrite at_length. cbn [length Nat.ltb Nat.leb Nat.sub firstn app].
  rewrite (rbind_after _ [1; n]). replace (numel [1; n]) with (1 * n) by (rewrite !numel_cons, numel_nil; lia).
  rewrite (single _ _ _ _ _ _ _ (fun _ p => A [p]) (fun p j => B (at_ tb p j))).
  - cbn [rbind]. unfold squeezed, tensor_of at 1. rewrite row_data. rewrite viewAs_flat.
    + unfold tensor_of. do 2 f_equal. apply map_ext_in. intros idx Hi. apply indices_in in Hi. inversion Hi as [|a b la lb Hab Hl]. inversion Hl. reflexivity.
    + cbn [tensor_of tdata]. rewrite map_length, indices_length. rewrite !numel_cons, numel_nil. lia.
    + rewrite !numel_cons, numel_nil. lia.
  - exact Hs.
  - intros i p Hi Hp. replace (i * k + p) with p by nia. apply vec_read, Hp.
  - intros p j Hp Hj. apply (operand_read [] tb k n B []); auto. constructor.
Qed.
Lemma mat_vec m k (A B : list nat -> K) ta tb : sized m k 1 ->
  matmulCuda (tensor_of (at_ ta m k) A) (tensor_of [k] B) ta tb
  = Ok (tensor_of [m] (fun idx => product (fun i p => A (at_ ta i p)) (fun p _ => B [p]) k (nth 0 idx 0) 0)).
Proof.
  intros Hs. rewrite detail by (right; cbn; lia). unfold matmulDetailCuda. cbv zeta. unfold tstrides. change (tshape (tensor_of ?s ?F)) with s. rewrite at_length.
  cbn [length Nat.eqb orb app]. pose proof (nth_cols [] ta m k) as E1. pose proof (nth_rows [] ta m k) as E2. cbn [app] in E1, E2. rewrite at_length in E1, E2.
  rewrite ?at_length, E1, E2. cbn [nth Nat.sub]. rewrite Nat.eqb_refl. cbn [negb].
  replace (broadcastBatch (at_ ta m k) [k; 1] 2) with (Some [k; 1]) by (destruct ta; reflexivity). cbn [length Nat.ltb Nat.leb Nat.sub firstn app].
  rewrite (rbind_after _ [m; 1]). replace (numel [m; 1]) with (m * 1) by (rewrite !numel_cons, numel_nil; lia).
  rewrite (single _ _ _ _ _ _ _ (fun i p => A (at_ ta i p)) (fun p _ => B [p])).
  - cbn [rbind]. unfold squeezed, tensor_of at 1. rewrite col_data. rewrite viewAs_flat.
    + unfold tensor_of. do 2 f_equal. apply map_ext_in. intros idx Hi. apply indices_in in Hi. inversion Hi as [|a b la lb Hab Hl]. inversion Hl. reflexivity.
    + cbn [tensor_of tdata]. rewrite map_length, indices_length. rewrite !numel_cons, numel_nil. lia.
    + rewrite !numel_cons, numel_nil. lia.
  - exact Hs.
  - intros i p Hi Hp. apply (operand_read [] ta m k A []); auto. constructor.
  - intros p j Hp Hj. replace (p * 1 + j) with p by lia. apply vec_read, Hp.
Qed.

(* What is rejected. *)

Lemma scalar (a b : tensor K) ta tb : tshape a = [] \/ tshape b = [] -> matmulCuda a b ta tb = Fail.
Proof.
  intro H. rewrite detail by (destruct H as [-> | ->]; cbn; auto). unfold matmulDetailCuda. cbv zeta.
  destruct H as [-> | ->]; cbn [length Nat.eqb orb]; [|rewrite orb_true_r]; auto.
Qed.
Lemma inner_size ba bb (a b : tensor K) ta tb m k k' n : tshape a = ba ++ at_ ta m k -> tshape b = bb ++ at_ tb k' n -> k <> k' -> matmulCuda a b ta tb = Fail.
Proof.
  intros Ea Eb Hk. assert (D : matmulDetailCuda a b ta tb = Fail).
  { unfold matmulDetailCuda. cbv zeta. rewrite Ea, Eb.
    rewrite (proj2 (Nat.eqb_neq _ 0)) by (rewrite app_length, at_length; lia). rewrite (proj2 (Nat.eqb_neq _ 0)) by (rewrite app_length, at_length; lia). cbn [orb].
    rewrite (proj2 (Nat.eqb_neq (length (ba ++ _)) 1)) by (rewrite app_length, at_length; lia). rewrite (proj2 (Nat.eqb_neq (length (bb ++ _)) 1)) by (rewrite app_length, at_length; lia).
    rewrite !nth_cols, !nth_rows. rewrite (proj2 (Nat.eqb_neq _ _) Hk). reflexivity. }
  destruct ba as [|x ba], bb as [|y bb].
  2-4: rewrite detail; auto; rewrite Ea, Eb, !app_length, !at_length; cbn [length]; lia.
  unfold matmulCuda. rewrite Ea, Eb. apply Nat.eqb_neq in Hk. destruct ta, tb; cbn [app at_]; rewrite Hk; reflexivity.
Qed.
Lemma batches ba bb (a b : tensor K) ta tb m k k' n : positive ba -> positive bb -> tshape a = ba ++ at_ ta m k -> tshape b = bb ++ at_ tb k' n ->
  (~ exists bs, is_broadcast [ba; bb] bs) -> matmulCuda a b ta tb = Fail.
Proof.
  intros Pa Pb Ea Eb HN. destruct (Nat.eq_dec k k') as [<-|Hk]; [|eapply inner_size; eauto].
  assert (EN : bc (rev ba) (rev bb) = None).
  { destruct (bc (rev ba) (rev bb)) as [r|] eqn:E; auto. exfalso. apply HN. exists (rev r). apply is_broadcast_bc; auto. rewrite rev_involutive. auto. }
  rewrite detail.
  2: { rewrite Ea, Eb, !app_length, !at_length. destruct ba, bb; cbn [length]; try lia. cbn in EN. discriminate. }
  unfold matmulDetailCuda. cbv zeta. rewrite Ea, Eb.
  rewrite (proj2 (Nat.eqb_neq _ 0)) by (rewrite app_length, at_length; lia). rewrite (proj2 (Nat.eqb_neq _ 0)) by (rewrite app_length, at_length; lia). cbn [orb].
  rewrite (proj2 (Nat.eqb_neq (length (ba ++ _)) 1)) by (rewrite app_length, at_length; lia). rewrite (proj2 (Nat.eqb_neq (length (bb ++ _)) 1)) by (rewrite app_length, at_length; lia).
  rewrite !nth_cols, !nth_rows. rewrite Nat.eqb_refl. cbn [negb].
  assert (E : forall t r c, exists x y, at_ t r c = [x; y]) by (intros [] r c; cbn; eauto).
  destruct (E ta m k) as (x & y & ->). destruct (E tb k n) as (u & v & ->). destruct (broadcastBatch_bc ba bb x y u v) as (z & -> & Lz).
  rewrite EN. reflexivity.
Qed.
(* Empty matrices. *)
Lemma no_inner m n (A B : list nat -> K) tb : matmulCuda (tensor_of [m; 0] A) (tensor_of (at_ tb 0 n) B) false tb = Fail.
Proof.
  assert (H : forall c a b offs, gemmCuda c a b m 0 n 1 offs false tb = @Fail (list (option K))).
  { intros. unfold gemmCuda, cublasGemm. change (toInt 0) with 0%Z.
    assert (E : cublasAccepts tb false (toInt n) (toInt m) 0 (toInt (if tb then 0 else n)) 0 (toInt n) 1 = false); [|rewrite E; reflexivity].
    unfold cublasAccepts. change (Z.max 1 0 <=? 0)%Z with false. rewrite andb_false_r. reflexivity. }
  unfold matmulCuda. change (tshape (tensor_of ?s ?F)) with s. destruct tb; cbn [at_ Nat.eqb negb]; rewrite H; reflexivity.
Qed.
Lemma no_columns m k (A B : list nat -> K) ta tb : matmulCuda (tensor_of (at_ ta m k) A) (tensor_of (at_ tb k 0) B) ta tb = Fail.
Proof.
  assert (H : forall c a b offs, gemmCuda c a b m k 0 1 offs ta tb = @Fail (list (option K))).
  { intros. unfold gemmCuda, cublasGemm. change (toInt 0) with 0%Z.
    assert (E : forall x y, cublasAccepts tb ta 0 (toInt m) (toInt k) x y 0 1 = false); [|rewrite E; reflexivity].
    intros x y. unfold cublasAccepts. change (Z.max 1 0 <=? 0)%Z with false. apply andb_false_r. }
  unfold matmulCuda. change (tshape (tensor_of ?s ?F)) with s. destruct ta, tb; cbn [at_]; rewrite Nat.eqb_refl; cbn [negb]; rewrite H; reflexivity.
Qed.
(* Sizes beyond 2^31. *)
Lemma wide k (A B : list nat -> K) : Z.of_nat k = (2 ^ 32 + 1)%Z ->
  matmulCuda (tensor_of [1; k] A) (tensor_of [k; 1] B) false false = Ok (tensor_of [1; 1] (fun _ => mul (A [0; 0]) (B [0; 0]))).
Proof.
  intros Hk. assert (ET : toInt k = 1%Z) by (unfold toInt; rewrite Hk; reflexivity).
  assert (RA : rd (tdata (tensor_of [1; k] A)) 0 = Some (A [0; 0])) by (apply (operand_read [] false 1 k A [] 0 0); [constructor|lia|lia]).
  assert (RB : rd (tdata (tensor_of [k; 1] B)) 0 = Some (B [0; 0])) by (apply (operand_read [] false k 1 B [] 0 0); [constructor|lia|lia]).
  unfold matmulCuda. change (tshape (tensor_of ?s ?F)) with s. cbv iota. rewrite Nat.eqb_refl. cbn [negb]. unfold gemmCuda, cublasGemm. rewrite ET.
  change (toInt 1) with 1%Z. change (negb (cublasAccepts false false 1 1 1 1 1 1 1)) with false. cbv iota.
  change (Z.to_nat 1) with 1. cbn [map fst snd firstn seq list_prod app loop obind colMajor Nat.mul Nat.add]. rewrite RA, RB. cbn [obind].
  cbn. unfold finish. cbn. unfold tensor_of. cbn. do 3 f_equal. ring.
Qed.
Lemma sum_const : forall (l : list nat), sum (K := Zring) (fun _ => 1%Z) l = Z.of_nat (length l).
Proof. induction l as [|x l IH]; [reflexivity|]. rewrite sum_cons, IH. cbn [length]. rewrite Nat2Z.inj_succ. change (@add Zring) with Z.add. change (car Zring) with Z in *. lia. Qed.
End Matmul.
