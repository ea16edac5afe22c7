From Coq Require Import ZArith List Bool Arith Lia Permutation.
From Verif Require Import ShapeModel ShapeSpec ShapeProofs TensorModel TensorSpec TensorLemmas BcastModel BcastSpec BcastProofs BcastProofs2 BufModel BufProofs
  PermModel PermProofs PermProofs2 CutModel CutSpec CutProofs CutProofs2 IndexSpec IndexProofs ReduceModel ReduceSpec ReduceProofs ReduceProofs2
  LinalgModel LinalgSpec LinalgProofs LinalgProofs2 LinalgProofs3 LinalgProofs4.
Import ListNotations.

(** With one channel or one position the two layouts coincide. *)
Lemma one_layout {K : cring} n ch h w (f : nat -> nat -> nat -> nat -> K) : ch = 1 \/ h * w = 1 ->
  channels_last n ch h w f = tensor_of [n; ch; h; w] (on4 zero (fun b o y x => f b y x o)).
Proof.
  intro H. unfold channels_last. rewrite reshape_of by (rewrite !numel_cons, numel_nil; ring). apply tensor_of_ext. intros idx V. apply valid4 in V.
  destruct V as (b & o & y & x & -> & Hb & Ho & Hy & Hx). cbn [on4].
  replace (revidx [n; h; w; ch] [n; ch; h; w] [b; o; y; x]) with [b; y; x; o]; auto.
  unfold revidx. rewrite <- (o2i_ravel [n; h; w; ch] [b; y; x; o]) by (repeat constructor; auto). f_equal. rewrite !ravel_cons, ravel_nil, !numel_cons, numel_nil.
  destruct H as [->|H]; [replace o with 0 by lia; ring|]. assert (h = 1 /\ w = 1) as [-> ->] by nia. replace y with 0 by lia. replace x with 0 by lia. ring.
Qed.
Lemma channels_last_of {K : cring} n ch h w (f : nat -> nat -> nat -> nat -> K) :
  channels_last n ch h w f = tensor_of [n; ch; h; w] (fun idx => on4 zero f (revidx [n; h; w; ch] [n; ch; h; w] idx)).
Proof. unfold channels_last. apply reshape_of. rewrite !numel_cons, numel_nil. ring. Qed.

Section Pool.
Context {K : cring} (n c h w : nat) (kernel stride padding : dim2).
Add Ring Kr : (cring_ring K).
Let kh := dh kernel. Let kw := dw kernel.
Let ks := kh * kw.
Let oh := positions h kh (dh stride) (dh padding).
Let ow := positions w kw (dw stride) (dw padding).
Let img := [n; c; h; w].
Let R := n * (oh * ow).
Let Q := c * kh * kw.
Let N := R * c.
Hypothesis HW : windows h w kernel stride padding.
Hypothesis Hks : ks <> 0.

Let colF (X : list nat -> K) (idx : list nat) : K := fetch X (source h w stride padding (untarget n c h w kernel stride padding idx)).
Let winF (X : list nat -> K) (idx : list nat) : K := colF X (revidx [R; Q] [N; ks] idx).
Lemma mat_numel : numel [N; ks] = numel [R; Q].
Proof. unfold N, ks, Q. rewrite !numel_cons, numel_nil. ring. Qed.
Definition slot (b y x ch : nat) : nat := ((b * oh + y) * ow + x) * c + ch.
Lemma slot_ravel b y x ch : slot b y x ch = ravel [n; oh; ow; c] [b; y; x; ch].
Proof. unfold slot. rewrite !ravel_cons, ravel_nil, !numel_cons, numel_nil. ring. Qed.
Lemma N_numel : numel [n; oh; ow; c] = N.
Proof. unfold N, R. rewrite !numel_cons, numel_nil. ring. Qed.
Lemma slot_lt b y x ch : b < n -> y < oh -> x < ow -> ch < c -> slot b y x ch < N.
Proof. intros. rewrite slot_ravel, <- N_numel. apply ravel_lt. repeat constructor; auto. Qed.

Lemma winF_value X b y x ch i j : b < n -> y < oh -> x < ow -> ch < c -> i < kh -> j < kw ->
  winF X [slot b y x ch; i * kw + j] = pixel h w X b ch (place (dh stride) (dh padding) y i) (place (dw stride) (dw padding) x j).
Proof.
  intros Hb Hy Hx Hc Hi Hj. unfold winF. replace (revidx [R; Q] [N; ks] [slot b y x ch; i * kw + j]) with (target h w kernel stride padding [b; ch; y; x; i; j]).
  - unfold colF. rewrite untarget_target by (repeat constructor; auto). apply source_pixel.
  - unfold revidx. rewrite <- (o2i_ravel [R; Q] (target h w kernel stride padding [b; ch; y; x; i; j])).
    + f_equal. cbn [target]. unfold row, col, slot. fold kh kw oh ow. unfold Q, ks. rewrite !ravel_cons, ravel_nil, !numel_cons, numel_nil. ring.
    + apply target_valid. repeat constructor; auto.
Qed.
Lemma winF_window X b y x ch : b < n -> y < oh -> x < ow -> ch < c ->
  map (fun q => winF X [slot b y x ch; q]) (seq 0 ks) = window h w kernel stride padding X b ch y x.
Proof.
  intros Hb Hy Hx Hc. unfold window. fold kh kw. assert (E : ks = numel [kh; kw]) by (unfold ks; rewrite !numel_cons, numel_nil; ring).
  rewrite E, <- seq_indices, map_map. apply map_ext_in. intros q Hq. apply indices_in, valid2 in Hq. destruct Hq as (i & j & -> & Hi & Hj).
  rewrite !ravel_cons, ravel_nil, !numel_cons, numel_nil. rewrite <- winF_value by auto. f_equal. f_equal. f_equal. lia.
Qed.

Lemma pool_forward (lt : K -> K -> bool) lo X : total_order lt -> lt zero lo = false -> (forall idx, valid img idx -> lt (X idx) lo = false) ->
  exists V I, maxPool lt lo (tensor_of img X) kernel stride padding
    = Ok (channels_last n c oh ow V, mkT [N] (tdata (tensor_of [n; oh; ow; c] (on4 0 I))))
  /\ forall b y x ch, b < n -> y < oh -> x < ow -> ch < c -> first_max lt (window h w kernel stride padding X b ch y x) (V b y x ch) (I b y x ch).
Proof.
  intros O Hz HX. unfold maxPool. change (tshape (tensor_of img X)) with img. unfold img at 1. rewrite geometry_4 by auto. cbn [rbind]. fold kh kw oh ow.
  unfold img. rewrite im2col_exact by auto. fold kh kw oh ow R Q ks. fold (colF X). cbn [rbind].
  rewrite (viewZ_right _ ks N); [|apply of_wf|auto|rewrite of_numel, <- mat_numel, !numel_cons, numel_nil; ring].
  rewrite (reshape_of [R; Q] [N; ks]) by apply mat_numel. fold (winF X).
  assert (HF : forall idx, lt (winF X idx) lo = false -> True) by auto.
  destruct (extremeDim_correct lt (opMax lt lo) O (picks_max lt lo) [N; ks] (winF X) 1%Z 1 false) as (V & I & E & M).
  - unfold dim_is. cbn. lia.
  - exact Hks.
  - intros idx Vi. cbn [dflt opMax]. unfold winF, colF.
    pose proof (revidx_valid [R; Q] [N; ks] idx mat_numel Vi) as V1. destruct (target_surj n c h w kernel stride padding _ V1) as (q & Vq & E). rewrite <- E, untarget_target by auto.
    destruct (source h w stride padding q) eqn:Es; cbn [fetch]; auto. apply HX. eapply source_valid; eauto.
  - rewrite E. cbn [rbind fst snd]. change (without_dim false 1 [N; ks]) with [N] in *.
    exists (fun b y x ch => V [slot b y x ch]), (fun b y x ch => I [slot b y x ch]). split.
    + assert (D : forall A (d : A) (F : list nat -> A), tdata (tensor_of [N] F) = tdata (tensor_of [n; oh; ow; c] (on4 d (fun b y x ch => F [slot b y x ch])))).
      { intros A d F. change (tdata (mkT [n; oh; ow; c] (tdata (tensor_of [N] F))) = tdata (tensor_of [n; oh; ow; c] (on4 d (fun b y x ch => F [slot b y x ch])))). f_equal.
        rewrite reshape_of by (rewrite N_numel, numel_cons, numel_nil; lia). apply tensor_of_ext. intros idx Vx. apply valid4 in Vx.
        destruct Vx as (b & y & x & ch & -> & Hb & Hy & Hx & Hc). cbn [on4]. f_equal. unfold revidx. rewrite <- slot_ravel.
        rewrite <- (o2i_ravel [N] [slot b y x ch]) by (repeat constructor; apply slot_lt; auto). f_equal. rewrite ravel_cons, ravel_nil, numel_nil. lia. }
      rewrite viewAs_data; [|apply of_wf|rewrite of_numel]. 2: { rewrite (numel_cons N), numel_nil, Nat.mul_1_r, <- N_numel. rewrite !numel_cons, numel_nil. ring. }
      rewrite (D K zero V). unfold channels_last. do 2 f_equal. rewrite <- (D nat 0 I). reflexivity.
    + intros b y x ch Hb Hy Hx Hc. rewrite <- winF_window by auto. apply (M [slot b y x ch]). repeat constructor. apply slot_lt; auto.
Qed.

(** Gradient: the adjoint of reading the chosen pixels. *)
Definition chosen (X : list nat -> K) (I : nat -> nat -> nat -> nat -> nat) (b y x ch : nat) : K :=
  pixel h w X b ch (place (dh stride) (dh padding) y (I b y x ch / kw)) (place (dw stride) (dw padding) x (I b y x ch mod kw)).
Lemma pool_backward (I : nat -> nat -> nat -> nat -> nat) (G : list nat -> K) :
  (forall b y x ch, b < n -> y < oh -> x < ow -> ch < c -> I b y x ch < ks) ->
  exists dX, maxPoolBackward img (mkT [N] (tdata (tensor_of [n; oh; ow; c] (on4 0 I)))) (tensor_of [n; c; oh; ow] G) kernel stride padding = Ok (tensor_of img dX)
  /\ forall X S, tensor_of [n; c; oh; ow] S = channels_last n c oh ow (chosen X I) -> inner [n; c; oh; ow] S G = inner img X dX.
Proof.
  intro HI. unfold maxPoolBackward. unfold img at 1. rewrite geometry_4 by auto. cbn [rbind]. fold kh kw oh ow ks.
  set (osh := [n; c; oh; ow]). set (nhwc := [n; oh; ow; c]).
  assert (EO : numel osh = N) by (unfold osh; rewrite <- N_numel, !numel_cons, numel_nil; ring).
  change (tnumel (tensor_of osh G)) with (numel osh). rewrite EO.
  set (Ii := fun i => on4 0 I (offsetToIndices nhwc i)). set (Gi := fun i => G (offsetToIndices osh i)).
  assert (EN : numel nhwc = N) by apply N_numel.
  assert (BI : forall i, i < N -> Ii i < ks).
  { intros i Hi. unfold Ii. pose proof (o2i_valid nhwc i ltac:(lia)) as V. apply valid4 in V. destruct V as (b & y & x & ch & -> & Hb & Hy & Hx & Hc). cbn [on4]. auto. }
  assert (EZ : repeat (@zero K) (N * ks) = tdata (tensor_of [N; ks] (fun _ => zero))).
  { cbn [tensor_of tdata]. replace (N * ks) with (length (indices [N; ks])) by (rewrite indices_length, !numel_cons, numel_nil; ring).
    generalize (indices [N; ks]). induction l as [|a l IH]; auto. cbn [length repeat map]. rewrite IH. auto. }
  rewrite EZ. rewrite (writes_tensor (seq 0 N) (fun i => [i; Ii i]) Gi [N; ks]).
  2: { intros d i Hi _. apply in_seq in Hi. cbn [tdata]. rewrite rd_of by lia. cbn [obind]. rewrite rd_of by lia. cbn [obind].
       rewrite !ravel_cons, ravel_nil, !numel_cons, numel_nil. f_equal. unfold Ii. lia. }
  2: { intros i Hi. apply in_seq in Hi. repeat constructor; [lia|]. apply BI. lia. }
  set (E := after_writes _ _ _ _).
  assert (VE : forall i j, i < N -> j < ks -> E [i; j] = if j =? Ii i then Gi i else zero).
  { intros i j Hi Hj. unfold E, after_writes. destruct (find _ _) as [i'|] eqn:EF.
    - apply find_some in EF. destruct EF as [_ EF]. apply same_idx_true in EF. injection EF as -> ->. rewrite Nat.eqb_refl. auto.
    - destruct (Nat.eqb_spec j (Ii i)) as [->|]; auto. exfalso. assert (Hin : In i (rev (seq 0 N))) by (apply -> in_rev; apply in_seq; lia).
      pose proof (find_none _ _ EF i Hin) as F0. cbn beta in F0. rewrite (proj2 (same_idx_true _ _) eq_refl) in F0. discriminate. }
  assert (EM : numel [n * oh * ow; c * kh * kw] = numel [N; ks]) by (unfold N, R, ks; rewrite !numel_cons, numel_nil; ring).
  rewrite viewAs_data; [|apply (of_wf [N; ks] E)|exact EM].
  cbn [tdata]. rewrite reshape_of by exact EM. replace (n * oh * ow) with R by (unfold R; ring). fold Q.
  pose proof (col2im_exact (K := K) n c h w kernel stride padding HW) as C2. fold kh kw oh ow R Q in C2. fold img in C2. rewrite C2. clear C2.
  eexists. split; [reflexivity|]. intros X S HS.
  pose proof (adjoint n c h w kernel stride padding X) as A. fold kh kw oh ow R Q img in A. fold (colF X) in A. rewrite <- A by auto. clear A.
  replace (n * oh * ow) with R by (unfold R; ring).
  rewrite <- (inner_reshape_l [R; Q] [N; ks]) by apply mat_numel. fold (winF X).
  rewrite (on2_eta N ks), inner_2.
  transitivity (sum (fun i => mul (winF X [i; Ii i]) (Gi i)) (seq 0 N)).
  - unfold inner. rewrite <- (indices_seq osh), sum_map, EO. apply sum_ext. intros i Hi. apply in_seq in Hi. unfold Gi. f_equal.
    assert (ES : nth_error (tdata (tensor_of osh S)) i = nth_error (tdata (channels_last n c oh ow (chosen X I))) i) by (fold osh in HS; rewrite HS; auto).
    cbn [channels_last tensor_of tdata] in ES. fold nhwc in ES. rewrite !nth_error_map, !indices_nth in ES by lia. cbn [option_map] in ES. apply (f_equal (fun o => match o with Some a => a | None => zero end)) in ES. cbv beta iota in ES. etransitivity; [exact ES|]. clear ES.
    pose proof (o2i_valid nhwc i ltac:(lia)) as V. pose proof (ravel_o2i nhwc i ltac:(lia)) as ER. apply valid4 in V.
    destruct V as (b & y & x & ch & EV & Hb & Hy & Hx & Hc). assert (EI : Ii i = I b y x ch) by (unfold Ii; rewrite EV; auto).
    rewrite EI, EV. cbn [on4]. rewrite EV in ER. rewrite <- ER. unfold nhwc. rewrite <- slot_ravel.
    pose proof (HI b y x ch Hb Hy Hx Hc) as HK. unfold chosen. assert (kw <> 0) by (unfold ks in Hks; lia).
    pose proof (Nat.div_mod (I b y x ch) kw) as DM. replace [slot b y x ch; I b y x ch] with [slot b y x ch; I b y x ch / kw * kw + I b y x ch mod kw] by (do 2 f_equal; lia).
    symmetry. apply winF_value; auto; [apply Nat.div_lt_upper_bound; unfold ks in HK; lia|apply Nat.mod_upper_bound; auto].
  - apply sum_ext. intros i Hi. apply in_seq in Hi.
    rewrite <- (sum_seq_single (fun j => mul (winF X [i; j]) (Gi i)) ks (Ii i)) by (apply BI; lia).
    apply sum_ext. intros j Hj. apply in_seq in Hj. 
    rewrite VE by lia. destruct (j =? Ii i); auto. ring.
Qed.
End Pool.
