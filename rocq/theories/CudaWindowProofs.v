(* im2col and col2im on the GPU: proofs. *)
From Coq Require Import List Arith ZArith Bool Lia.
From Verif Require RopeProofs.
From Verif Require Import ShapeModel ShapeSpec ShapeProofs TensorModel TensorSpec TensorLemmas BcastModel BufModel LinalgModel LinalgSpec LineProofs LinalgProofs LinalgProofs3 LinalgProofs4
  GpuModel GpuSpec GpuProofs CudaModel CudaSpec GpuLemmas CudaProofs GpuOrder CudaItems CudaFillModel CudaFillProps CudaReduceSpec CudaMeanProofs CudaLineModel CudaWindowModel.
Import ListNotations.

(* One thread per item, numbered by the indices of one shape, each storing one
   element of a result of another shape. *)
Theorem covers_items : forall V (l : launch V) m out sh F its (place : list nat -> list nat) P,
  is1d l (Z.of_nat (numel its)) P -> (0 < Z.of_nat (numel its) <= 2 ^ 32)%Z -> room m out (numel sh) ->
  (forall q, valid its q -> valid sh (place q) /\ exists R,
     plan (P (Z.of_nat (ravel its q))) m = Some (R, [((out, Z.of_nat (ravel sh (place q))), F (place q))]) /\ forall a, In a R -> fst a <> out) ->
  (forall idx, valid sh idx -> exists q, valid its q /\ place q = idx) ->
  computes l m out sh F.
Proof.
  intros V l m out sh F its place P K Hn ROOM HP HS. apply covers; auto.
  - eapply is1d_accepted; eauto.
  - intros b t Hb Ht. destruct (item_code l _ P b t K) as [->|(i & Hi & _ & ->)].
    + exists [], []. split; [reflexivity|]. split; intros ? *; intros [].
    + assert (Hv : valid its (offsetToIndices its (Z.to_nat i))) by (apply o2i_valid; lia).
      destruct (HP _ Hv) as (Hp & R & E & H). rewrite ravel_o2i in E by lia. rewrite Z2Nat.id in E by lia. exists R. eexists. split; [exact E|].
      split; [exact H|]. intros a v [e|[]]. injection e as <- <-. eexists. split; [exact Hp|]. auto.
  - intros idx Hv. destruct (HS idx Hv) as (q & Hq & <-). pose proof (ravel_lt its q Hq) as Hi.
    destruct (item_thread l _ P (Z.of_nat (ravel its q)) K Hn) as (b & t & Hb & Ht & _ & E); [lia|].
    exists b, t. split; [exact Hb|]. split; [exact Ht|]. intros R W EP. rewrite E in EP.
    destruct (HP q Hq) as (_ & R' & EP' & _). rewrite EP' in EP. injection EP as _ <-. left. reflexivity.
Qed.

Lemma plan_fold : forall V A (body : nat -> A -> (A -> thr V) -> thr V) m (Rs : nat -> list addr) (f : nat -> A -> A) is,
  (forall i a k R W, In i is -> plan (k (f i a)) m = Some (R, W) -> plan (body i a k) m = Some (Rs i ++ R, W)) ->
  forall acc k R W, plan (k (fold_left (fun a i => f i a) is acc)) m = Some (R, W) -> plan (each is body acc k) m = Some (flat_map Rs is ++ R, W).
Proof.
  intros V A body m Rs f. induction is as [|i is IH]; intros H acc k R W E; cbn [each flat_map fold_left app] in *; [exact E|].
  rewrite <- app_assoc. apply H; [left; reflexivity|]. apply IH; [|exact E]. intros j a k' R' W' Hj. apply H. right. exact Hj.
Qed.

Lemma div_mul_prod : forall a b x y n k, y < k -> x < n -> a = (b * n + x) * k + y -> a / (n * k) = b /\ a / k mod n = x /\ a mod k = y /\ a mod (n * k) = x * k + y.
Proof.
  intros a b x y n k Hy Hx ->. destruct (div_prod (b * n + x) y k Hy) as [D M]. destruct (div_prod b x n Hx) as [D' M'].
  split; [rewrite (Nat.mul_comm n k), <- Nat.div_div by lia; rewrite D; exact D'|]. split; [rewrite D; exact M'|]. split; [exact M|].
  replace ((b * n + x) * k + y) with (b * (n * k) + (x * k + y)) by ring. apply div_prod. nia.
Qed.

Local Ltac toZ H := repeat rewrite ?Nat2Z.inj_div, ?Nat2Z.inj_mod, ?Nat2Z.inj_add, ?Nat2Z.inj_mul in H.


(* The positions of a window that cover one pixel, along one dimension. *)
Section OneDim.
Context {K : cring}.
Add Ring Kr1 : (cring_ring K).

Lemma fold_sum : forall I (g : I -> K) l acc, fold_left (fun a i => add a (g i)) l acc = add acc (sum g l).
Proof. intros I g. induction l as [|i l IH]; intros acc; cbn [fold_left]; [rewrite sum_nil; ring|]. rewrite IH, sum_cons. ring. Qed.

Lemma sum_window : forall (g : nat -> K) a b n, (0 <= a)%Z -> (b < Z.of_nat n)%Z ->
  sum (fun o => if ((a <=? Z.of_nat o) && (Z.of_nat o <=? b))%Z then g o else zero) (seq 0 n) = sum g (from_to a b).
Proof.
  intros g a b n Ha Hb. unfold from_to. destruct (Z_lt_le_dec b a) as [L|L].
  - replace (Z.to_nat (b - a + 1)) with 0 by lia. cbn [seq]. rewrite sum_nil. apply sum_zero'. intros o _.
    destruct (Z.leb_spec a (Z.of_nat o)), (Z.leb_spec (Z.of_nat o) b); cbn [andb]; try reflexivity; lia.
  - replace n with (Z.to_nat a + (Z.to_nat (b - a + 1) + (n - Z.to_nat (b + 1)))) by lia. rewrite !seq_app, !sum_app. cbn [Nat.add].
    rewrite (sum_zero' _ (seq 0 (Z.to_nat a))), (sum_zero' _ (seq (Z.to_nat a + _) _)).
    + rewrite (sum_ext _ g (seq (Z.to_nat a) _)); [ring|]. intros o Ho. apply in_seq in Ho.
      destruct (Z.leb_spec a (Z.of_nat o)), (Z.leb_spec (Z.of_nat o) b); cbn [andb]; try reflexivity; lia.
    + intros o Ho. apply in_seq in Ho. destruct (Z.leb_spec a (Z.of_nat o)), (Z.leb_spec (Z.of_nat o) b); cbn [andb]; try reflexivity; lia.
    + intros o Ho. apply in_seq in Ho. destruct (Z.leb_spec a (Z.of_nat o)), (Z.leb_spec (Z.of_nat o) b); cbn [andb]; try reflexivity; lia.
Qed.

Definition first (y k s p : nat) : Z := Z.max 0 (Z.quot (Z.of_nat y + Z.of_nat p - Z.of_nat k + Z.of_nat s) (Z.of_nat s)).
Definition last (y n s p : nat) : Z := Z.min (Z.of_nat n - 1) (Z.quot (Z.of_nat y + Z.of_nat p) (Z.of_nat s)).

Lemma covered : forall y k s p n o, 0 < s -> o < n -> (first y k s p <= Z.of_nat o <= last y n s p)%Z <-> o * s <= y + p < o * s + k.
Proof.
  intros y k s p n o Hs Ho. unfold first, last. rewrite Z.quot_div_nonneg with (a := (Z.of_nat y + Z.of_nat p)%Z) by lia.
  assert (E2 : (Z.of_nat o <= (Z.of_nat y + Z.of_nat p) / Z.of_nat s)%Z <-> o * s <= y + p).
  { split; intros H.
    - assert (Z.of_nat o * Z.of_nat s <= Z.of_nat y + Z.of_nat p)%Z; [|lia]. pose proof (Z.mul_div_le (Z.of_nat y + Z.of_nat p) (Z.of_nat s)). nia.
    - apply Z.div_le_lower_bound; lia. }
  assert (E1 : (Z.quot (Z.of_nat y + Z.of_nat p - Z.of_nat k + Z.of_nat s) (Z.of_nat s) <= Z.of_nat o)%Z <-> y + p < o * s + k).
  { set (x := (Z.of_nat y + Z.of_nat p - Z.of_nat k + Z.of_nat s)%Z). destruct (Z_lt_le_dec x 0) as [L|L].
    - assert (Z.quot x (Z.of_nat s) <= 0)%Z.
      { replace x with (- (- x))%Z by lia. rewrite Z.quot_opp_l by lia. pose proof (Z.quot_pos (- x) (Z.of_nat s)). lia. }
      unfold x in *. split; intros _; nia.
    - rewrite Z.quot_div_nonneg by lia. split; intros H.
      + assert (x < Z.of_nat s * (Z.of_nat o + 1))%Z; [|unfold x in *; nia]. pose proof (Z.mul_succ_div_gt x (Z.of_nat s)). nia.
      + assert (x / Z.of_nat s < Z.of_nat o + 1)%Z; [|lia]. apply Z.div_lt_upper_bound; unfold x in *; nia. }
  lia.
Qed.

Lemma one_dim : forall (f : nat -> nat -> K) y k s p n, 0 < s ->
  sum (fun o => sum (fun i => if (place s p o i =? Z.of_nat y)%Z then f o i else zero) (seq 0 k)) (seq 0 n)
  = sum (fun o => f o (y + p - o * s)) (from_to (first y k s p) (last y n s p)).
Proof.
  intros f y k s p n Hs. rewrite <- (sum_window _ _ _ n); [|unfold first; lia|unfold last; lia]. apply sum_ext. intros o Ho. apply in_seq in Ho.
  pose proof (covered y k s p n o Hs ltac:(lia)) as C.
  destruct ((first y k s p <=? Z.of_nat o) && (Z.of_nat o <=? last y n s p))%Z eqn:EB.
  - rewrite andb_true_iff in EB. rewrite !Z.leb_le in EB. apply C in EB.
    rewrite <- (sum_single Nat.eqb Nat.eqb_eq (fun i => f o i) (y + p - o * s) (seq 0 k) (seq_NoDup k 0)) by (apply in_seq; lia).
    apply sum_ext. intros i _. unfold place. destruct (Z.eqb_spec (Z.of_nat (o * s + i) - Z.of_nat p) (Z.of_nat y)), (Nat.eqb_spec i (y + p - o * s)); try reflexivity; lia.
  - apply sum_zero'. intros i Hi. apply in_seq in Hi. unfold place. destruct (Z.eqb_spec (Z.of_nat (o * s + i) - Z.of_nat p) (Z.of_nat y)); [exfalso|reflexivity].
    assert (o * s <= y + p < o * s + k) as H by lia. apply C in H. rewrite <- !Z.leb_le in H. rewrite <- andb_true_iff in H. congruence.
Qed.
End OneDim.

Section Windows.
Context {K : cring} (n c h w : nat) (kernel stride padding : dim2).
Add Ring Kr : (cring_ring K).
Let kh := dh kernel. Let kw := dw kernel.
Let oh := positions h (dh kernel) (dh stride) (dh padding).
Let ow := positions w (dw kernel) (dw stride) (dw padding).
Let img := [n; c; h; w].
Let mat := [n * (oh * ow); c * kh * kw].
Let six := [n; c; oh; ow; kh; kw].
Hypothesis HW : windows h w kernel stride padding.

Lemma ravel6 b ch y x i j : ravel six [b; ch; y; x; i; j] = (((b * c + ch) * oh + y) * ow + x) * (kh * kw) + (i * kw + j).
Proof. unfold six. rewrite !ravel_cons, ravel_nil, !numel_cons, numel_nil. ring. Qed.

Lemma digits b ch y x i j : valid six [b; ch; y; x; i; j] ->
  let index := ravel six [b; ch; y; x; i; j] in
  index mod (kh * kw) = i * kw + j /\ index / (kh * kw) / (c * (oh * ow)) = b /\ (index / (kh * kw) / (oh * ow)) mod c = ch /\
  (index / (kh * kw) mod (oh * ow)) / ow = y /\ (index / (kh * kw)) mod ow = x /\ (i * kw + j) / kw = i /\ (i * kw + j) mod kw = j.
Proof.
  intros V index. apply valid6 in V. destruct V as (b' & ch' & y' & x' & i' & j' & e & Hb & Hc & Hy & Hx & Hi & Hj). injection e as <- <- <- <- <- <-.
  unfold index. rewrite ravel6. assert (Hk : i * kw + j < kh * kw) by nia. destruct (div_prod (((b * c + ch) * oh + y) * ow + x) (i * kw + j) (kh * kw) Hk) as [-> ->].
  split; [reflexivity|]. destruct (div_mul_prod _ (b * c + ch) y x oh ow Hx Hy eq_refl) as (D1 & _ & D3 & D4).
  assert (Hyx : y * ow + x < oh * ow) by nia.
  destruct (div_mul_prod (((b * c + ch) * oh + y) * ow + x) b ch (y * ow + x) c (oh * ow) Hyx Hc ltac:(ring)) as (E1 & E2 & _).
  split; [exact E1|]. split; [exact E2|]. split; [rewrite D4; apply div_prod; exact Hx|]. split; [exact D3|]. apply div_prod; exact Hj.
Qed.

Lemma six_numel : numel six = numel mat.
Proof. unfold six, mat. rewrite !numel_cons, numel_nil. ring. Qed.

Lemma im2col_launch F p out m : (0 < Z.of_nat (numel mat) <= 2 ^ 32)%Z -> p <> out -> has m p img F -> room m out (numel mat) ->
  exists l, im2colCuda (K := K) (mkD p img) kernel stride padding out = Ok (mat, l) /\
    computes l m out mat (fun idx => fetch F (source h w stride padding (untarget n c h w kernel stride padding idx))).
Proof.
  intros HZ NE HF HR. unfold im2colCuda. cbn [dshape dbuf]. unfold img at 1. rewrite geometry_4 by exact HW. fold oh ow kh kw. eexists. split; [reflexivity|]. fold mat.
  match goal with |- computes (kernel1d _ ?Q) _ _ _ _ => set (P := Q) end.
  apply (covers_items _ _ m out mat _ six (target h w kernel stride padding) P).
  - rewrite six_numel. apply kernel1d_is.
  - rewrite six_numel. exact HZ.
  - exact HR.
  - intros q Hq. pose proof (target_valid n c h w kernel stride padding q Hq) as TV. fold oh ow kh kw mat in TV. split; [exact TV|].
    pose proof (untarget_target n c h w kernel stride padding q Hq) as EU. rewrite EU.
    pose proof Hq as V. apply valid6 in V. destruct V as (b & ch & y & x & i & j & -> & Hb & Hc & Hy & Hx & Hi & Hj).
    destruct (digits b ch y x i j Hq) as (D1 & D2 & D3 & D4 & D5 & D6 & D7). set (index := ravel six [b; ch; y; x; i; j]) in *.
    assert (RO : m (out, Z.of_nat (ravel mat (target h w kernel stride padding [b; ch; y; x; i; j]))) <> None).
    { intros N. apply HR in N. pose proof (ravel_lt _ _ TV). lia. }
    pose proof (colOffset_target n c h w kernel stride padding b ch y x i j) as CT. fold oh ow kh kw mat in CT. rewrite <- CT in RO |- *. clear CT.
    apply (f_equal Z.of_nat) in D1, D2, D3, D4, D5, D6, D7.
    toZ D1. toZ D2. toZ D3. toZ D4. toZ D5. toZ D6. toZ D7.
    unfold P, im2colItem. cbv zeta. fold kh kw. rewrite D1, D2, D3, D4, D5, D6, D7. clear D1 D2 D3 D4 D5 D6 D7.
    replace (((Z.of_nat b * (Z.of_nat oh * Z.of_nat ow) + Z.of_nat y * Z.of_nat ow + Z.of_nat x) * Z.of_nat c + Z.of_nat ch) * (Z.of_nat kh * Z.of_nat kw) + (Z.of_nat i * Z.of_nat kw + Z.of_nat j))%Z
      with (Z.of_nat (colOffset c oh ow kernel b ch y x i j)) by (unfold colOffset; fold kh kw; rewrite ?Nat2Z.inj_add, ?Nat2Z.inj_mul, ?Nat2Z.inj_add, ?Nat2Z.inj_mul, ?Nat2Z.inj_add, ?Nat2Z.inj_mul, ?Nat2Z.inj_add, ?Nat2Z.inj_mul; ring).
    pose proof (pixelOffset_source n c h w kernel stride padding b ch y x i j) as PS.
    unfold pixelOffset in PS. cbv zeta in PS. rewrite !Nat2Z.inj_mul in PS.
    set (ih := (Z.of_nat y * Z.of_nat (dh stride) - Z.of_nat (dh padding) + Z.of_nat i)%Z) in *.
    set (iw := (Z.of_nat x * Z.of_nat (dw stride) - Z.of_nat (dw padding) + Z.of_nat j)%Z) in *.
    destruct ((ih >=? 0) && (ih <? Z.of_nat h) && (iw >=? 0) && (iw <? Z.of_nat w))%Z eqn:EB.
    + destruct (source h w stride padding [b; ch; y; x; i; j]) as [idx|] eqn:ES; cbn [option_map] in PS; [|discriminate]. injection PS as PS.
      pose proof (source_valid n c h w kernel stride padding _ idx Hq ES) as SV. fold img in SV, PS. rewrite !andb_true_iff in EB. cbn [fetch].
      exists [(p, Z.of_nat (ravel img idx))]. split; [|intros a [<-|[]]; exact NE].
      assert (EA : ((Z.of_nat b * Z.of_nat c + Z.of_nat ch) * Z.of_nat h * Z.of_nat w + (ih * Z.of_nat w + iw) = Z.of_nat (ravel img idx))%Z).
      { rewrite <- PS. rewrite !Nat2Z.inj_add, !Nat2Z.inj_mul, !Nat2Z.inj_add, !Nat2Z.inj_mul, !Z2Nat.id by lia. ring. }
      rewrite EA. eapply plan_ld; [apply (has_at _ m p img F idx HF SV)|]. apply plan_st; [exact RO|reflexivity].
    + destruct (source h w stride padding [b; ch; y; x; i; j]); cbn [option_map] in PS; [discriminate|]. cbn [fetch].
      exists []. split; [|intros a []]. apply plan_st; [exact RO|reflexivity].
  - intros idx Hv. exact (target_surj n c h w kernel stride padding idx Hv).
Qed.

Definition collected (Y : list nat -> K) (b ch y x : nat) : K :=
  sum (fun q => match q with
    | [oy; ox; i; j] =>
      if ((place (dh stride) (dh padding) oy i =? Z.of_nat y) && (place (dw stride) (dw padding) ox j =? Z.of_nat x))%Z
      then Y [(b * oh + oy) * ow + ox; (ch * kh + i) * kw + j] else zero
    | _ => zero end) (indices [oh; ow; kh; kw]).

Definition gets (Y : list nat -> K) (b ch y x oy ox : nat) : K :=
  Y [(b * oh + oy) * ow + ox; (ch * kh + (y + dh padding - oy * dh stride)) * kw + (x + dw padding - ox * dw stride)].

Lemma collected_windows Y b ch y x :
  collected Y b ch y x = sum (fun oy => sum (gets Y b ch y x oy) (from_to (first x kw (dw stride) (dw padding)) (last x ow (dw stride) (dw padding))))
    (from_to (first y kh (dh stride) (dh padding)) (last y oh (dh stride) (dh padding))).
Proof.
  destruct HW as [[S1 _] [S2 _]]. unfold collected. rewrite sum_cons_dim.
  etransitivity; [|exact (one_dim (fun oy i => sum (fun ox => Y [(b * oh + oy) * ow + ox; (ch * kh + i) * kw + (x + dw padding - ox * dw stride)]) (from_to (first x kw (dw stride) (dw padding)) (last x ow (dw stride) (dw padding)))) y kh (dh stride) (dh padding) oh S1)].
  apply sum_ext. intros oy _. rewrite sum_cons_dim.
  transitivity (sum (fun ox => sum (fun i => if (place (dh stride) (dh padding) oy i =? Z.of_nat y)%Z then
      sum (fun j => if (place (dw stride) (dw padding) ox j =? Z.of_nat x)%Z then Y [(b * oh + oy) * ow + ox; (ch * kh + i) * kw + j] else zero) (seq 0 kw) else zero) (seq 0 kh)) (seq 0 ow)).
  - apply sum_ext. intros ox _. rewrite sum_cons_dim. apply sum_ext. intros i _. rewrite sum_cons_dim.
    destruct (place (dh stride) (dh padding) oy i =? Z.of_nat y)%Z; cbn [andb].
    + apply sum_ext. intros j _. apply sum_nil_dim.
    + apply sum_zero'. intros j _. apply sum_nil_dim.
  - rewrite sum_swap. apply sum_ext. intros i _. destruct (place (dh stride) (dh padding) oy i =? Z.of_nat y)%Z.
    + apply (one_dim (fun ox j => Y [(b * oh + oy) * ow + ox; (ch * kh + i) * kw + j]) x kw (dw stride) (dw padding) ow S2).
    + apply sum_zero.
Qed.

Lemma in_from_to a b o : (0 <= a)%Z -> In o (from_to a b) -> (a <= Z.of_nat o <= b)%Z.
Proof. intros Ha Ho. unfold from_to in Ho. apply in_seq in Ho. lia. Qed.

Lemma col2im_launch Y p out m : (0 < Z.of_nat (numel img) <= 2 ^ 32)%Z -> p <> out -> has m p mat Y -> room m out (numel img) ->
  exists ls, col2imCuda (K := K) (mkD p mat) img kernel stride padding out = Ok (img, ls) /\
    computes_all ls m out [] img (on4 zero (fun b ch y x => collected Y b ch y x)).
Proof.
  intros HZ NE HY HR. destruct HW as [[S1 _] [S2 _]]. unfold col2imCuda. unfold img at 1. rewrite geometry_4 by exact HW. fold oh ow kh kw. eexists. split; [reflexivity|].
  cbn [dbuf]. unfold computes_all. cbn [always_all].
  pose proof (cuda_fill_partial K zero img out m) as CF. rewrite size_numel in CF. specialize (CF HZ HR).
  eapply always_mono; [exact CF|]. intros m1 [H1 E1].
  assert (HY1 : has m1 p mat Y) by (apply (has_same m); [exact HY|]; intros i; apply E1; exact NE).
  assert (HR1 : room m1 out (numel img)) by (apply (has_room K m1 out img _ H1)).
  match goal with |- always (kernel1d _ ?Q) _ _ => set (P := Q) end.
  assert (C : computes (kernel1d (Z.of_nat (n * c * h * w)) P) m1 out img (on4 zero (fun b ch y x => collected Y b ch y x))).
  2:{ eapply always_mono; [exact C|]. intros m2 [H2 E2]. split; [exact H2|]. intros q Hq _ i. rewrite E2 by exact Hq. apply E1. exact Hq. }
  rewrite <- (RopeProofs.numel4 n c h w). fold img. apply (gathers_at _ m1 out img _ P); [apply kernel1d_is|exact HZ|exact HR1|].
  intros idx V. pose proof (ravel_lt _ _ V) as RL. pose proof V as V'. apply RopeProofs.valid4 in V. destruct V as (b & ch & y & x & -> & Hb & Hc & Hy & Hx).
  cbn [on4]. set (index := ravel img [b; ch; y; x]) in *.
  assert (EI : index = ((b * c + ch) * h + y) * w + x) by apply RopeProofs.ravel4.
  destruct (div_mul_prod index (b * c + ch) y x h w Hx Hy EI) as (D1 & D2 & D3 & _).
  destruct (div_mul_prod index b ch (y * w + x) c (h * w) ltac:(nia) Hc ltac:(rewrite EI; ring)) as (D4 & D5 & _).
  rewrite (Nat.mul_comm h w) in D5. replace (c * (h * w)) with (w * h * c) in D4 by ring.
  apply (f_equal Z.of_nat) in D2, D3, D4, D5. toZ D2. toZ D3. toZ D4. toZ D5.
  unfold P, col2imItem. cbv zeta. rewrite D2, D3, D4, D5. clear D1 D2 D3 D4 D5. clearbody index.
  fold (first y kh (dh stride) (dh padding)) (last y oh (dh stride) (dh padding)) (first x kw (dw stride) (dw padding)) (last x ow (dw stride) (dw padding)).
  exists (flat_map (fun oy => flat_map (fun ox => [(p, Z.of_nat (ravel mat [(b * oh + oy) * ow + ox; (ch * kh + (y + dh padding - oy * dh stride)) * kw + (x + dw padding - ox * dw stride)]))])
      (from_to (first x kw (dw stride) (dw padding)) (last x ow (dw stride) (dw padding))))
    (from_to (first y kh (dh stride) (dh padding)) (last y oh (dh stride) (dh padding))) ++ []).
  split.
  - apply (plan_fold _ _ _ m1 _ (fun oy a => add a (sum (gets Y b ch y x oy) (from_to (first x kw (dw stride) (dw padding)) (last x ow (dw stride) (dw padding)))))).
    + intros oy a k R W Hoy HK. apply (plan_fold _ _ _ m1 _ (fun ox a => add a (gets Y b ch y x oy ox))).
      * intros ox a' k' R' W' Hox HK'.
        apply in_from_to in Hoy; [|apply Z.le_max_l]. apply in_from_to in Hox; [|apply Z.le_max_l].
        assert (oy < oh) by (destruct Hoy as [_ L]; pose proof (Z.le_min_l (Z.of_nat oh - 1) (Z.quot (Z.of_nat y + Z.of_nat (dh padding)) (Z.of_nat (dh stride)))) as L'; pose proof (Z.le_trans _ _ _ L L'); clear - H; lia).
        assert (ox < ow) by (destruct Hox as [_ L]; pose proof (Z.le_min_l (Z.of_nat ow - 1) (Z.quot (Z.of_nat x + Z.of_nat (dw padding)) (Z.of_nat (dw stride)))) as L'; pose proof (Z.le_trans _ _ _ L L') as H'; clear - H'; lia).
        apply covered in Hoy; [|assumption|assumption]. apply covered in Hox; [|assumption|assumption].
        set (i := y + dh padding - oy * dh stride) in *. set (j := x + dw padding - ox * dw stride) in *.
        assert (i < kh) by (unfold i; lia). assert (j < kw) by (unfold j; lia).
        assert (VM : valid mat [(b * oh + oy) * ow + ox; (ch * kh + i) * kw + j]).
        { unfold mat. apply RopeProofs.mk_valid2.
          - assert (oy * ow + ox < oh * ow) by nia. assert (b * (oh * ow) + (oy * ow + ox) < n * (oh * ow)) by nia. lia.
          - assert (i * kw + j < kh * kw) by nia. assert (ch * (kh * kw) + (i * kw + j) < c * (kh * kw)) by nia. lia. }
        replace (Z.of_nat y - (Z.of_nat oy * Z.of_nat (dh stride) - Z.of_nat (dh padding)))%Z with (Z.of_nat i) by (unfold i; lia).
        replace (Z.of_nat x - (Z.of_nat ox * Z.of_nat (dw stride) - Z.of_nat (dw padding)))%Z with (Z.of_nat j) by (unfold j; lia).
        assert (EA : (((Z.of_nat b * Z.of_nat oh * Z.of_nat ow + Z.of_nat oy * Z.of_nat ow + Z.of_nat ox) * Z.of_nat c + Z.of_nat ch) * (Z.of_nat kh * Z.of_nat kw) + (Z.of_nat i * Z.of_nat kw + Z.of_nat j)
          = Z.of_nat (ravel mat [(b * oh + oy) * ow + ox; (ch * kh + i) * kw + j]%nat))%Z).
        { unfold mat. rewrite RopeProofs.ravel2. clearbody i j. repeat rewrite ?Nat2Z.inj_add, ?Nat2Z.inj_mul. ring. }
        rewrite EA. cbn [app]. eapply plan_ld; [exact (has_at _ m1 p mat Y _ HY1 VM)|]. exact HK'.
      * rewrite fold_sum. exact HK.
    + rewrite fold_sum. rewrite collected_windows. replace (add zero _) with (sum (fun oy => sum (gets Y b ch y x oy) (from_to (first x kw (dw stride) (dw padding)) (last x ow (dw stride) (dw padding))))
          (from_to (first y kh (dh stride) (dh padding)) (last y oh (dh stride) (dh padding)))) by ring.
      apply plan_st; [|reflexivity]. intros N. apply HR1 in N. lia.
  - intros a Ha. rewrite app_nil_r in Ha. apply in_flat_map in Ha. destruct Ha as (oy & _ & Ha). apply in_flat_map in Ha. destruct Ha as (ox & _ & [<-|[]]). exact NE.
Qed.
End Windows.
