(* What the kernels of multinomial leave in memory, whatever the schedule. *)
From Coq Require Import List Arith ZArith Bool Lia.
From Flocq Require Import IEEE754.BinarySingleNaN IEEE754.Binary IEEE754.Bits.
From Verif Require Import ShapeModel TensorModel BcastModel BufModel MultiModel GpuModel GpuSpec GpuProofs GpuLemmas GpuOrder GpuLines GpuOwn CudaModel CudaItems CudaFillModel CudaMoveModel CudaExtremeModel CudaLineModel CudaMultiModel.
Import ListNotations.
Local Open Scope nat_scope.

Notation W32 := (word f32).

(* ---- as functions ---- *)
Fixpoint searchF (fuel : nat) (c : nat -> f32) (left right : nat) (r : f32) : nat :=
  if left <? right then
    match fuel with
    | O => left
    | S fuel => let mid := left + (right - left) / 2 in if flt (c mid) r then searchF fuel c (mid + 1) right r else searchF fuel c left mid r
    end
  else left.
Definition withF (c : nat -> f32) (n : nat) (u : f32) : nat :=
  if flt f0 (c (n - 1)) then searchF n c 0 (n - 1) (b32_mult mode_NE u (c (n - 1))) else 0.
Definition totalF (w : nat -> f32) (n : nat) : f32 := fold_left (fun acc i => b32_plus mode_NE acc (w i)) (seq 0 n) f0.
Fixpoint findF (rest : nat) (w : nat -> f32) (i : nat) (r acc : f32) : nat :=
  match rest with
  | O => 0
  | S rest => let acc := b32_plus mode_NE acc (w i) in if fge acc r then i else findF rest w (i + 1) r acc
  end.
Definition clearF (w : nat -> f32) (sel : nat) : nat -> f32 := fun i => if i =? sel then f0 else w i.
Fixpoint noF (k : nat) (w : nat -> f32) (n : nat) (us : nat -> f32) (drawn : nat) : list nat :=
  match k with
  | O => []
  | S k => let total := totalF w n in
    if flt f0 total then let sel := findF n w 0 (b32_mult mode_NE (us drawn) total) f0 in sel :: noF k (clearF w sel) n us (drawn + 1)
    else 0 :: noF k w n us drawn
  end.

Lemma searchF_range fuel c : forall left right r, left <= right -> left <= searchF fuel c left right r <= right.
Proof.
  induction fuel as [|fuel IH]; intros left right r H; cbn [searchF]; destruct (Nat.ltb_spec left right) as [L|L]; try lia.
  assert (M : left + (right - left) / 2 < right) by (pose proof (Nat.div_lt (right - left) 2); lia).
  destruct (flt (c (left + (right - left) / 2)) r).
  - specialize (IH (left + (right - left) / 2 + 1) right r). lia.
  - specialize (IH left (left + (right - left) / 2) r). lia.
Qed.
Lemma withF_lt c n u : 0 < n -> withF c n u < n.
Proof. intros H. unfold withF. destruct (flt f0 (c (n - 1))); [|exact H]. pose proof (searchF_range n c 0 (n - 1) (b32_mult mode_NE u (c (n - 1)))). lia. Qed.
Lemma findF_lt n w : forall rest i r acc, 0 < n -> i + rest <= n -> findF rest w i r acc < n.
Proof. induction rest as [|rest IH]; intros i r acc H0 H; cbn [findF]; [exact H0|]. destruct (fge _ r); [lia|]. apply IH; [exact H0|lia]. Qed.
Lemma noF_length n us : forall k w drawn, length (noF k w n us drawn) = k.
Proof. induction k as [|k IH]; intros w drawn; cbn [noF]; [reflexivity|]. destruct (flt f0 (totalF w n)); cbn [length]; rewrite IH; reflexivity. Qed.
Lemma noF_lt n us : 0 < n -> forall k w drawn, Forall (fun i => i < n) (noF k w n us drawn).
Proof. intros H. induction k as [|k IH]; intros w drawn; cbn [noF]; [constructor|]. destruct (flt f0 (totalF w n)); constructor; auto. apply findF_lt; lia. Qed.

(* ---- copying the weights ---- *)
Section Copy.
Context (m : addr -> cell W32) (prob tmp batch n : nat) (W : nat -> nat -> f32).
Hypothesis PROB : forall b i, b < batch -> i < n -> m (prob, Z.of_nat (b * n + i)) = Some (Some (El (W b i))).
Hypothesis ROOM : forall z, (0 <= z < Z.of_nat (batch * n))%Z -> m (tmp, z) <> None.
Hypothesis NEQ : prob <> tmp.

Lemma at_lt b i : b < batch -> i < n -> b * n + i < batch * n.
Proof. nia. Qed.

Lemma plan_copy b : b < batch -> forall is, (forall i, In i is -> i < n) ->
  plan (each is (fun i (_ : unit) k => ldEl (prob, Z.of_nat (b * n + i)) (fun x => St (tmp, Z.of_nat (b * n + i)) (El x) (k tt))) tt (fun _ => Done)) m
  = Some (map (fun i => (prob, Z.of_nat (b * n + i))) is, map (fun i => ((tmp, Z.of_nat (b * n + i)), El (W b i))) is).
Proof.
  intros Hb. induction is as [|i is IH]; intros H; [reflexivity|]. cbn [each map]. unfold ldEl at 1.
  apply plan_ld with (v := El (W b i)); [apply PROB; [exact Hb|apply H; left; reflexivity]|]. cbv beta iota.
  apply plan_st; [|apply IH; intros j Hj; apply H; right; exact Hj]. apply ROOM. pose proof (at_lt b i Hb (H i (or_introl eq_refl))). lia.
Qed.

Lemma strided_lt fuel s bd i : In i (strided fuel s bd n) -> i < n.
Proof. revert s. induction fuel as [|f IH]; intros s; cbn [strided]; [intros []|]. destruct (Nat.ltb_spec s n); [|intros []]. intros [<-|H']; [assumption|eauto]. Qed.

Lemma prepare_run : 0 < batch -> (Z.of_nat batch < 2 ^ 31)%Z -> always (kPrepareProbabilities prob tmp n batch) m (fun m' =>
  (forall b i, b < batch -> i < n -> m' (tmp, Z.of_nat (b * n + i)) = Some (Some (El (W b i)))) /\
  (forall a, (forall z, (0 <= z < Z.of_nat (batch * n))%Z -> a <> (tmp, z)) -> m' a = m a)).
Proof.
  intros H0 H1. eapply always_mono.
  - apply (covers_at (kPrepareProbabilities prob tmp n batch) m tmp 0%Z (Z.of_nat (batch * n)) (fun z => El (W (Z.to_nat z / n) (Z.to_nat z mod n)))).
    + split; [exact H0|]. split; [cbn [grid kPrepareProbabilities]; lia|]. cbn [bdim kPrepareProbabilities]. unfold blockSize. lia.
    + intros b t Hb Ht. cbn [grid bdim kPrepareProbabilities] in Hb, Ht. eexists _, _. cbn [code kPrepareProbabilities]. split; [apply (plan_copy b Hb); intros i Hi; eapply strided_lt; exact Hi|]. split.
      * intros a Ha E. apply in_map_iff in Ha as (i & <- & _). cbn in E. congruence.
      * intros a v Ha. apply in_map_iff in Ha as (i & E & Hi). injection E as <- <-. apply strided_lt in Hi. exists (Z.of_nat (b * n + i)). pose proof (at_lt b i Hb Hi). split; [lia|]. split; [reflexivity|].
        rewrite Nat2Z.id. rewrite (Nat.add_comm (b * n) i), Nat.div_add, Nat.mod_add, Nat.div_small, Nat.mod_small by lia. reflexivity.
    + intros z Hz. set (p := Z.to_nat z). assert (Hp : p < batch * n) by (unfold p; lia). assert (Hn : n <> 0) by (intros ->; lia). exists (p / n), (p mod n mod blockSize).
      assert (Hb : p / n < batch) by (apply Nat.div_lt_upper_bound; lia). assert (Hi : p mod n < n) by (apply Nat.mod_upper_bound; exact Hn).
      split; [exact Hb|]. split; [change (p mod n mod blockSize < blockSize); apply Nat.mod_upper_bound; discriminate|]. intros R0 W0. cbn [code kPrepareProbabilities].
      rewrite (plan_copy (p / n) Hb) by (intros i Hi'; eapply strided_lt; exact Hi'). intros E. injection E as <- <-. apply in_map_iff. exists (p mod n). split.
      * rewrite (Nat.mul_comm (p / n) n), <- Nat.div_mod by exact Hn. f_equal. f_equal. unfold p. lia.
      * apply (strided_mod n blockSize (p mod n mod blockSize) (p mod n)); [apply Nat.lt_0_succ|apply (Nat.mod_upper_bound _ blockSize); discriminate|]. auto.
  - intros m' [A B]. split.
    + intros b i Hb Hi. specialize (A (Z.of_nat (b * n + i))). pose proof (at_lt b i Hb Hi). rewrite Z.add_0_l in A. rewrite A by lia. rewrite Nat2Z.id, (Nat.add_comm (b * n) i), Nat.div_add, Nat.mod_add, Nat.div_small, Nat.mod_small by lia. reflexivity.
    + intros a Ha. apply B. intros z Hz. rewrite Z.add_0_l. apply Ha, Hz.
Qed.
End Copy.

(* ---- the scan ---- *)
Lemma solo_ldEls p offset : forall n s (x : nat -> f32) (g : addr -> cell W32) S k r w c d, (forall i, s <= i < s + n -> g (p, Z.of_nat (offset + i)) = Some (Some (El (x i)))) ->
  exists r', solo (ldEls (map (fun i => (p, Z.of_nat (offset + i))) (seq s n)) k) g S r w c d = solo (k (map x (seq s n))) g S r' w c d.
Proof.
  induction n as [|n IH]; intros s x g S k r w c d H; cbn [seq map ldEls]; [eauto|]. unfold ldEl at 1. cbn [solo]. rewrite (H s) by lia.
  destruct (IH (s + 1) x g S (fun xs => k (x s :: xs)) ((p, Z.of_nat (offset + s)) :: r) w c d) as [r' E]; [intros i Hi; apply H; lia|].
  exists r'. rewrite Nat.add_1_r in E. exact E.
Qed.
Lemma solo_stEls p : forall xs offset (g : addr -> cell W32) sm k r w c d, (forall i, i < length xs -> g (p, Z.of_nat (offset + i)) <> None) ->
  exists g', (exists w', solo (stEls p offset xs k) g sm r w c d = solo k g' sm r w' c d /\ forall a, In a w' <-> In a w \/ exists i, i < length xs /\ a = (p, Z.of_nat (offset + i))) /\
    (forall i, i < length xs -> g' (p, Z.of_nat (offset + i)) = Some (Some (El (nth i xs f0)))) /\ (forall a, (forall i, i < length xs -> a <> (p, Z.of_nat (offset + i))) -> g' a = g a).
Proof.
  induction xs as [|x xs IH]; intros offset g sm k r w c d H; cbn [stEls length].
  - exists g. split; [exists w; split; [reflexivity|]; intros a; split; [auto|intros [|(i & Hi & _)]; [auto|lia]]|]. split; [intros; lia|reflexivity].
  - destruct (IH (offset + 1) (upd g (p, Z.of_nat offset) (Some (Some (El x)))) sm k r ((p, Z.of_nat offset) :: w) c d) as (g' & (w' & E & HW) & A & B).
    { intros i Hi. rewrite upd_other; [|intros X; injection X as X; lia]. replace (offset + 1 + i) with (offset + (i + 1)) by lia. apply H. cbn [length]. lia. }
    exists g'. split; [|split].
    + exists w'. split.
      * cbn [solo]. assert (g (p, Z.of_nat offset) <> None) as N by (replace offset with (offset + 0) by lia; apply H; cbn [length]; lia). destruct (g (p, Z.of_nat offset)); [|contradiction]. exact E.
      * intros a. rewrite HW. split.
        -- intros [[<-|Hin]|(i & Hi & ->)]; [right; exists 0; split; [lia|f_equal; lia]|auto|right; exists (i + 1); split; [lia|f_equal; lia]].
        -- intros [Hin|(i & Hi & ->)]; [left; right; exact Hin|]. destruct i as [|i]; [left; left; f_equal; lia|right; exists i; split; [lia|f_equal; lia]].
    + intros [|i] Hi; cbn [nth].
      * rewrite Nat.add_0_r. rewrite B by (intros i Hi'; intros X; injection X as X; lia). apply upd_same.
      * replace (offset + S i) with (offset + 1 + i) by lia. apply A. lia.
    + intros a Ha. rewrite B by (intros i Hi; replace (offset + 1 + i) with (offset + S i) by lia; apply Ha; lia). apply upd_other. intros <-. apply (Ha 0); [lia|]. f_equal. lia.
Qed.

Lemma scan_run scan (m : addr -> cell W32) p offset n (x : nat -> f32) : (forall i, i < n -> m (p, Z.of_nat (offset + i)) = Some (Some (El (x i)))) -> length (scan (map x (seq 0 n))) = n ->
  always (scanInPlace scan p offset n) m (fun m' => (forall i, i < n -> m' (p, Z.of_nat (offset + i)) = Some (Some (El (nth i (scan (map x (seq 0 n))) f0)))) /\
    (forall a, (forall i, i < n -> a <> (p, Z.of_nat (offset + i))) -> m' a = m a)).
Proof.
  intros H HL. set (ys := scan (map x (seq 0 n))) in *.
  destruct (solo_ldEls p offset n 0 x m (fun _ => None) (fun xs => stEls p offset (scan xs) Done) [] [] [] []) as [r' E1]; [intros i Hi; apply H; lia|]. cbv beta in E1.
  destruct (solo_stEls p ys offset m (fun _ => None) Done r' [] [] []) as (g' & (w' & E2 & HW) & A & B); [intros i Hi; rewrite H by lia; discriminate|].
  fold ys in E1. rewrite E2 in E1. cbn [solo] in E1.
  apply (straight (scanInPlace scan p offset n) m (fun _ _ => mkLane g' (fun _ => None) Done r' w' [] [])).
  - split; [cbn; lia|]. split; [cbn; lia|cbn; lia].
  - intros b t _ _. cbn [code scanInPlace shar]. split; [exact E1|]. split; reflexivity.
  - intros b t b' t' a Hb Ht Hb' Ht' N _. exfalso. apply N. cbn in Hb, Ht, Hb', Ht'. f_equal; lia.
  - intros m' G. rewrite HL in *. split.
    + intros i Hi. destruct (G (p, Z.of_nat (offset + i))) as [(b & t & _ & _ & _ & E)|[Hn _]]; [cbn [lg] in E; rewrite E; apply A, Hi|].
      exfalso. apply (Hn 0 0); [cbn; lia|cbn; lia|]. cbn [gw]. apply HW. right. exists i. auto.
    + intros a Ha. destruct (G a) as [(b & t & _ & _ & _ & E)|[_ E]]; [cbn [lg] in E; rewrite E; apply B, Ha|exact E].
Qed.

(* ---- with replacement ---- *)
Lemma plan_search (m : addr -> cell W32) cdf base c r k : forall fuel left right, right <= left + fuel ->
  (forall i, left <= i < right -> m (cdf, Z.of_nat (base + i)) = Some (Some (El (c i)))) ->
  forall R0 W0, plan (k (searchF fuel c left right r)) m = Some (R0, W0) ->
  exists R, plan (search fuel cdf base left right r k) m = Some (R ++ R0, W0) /\ forall a, In a R -> fst a = cdf.
Proof.
  induction fuel as [|fuel IH]; intros left right HF H R0 W0 HK; cbn [search searchF] in *; destruct (Nat.ltb_spec left right) as [L|L]; try lia.
  - exists []. split; [exact HK|intros a []].
  - assert (M : left + (right - left) / 2 < right) by (pose proof (Nat.div_lt (right - left) 2); lia). set (mid := left + (right - left) / 2) in *.
    assert (LM : left <= mid) by (unfold mid; lia). unfold ldEl. destruct (flt (c mid) r) eqn:EC.
    + destruct (IH (mid + 1) right ltac:(lia) ltac:(intros i Hi; apply H; lia) R0 W0 HK) as (R & E & HR).
      exists ((cdf, Z.of_nat (base + mid)) :: R). split; [|intros a [<-|Ha]; [reflexivity|auto]]. cbn [app]. apply plan_ld with (v := El (c mid)); [apply H; lia|]. cbv beta iota. rewrite EC. exact E.
    + destruct (IH left mid ltac:(lia) ltac:(intros i Hi; apply H; lia) R0 W0 HK) as (R & E & HR).
      exists ((cdf, Z.of_nat (base + mid)) :: R). split; [|intros a [<-|Ha]; [reflexivity|auto]]. cbn [app]. apply plan_ld with (v := El (c mid)); [apply H; lia|]. cbv beta iota. rewrite EC. exact E.
  - exists []. split; [exact HK|intros a []].
Qed.

Section With.
Context (draw : Z -> Z -> Z -> nat -> f32) (m : addr -> cell W32) (cdf out batch n k : nat) (c : nat -> nat -> f32) (seed seq_ : Z).
Hypothesis CDF : forall b i, b < batch -> i < n -> m (cdf, Z.of_nat (b * n + i)) = Some (Some (El (c b i))).
Hypothesis ROOM : forall z, (0 <= z < Z.of_nat (batch * k))%Z -> m (out, z) <> None.
Hypothesis NEQ : cdf <> out.
Hypothesis HN : 0 < n.

Lemma with_run : (0 < Z.of_nat (batch * k) <= 2 ^ 32)%Z -> always (kMultinomialWithReplacement draw cdf out batch n k seed seq_) m (fun m' =>
  (forall p, p < batch * k -> m' (out, Z.of_nat p) = Some (Some (Ix (Z.of_nat (withF (c (p / k)) n (draw seed (Z.of_nat p) seq_ 0)))))) /\
  (forall a, (forall z, (0 <= z < Z.of_nat (batch * k))%Z -> a <> (out, z)) -> m' a = m a)).
Proof.
  intros HB. assert (HK : k <> 0) by nia.
  set (l := kMultinomialWithReplacement draw cdf out batch n k seed seq_).
  set (f := fun z => Ix (Z.of_nat (withF (c (Z.to_nat z / k)) n (draw seed z seq_ 0))) : W32).
  assert (PL : forall z, (0 <= z < Z.of_nat (batch * k))%Z -> exists R, plan ((fun idx => let batchIdx := Z.to_nat idx / k in
      ldEl (cdf, Z.of_nat (batchIdx * n + (n - 1))) (fun total => if flt f0 total then let r := b32_mult mode_NE (draw seed idx seq_ 0) total in
        search n cdf (batchIdx * n) 0 (n - 1) r (fun left => St (out, idx) (Ix (Z.of_nat left)) Done) else St (out, idx) (Ix 0%Z) Done)) z) m
      = Some (R, [((out, z), f z)]) /\ forall a, In a R -> fst a <> out).
  { intros z Hz. cbv beta zeta. set (b := Z.to_nat z / k). assert (Hb : b < batch) by (apply Nat.div_lt_upper_bound; [exact HK|lia]).
    unfold f, withF. fold b. unfold ldEl at 1. destruct (flt f0 (c b (n - 1))) eqn:EF.
    - set (r := b32_mult mode_NE (draw seed z seq_ 0) (c b (n - 1))).
      destruct (plan_search m cdf (b * n) (c b) r (fun left => St (out, z) (Ix (Z.of_nat left)) Done) n 0 (n - 1) ltac:(lia) ltac:(intros i Hi; apply CDF; lia) [] [((out, z), Ix (Z.of_nat (searchF n (c b) 0 (n - 1) r)))]) as (R & E & HR).
      { apply plan_st; [apply ROOM, Hz|reflexivity]. }
      exists ((cdf, Z.of_nat (b * n + (n - 1))) :: R). split; [|intros a [<-|Ha]; [exact NEQ|rewrite (HR a Ha); exact NEQ]].
      apply plan_ld with (v := El (c b (n - 1))); [apply CDF; lia|]. cbv beta iota. rewrite EF. rewrite app_nil_r in E. exact E.
    - exists [(cdf, Z.of_nat (b * n + (n - 1)))]. split; [|intros a [<-|[]]; exact NEQ].
      apply plan_ld with (v := El (c b (n - 1))); [apply CDF; lia|]. cbv beta iota. rewrite EF. apply plan_st; [apply ROOM, Hz|reflexivity]. }
  match type of PL with forall z, _ -> exists R, plan (?P z) m = _ /\ _ => set (PP := P) in PL; assert (K : is1d l (Z.of_nat (batch * k)) PP) by apply kernel1d_is end.
  eapply always_mono.
  - apply (covers_at l m out 0%Z (Z.of_nat (batch * k)) f).
    + eapply is1d_accepted; eauto.
    + intros b t Hb Ht. destruct (item_code l _ PP b t K) as [E|(i & Hi & _ & E)].
      * exists [], []. rewrite E. split; [reflexivity|]. split; [intros a []|intros a v []].
      * destruct (PL i Hi) as (R & E2 & HR). exists R, [((out, i), f i)]. rewrite E. split; [exact E2|]. split; [intros a Ha X; exfalso; apply (HR a Ha X)|].
        intros a v [X|[]]. injection X as <- <-. exists i. split; [exact Hi|]. split; reflexivity.
    + intros i Hi. destruct (item_thread l _ PP i K HB Hi) as (b & t & Hb & Ht & _ & E). exists b, t. split; [exact Hb|]. split; [exact Ht|]. intros R W0. rewrite E.
      destruct (PL i Hi) as (R1 & E2 & _). rewrite E2. intros X. injection X as _ <-. left. reflexivity.
  - intros m' [A B]. split.
    + intros p Hp. specialize (A (Z.of_nat p)). rewrite Z.add_0_l in A. rewrite A by lia. unfold f. rewrite Nat2Z.id. reflexivity.
    + intros a Ha. apply B. intros z Hz. rewrite Z.add_0_l. apply Ha, Hz.
Qed.
End With.
