(* Initial parameters. *)
From Coq Require Import List Arith ZArith Bool Lia Lra Reals.
From Verif Require Import ShapeModel TensorModel BcastModel BufModel CutModel RandModel InitModel InitSpec.
Import ListNotations.
Local Open Scope nat_scope.

Section InitProofs.
Context {E : Type} (lib : library E).

Lemma uniforms_length : forall n lo hi e, length (uniforms lib n lo hi e) = n.
Proof. induction n as [|n IH]; intros lo hi e; [reflexivity|]. cbn. destruct (unif lib e). cbn. rewrite IH. reflexivity. Qed.
Lemma uniforms_firstn : forall k n lo hi e, k <= n -> firstn k (uniforms lib n lo hi e) = uniforms lib k lo hi e.
Proof. induction k as [|k IH]; intros [|n] lo hi e H; try reflexivity; [lia|]. cbn. destruct (unif lib e). cbn. rewrite IH by lia. reflexivity. Qed.
Lemma uniforms_scale c : forall n b e, uniforms lib n (- (c * b)) (c * b) e = map (Rmult c) (uniforms lib n (- b) b e).
Proof. induction n as [|n IH]; intros b e; [reflexivity|]. cbn. destruct (unif lib e) as [u e']. cbn. rewrite IH. f_equal. ring. Qed.
Lemma uniforms_range b : (forall e, 0 <= fst (unif lib e) < 1)%R -> (0 < b)%R -> forall n e, Forall (fun x => - b <= x < b)%R (uniforms lib n (- b) b e).
Proof.
  intros U B. induction n as [|n IH]; intros e; [constructor|]. cbn. specialize (U e). destruct (unif lib e) as [u e']. cbn in U. constructor; [|apply IH].
  destruct U as [U0 U1]. split; nra.
Qed.

Lemma uniforms_draws b : forall n e, uniforms lib n (- b) b e = map (fun u => (2 * u - 1) * b)%R (draws lib n e).
Proof. induction n as [|n IH]; intros e; [reflexivity|]. cbn. destruct (unif lib e) as [u e']. cbn. rewrite IH. f_equal. ring. Qed.

Lemma kaiming_bound n : 0 < n -> (sqrt 3 * (calculateGain (sqrt 5) / sqrt (INR n)) = 1 / sqrt (INR n))%R.
Proof.
  intros H. unfold calculateGain. rewrite sqrt_sqrt by lra. replace (2 / (1 + 5))%R with (1 / 3)%R by lra.
  unfold Rdiv. rewrite <- Rmult_assoc. rewrite <- sqrt_mult by lra. replace (3 * (1 * / 3))%R with 1%R by lra. rewrite sqrt_1. reflexivity.
Qed.
Lemma bound_pos n : 0 < n -> (0 < 1 / sqrt (INR n))%R.
Proof. intros H. apply Rdiv_lt_0_compat; [lra|]. apply sqrt_lt_R0. apply lt_0_INR. exact H. Qed.

(* Each leaf, given the engine it draws from. *)
Definition uni (sh : list nat) (n : nat) (e : E) : tensor R := mkT sh (uniforms lib (numel sh) (- (1 / sqrt (INR n))) (1 / sqrt (INR n)) e).
Lemma reset_linear i o b st : 0 < i ->
  resetLinear lib i o b st = let st1 := getGenerator (seeding lib) st in
    if b then let st2 := getGenerator (seeding lib) st1 in Ok (mkParams (uni [o; i] i (engine st1)) (Some (uni [o] i (engine st2))), st2)
    else Ok (mkParams (uni [o; i] i (engine st1)) None, st1).
Proof.
  intros H. unfold resetLinear, kaimingUniform, calculateFan, calculateFans. cbn [length Nat.ltb Nat.leb nth skipn fold_left].
  rewrite Nat.mul_1_r. rewrite (proj2 (Nat.eqb_neq i 0)) by lia. rewrite kaiming_bound by exact H. unfold uniform. cbn [rbind tshape]. destruct b; [|reflexivity].
  cbn [length Nat.ltb Nat.leb nth skipn fold_left fst]. rewrite Nat.mul_1_r. destruct i as [|i]; [lia|]. reflexivity.
Qed.
Lemma reset_conv i o kh kw b st : 0 < i * kh * kw ->
  resetConv2D lib i o kh kw b st = let st1 := getGenerator (seeding lib) st in
    if b then let st2 := getGenerator (seeding lib) st1 in Ok (mkParams (uni [o; i; kh; kw] (i * kh * kw) (engine st1)) (Some (uni [o] (i * kh * kw) (engine st2))), st2)
    else Ok (mkParams (uni [o; i; kh; kw] (i * kh * kw) (engine st1)) None, st1).
Proof.
  intros H. unfold resetConv2D, kaimingUniform, calculateFan, calculateFans. cbn [length Nat.ltb Nat.leb nth skipn fold_left].
  rewrite Nat.mul_1_l, Nat.mul_assoc. rewrite (proj2 (Nat.eqb_neq (i * kh * kw) 0)) by lia. rewrite kaiming_bound by exact H. unfold uniform. cbn [rbind tshape]. destruct b; [|reflexivity].
  cbn [length Nat.ltb Nat.leb nth skipn fold_left fst]. rewrite Nat.mul_1_l, Nat.mul_assoc. rewrite (proj2 (Nat.eqb_neq (i * kh * kw) 0)) by lia. reflexivity.
Qed.
Lemma uni_within sh n e : (forall e, 0 <= fst (unif lib e) < 1)%R -> 0 < n -> within lib sh (1 / sqrt (INR n)) (uni sh n e).
Proof.
  intros U H. split; [reflexivity|]. split; [apply uniforms_length|]. split; [apply uniforms_range; [exact U|apply bound_pos; exact H]|].
  exists e. apply uniforms_draws.
Qed.

Fixpoint msize (m : module) : nat := match m with Container ms => S (fold_right (fun m n => msize m + n) 0 ms) | _ => 1 end.
Lemma msize_pos m : 0 < msize m. Proof. destruct m; cbn; lia. Qed.
Lemma init_leaf m st : (forall e, 0 <= fst (unif lib e) < 1)%R -> (forall ms, m <> Container ms) -> 0 < fan_in m ->
  exists p st', initParameters lib m st = Ok ([p], st') /\ initialised lib m p.
Proof.
  intros U NC F. destruct m as [i o b|i o kh kw b|n d|sh b|sh|ms]; cbn [initParameters fan_in] in *.
  - rewrite reset_linear by exact F. cbv zeta. destruct b; cbn [rbind]; eexists; eexists; (split; [reflexivity|]); cbn [initialised weight bias optional].
    + split; [|split; [reflexivity|]]; apply uni_within; assumption.
    + split; [|reflexivity]; apply uni_within; assumption.
  - rewrite reset_conv by exact F. cbv zeta. destruct b; cbn [rbind]; eexists; eexists; (split; [reflexivity|]); cbn [initialised weight bias optional].
    + split; [|split; [reflexivity|]]; apply uni_within; assumption.
    + split; [|reflexivity]; apply uni_within; assumption.
  - unfold resetEmbedding, normal. eexists. eexists. split; [reflexivity|]. cbn [initialised weight bias]. split; [|reflexivity]. eexists. replace (numel [n; d]) with (n * d) by (unfold numel; cbn; lia). reflexivity.
  - eexists. eexists. split; [reflexivity|]. destruct b; cbn; repeat split.
  - eexists. eexists. split; [reflexivity|]. cbn; repeat split.
  - exfalso. apply (NC ms). reflexivity.
Qed.
Lemma init_all : forall k m st, msize m <= k -> (forall e, 0 <= fst (unif lib e) < 1)%R -> Forall (fun m => 0 < fan_in m) (leaves m) ->
  exists ps st', initParameters lib m st = Ok (ps, st') /\ Forall2 (initialised lib) (leaves m) ps.
Proof.
  induction k as [|k IH]; intros m st Hk U F; [pose proof (msize_pos m); lia|].
  assert (L : (forall ms, m <> Container ms) -> leaves m = [m] -> exists ps st', initParameters lib m st = Ok (ps, st') /\ Forall2 (initialised lib) (leaves m) ps).
  { intros NC EL. rewrite EL in F |- *. inversion_clear F. destruct (init_leaf m st U NC) as (p & st' & E1 & E2); [assumption|]. exists [p], st'. split; [exact E1|]. constructor; [exact E2|constructor]. }
  destruct m as [i o b|i o kh kw b|n d|sh b|sh|ms]; try (apply L; [discriminate|reflexivity]). clear L.
  cbn [msize] in Hk. apply le_S_n in Hk. cbn [leaves initParameters] in *. revert st Hk F. induction ms as [|m ms IHms]; intros st Hk F.
  - exists [], st. split; [reflexivity|constructor].
  - cbn [flat_map fold_right] in *. apply Forall_app in F as [F1 F2]. destruct (IH m st) as (ps & st1 & E1 & H1); [lia|exact U|exact F1|].
    destruct (IHms st1) as (qs & st2 & E2 & H2); [lia|exact F2|]. rewrite E1. cbn [rbind]. rewrite E2. cbn [rbind]. exists (ps ++ qs), st2. split; [reflexivity|]. apply Forall2_app; assumption.
Qed.

(* With a seed set, every draw starts from the same engine. *)
Lemma gen_seeded s (st : rstate E) : getGenerator (seeding lib) (setSeed (seeding lib) s st) = setSeed (seeding lib) s st.
Proof. reflexivity. Qed.
Definition leaf_params (e : E) (m : module) : params :=
  match m with
  | Linear i o b => mkParams (uni [o; i] i e) (if b then Some (uni [o] i e) else None)
  | Conv2D i o kh kw b => mkParams (uni [o; i; kh; kw] (i * kh * kw) e) (if b then Some (uni [o] (i * kh * kw) e) else None)
  | Embedding n d => mkParams (mkT [n; d] (normals lib 0 1 (numel [n; d]) e)) None
  | LayerNorm sh b => resetLayerNorm sh b
  | RMSNorm sh => resetRMSNorm sh
  | Container _ => mkParams (mkT [] []) None
  end.
Lemma init_seeded : forall k m s st, msize m <= k -> Forall (fun m => 0 < fan_in m) (leaves m) ->
  initParameters lib m (setSeed (seeding lib) s st) = Ok (map (leaf_params (seeding lib s)) (leaves m), setSeed (seeding lib) s st).
Proof.
  induction k as [|k IH]; intros m s st Hk F; [pose proof (msize_pos m); lia|].
  destruct m as [i o b|i o kh kw b|n d|sh b|sh|ms].
  - cbn [leaves initParameters] in *. inversion_clear F. cbn [fan_in] in *. rewrite reset_linear by assumption. cbv zeta. rewrite !gen_seeded. destruct b; reflexivity.
  - cbn [leaves initParameters] in *. inversion_clear F. cbn [fan_in] in *. rewrite reset_conv by assumption. cbv zeta. rewrite !gen_seeded. destruct b; reflexivity.
  - reflexivity.
  - reflexivity.
  - reflexivity.
  - cbn [msize] in Hk. apply le_S_n in Hk. cbn [leaves initParameters] in *. revert Hk F. induction ms as [|m ms IHms]; intros Hk F; [reflexivity|].
    cbn [flat_map fold_right] in *. apply Forall_app in F as [F1 F2]. rewrite IH by (try lia; exact F1). cbn [rbind]. rewrite IHms by (try lia; exact F2). cbn [rbind]. rewrite map_app. reflexivity.
Qed.
Lemma nth_cut {A} (d : A) : forall k n l, k < n -> nth k (firstn n l) d = nth k l d.
Proof. induction k as [|k IH]; intros [|n] [|x l] H; try lia; try reflexivity. cbn. apply IH. lia. Qed.
Lemma uni_scale sh1 sh2 n1 n2 e k : 0 < n1 -> 0 < n2 -> k < numel sh1 -> k < numel sh2 ->
  (nth k (tdata (uni sh1 n1 e)) 0 * sqrt (INR n1) = nth k (tdata (uni sh2 n2 e)) 0 * sqrt (INR n2))%R.
Proof.
  intros H1 H2 K1 K2.
  assert (G : forall sh n, 0 < n -> k < numel sh -> (nth k (tdata (uni sh n e)) 0 * sqrt (INR n) = nth k (uniforms lib (S k) (- (1)) 1 e) 0)%R).
  { intros sh n H K. unfold uni. cbn [tdata]. rewrite <- (uniforms_firstn (S k) (numel sh)) by lia. replace (1 / sqrt (INR n))%R with (1 / sqrt (INR n) * 1)%R by ring.
    rewrite uniforms_scale. rewrite nth_cut by lia.
    rewrite (nth_indep (map _ _) 0%R (1 / sqrt (INR n) * 0)%R) by (rewrite map_length, uniforms_length; exact K). rewrite map_nth.
    assert (0 < sqrt (INR n))%R by (apply sqrt_lt_R0, lt_0_INR; exact H). field. lra. }
  rewrite !G by assumption. reflexivity.
Qed.
End InitProofs.
