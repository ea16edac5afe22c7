(** Rotary position embedding. *)
From Coq Require Import ZArith List Bool Arith Lia Reals Lra.
From Verif Require Import ShapeModel ShapeSpec ShapeProofs TensorModel TensorSpec TensorLemmas BcastModel BufModel ReduceModel LineProofs SoftmaxProofs RopeModel RopeSpec.
Import ListNotations.
Open Scope R_scope.
Local Notation Rsum := (sum (K := Rring)).

Lemma finish_upto {B} sh (T : nat -> B) (F : list nat -> B) out : length out = numel sh ->
  (forall p, (p < numel sh)%nat -> nth_error out p = Some (Some (T p))) -> (forall idx, valid sh idx -> T (ravel sh idx) = F idx) ->
  finish sh (Some out) = Ok (tensor_of sh F).
Proof.
  intros HL HT HF. unfold finish. simpl obind.
  assert (Eo : out = map (fun p => Some (T p)) (seq 0 (numel sh))).
  { apply nth_error_ext'. intro p. rewrite nth_error_map, nth_error_seq0. destruct (Nat.ltb_spec p (numel sh)); simpl; auto. apply nth_error_None. lia. }
  rewrite Eo, (seqopt_map _ T) by auto. unfold tensor_of. f_equal. f_equal. rewrite <- (map_seq_indices sh F). apply map_ext_in. intros p Hp. apply in_seq in Hp.
  rewrite <- HF by (apply o2i_valid; lia). rewrite ravel_o2i by lia. auto.
Qed.
Lemma even_half n : (n mod 2 =? 0)%nat = true -> n = (n / 2 + n / 2)%nat.
Proof. intro H. apply Nat.eqb_eq in H. pose proof (Nat.div_mod n 2). lia. Qed.
Lemma mod_low i half : (i < half)%nat -> (i mod half)%nat = i /\ ((half + i) mod half)%nat = i.
Proof.
  intro H. split; [apply Nat.mod_small; auto|]. replace (half + i)%nat with (i + 1 * half)%nat by lia. rewrite Nat.mod_add by lia. apply Nat.mod_small; auto.
Qed.
Lemma valid3 a b c idx : valid [a; b; c] idx -> exists x y z, idx = [x; y; z] /\ (x < a)%nat /\ (y < b)%nat /\ (z < c)%nat.
Proof.
  intro V. inversion V as [|x ? l ? H1 V1]; subst. inversion V1 as [|y ? l1 ? H2 V2]; subst. inversion V2 as [|z ? l2 ? H3 V3]; subst. inversion V3; subst.
  exists x, y, z. auto.
Qed.
Lemma valid4 a b c d idx : valid [a; b; c; d] idx -> exists x y z w, idx = [x; y; z; w] /\ (x < a)%nat /\ (y < b)%nat /\ (z < c)%nat /\ (w < d)%nat.
Proof.
  intro V. inversion V as [|x ? l ? H1 V1]; subst. apply valid3 in V1. destruct V1 as (y & z & w & -> & H2 & H3 & H4). exists x, y, z, w. auto.
Qed.
Lemma mk_valid3 a b c x y z : (x < a)%nat -> (y < b)%nat -> (z < c)%nat -> valid [a; b; c] [x; y; z].
Proof. intros. repeat constructor; auto. Qed.
Lemma mk_valid4 a b c d x y z w : (x < a)%nat -> (y < b)%nat -> (z < c)%nat -> (w < d)%nat -> valid [a; b; c; d] [x; y; z; w].
Proof. intros. repeat constructor; auto. Qed.
Lemma ravel3 a b c x y z : ravel [a; b; c] [x; y; z] = ((x * b + y) * c + z)%nat.
Proof. rewrite !ravel_cons, !numel_cons. change (ravel [] []) with 0%nat. change (numel []) with 1%nat. ring. Qed.
Lemma ravel4 a b c d x y z w : ravel [a; b; c; d] [x; y; z; w] = (((x * b + y) * c + z) * d + w)%nat.
Proof. rewrite !ravel_cons, !numel_cons. change (ravel [] []) with 0%nat. change (numel []) with 1%nat. ring. Qed.
Lemma numel3 a b c : numel [a; b; c] = (a * b * c)%nat.
Proof. unfold numel. simpl. lia. Qed.
Lemma numel4 a b c d : numel [a; b; c; d] = (a * b * c * d)%nat.
Proof. unfold numel. simpl. lia. Qed.

Lemma put2 {B} (T : nat -> B) L out p1 v1 p2 v2 : length out = L -> (p1 < L)%nat -> (p2 < L)%nat -> v1 = T p1 -> v2 = T p2 ->
  exists out', obind (put out p1 v1) (fun out => put out p2 v2) = Some out' /\ upto T out out' /\ nth_error out' p1 = Some (Some (T p1)) /\ nth_error out' p2 = Some (Some (T p2)).
Proof.
  intros HL H1 H2 E1 E2. destruct (put_upto T out p1 v1) as (o1 & P1 & U1 & C1); [lia|auto|].
  assert (L1 : length o1 = L) by (destruct U1; congruence).
  destruct (put_upto T o1 p2 v2) as (o2 & P2 & U2 & C2); [lia|auto|].
  exists o2. rewrite P1. simpl. split; [auto|]. split; [eapply upto_trans; eauto|]. split; [eapply upto_keep; eauto|auto].
Qed.

Lemma ropeTable_ok headDim ctx f : (headDim mod 2 =? 0)%nat = true -> ropeTable headDim ctx f = Ok (rotations f ctx headDim).
Proof.
  intro He. unfold ropeTable. rewrite He. cbv zeta. pose proof (even_half headDim He) as Eh. set (half := (headDim / 2)%nat) in *.
  set (T := fun p => let a := INR (p / 2 / headDim) * f ((p / 2) mod headDim mod half)%nat in if (p mod 2 =? 0)%nat then cos a else sin a).
  assert (HT : forall pos j c, (j < headDim)%nat -> (c < 2)%nat -> T ((pos * headDim + j) * 2 + c)%nat = let a := INR pos * f (j mod half)%nat in if (c =? 0)%nat then cos a else sin a).
  { intros pos j c Hj Hc. unfold T. destruct (div_prod (pos * headDim + j) c 2 Hc) as [-> ->]. destruct (div_prod pos j headDim Hj) as [-> ->]. auto. }
  set (L := numel [ctx; headDim; 2%nat]). assert (EL : L = (ctx * headDim * 2)%nat) by apply numel3.
  destruct (loop_upto T L (fun pos p => exists j c, (j < headDim)%nat /\ (c < 2)%nat /\ p = ((pos * headDim + j) * 2 + c)%nat)
    (fun out pos => loop (seq 0 half) out (fun out i =>
      obind (put out ((pos * headDim + i) * 2) (cos (INR pos * f i))) (fun out =>
      obind (put out ((pos * headDim + i) * 2 + 1) (sin (INR pos * f i))) (fun out =>
      obind (put out ((pos * headDim + half + i) * 2) (cos (INR pos * f i))) (fun out =>
      put out ((pos * headDim + half + i) * 2 + 1) (sin (INR pos * f i))))))) (seq 0 ctx)) with (out := @fresh R L) as (out & E & U & C).
  - intros pos Hpos out1 L1. apply in_seq in Hpos.
    destruct (loop_upto T L (fun i p => exists j c, (j = i \/ j = (half + i)%nat) /\ (c < 2)%nat /\ p = ((pos * headDim + j) * 2 + c)%nat)
      (fun out i =>
      obind (put out ((pos * headDim + i) * 2) (cos (INR pos * f i))) (fun out =>
      obind (put out ((pos * headDim + i) * 2 + 1) (sin (INR pos * f i))) (fun out =>
      obind (put out ((pos * headDim + half + i) * 2) (cos (INR pos * f i))) (fun out =>
      put out ((pos * headDim + half + i) * 2 + 1) (sin (INR pos * f i)))))) (seq 0 half)) with (out := out1) as (out & E & U & C); auto.
    + intros i Hi out2 L2. apply in_seq in Hi. destruct (mod_low i half) as [M1 M2]; [lia|].
      assert (B : forall j c, (j < headDim)%nat -> (c < 2)%nat -> ((pos * headDim + j) * 2 + c < L)%nat) by (intros; rewrite EL; apply lt_prod; lia).
      destruct (put2 T L out2 ((pos * headDim + i) * 2) (cos (INR pos * f i)) ((pos * headDim + i) * 2 + 1) (sin (INR pos * f i))) as (o1 & P1 & U1 & C1 & C2).
      * auto. 
      * rewrite <- (Nat.add_0_r ((pos * headDim + i) * 2)). apply B; lia.
      * apply B; lia.
      * rewrite <- (Nat.add_0_r ((pos * headDim + i) * 2)). rewrite HT by lia. rewrite M1. auto.
      * rewrite HT by lia. rewrite M1. auto.
      * assert (L1' : length o1 = L) by (destruct U1; congruence).
        destruct (put2 T L o1 ((pos * headDim + half + i) * 2) (cos (INR pos * f i)) ((pos * headDim + half + i) * 2 + 1) (sin (INR pos * f i))) as (o2 & P2 & U2 & C3 & C4).
        -- auto.
        -- rewrite <- (Nat.add_0_r ((pos * headDim + half + i) * 2)), <- (Nat.add_assoc (pos * headDim)). apply B; lia.
        -- rewrite <- (Nat.add_assoc (pos * headDim)). apply B; lia.
        -- rewrite <- (Nat.add_0_r ((pos * headDim + half + i) * 2)), <- (Nat.add_assoc (pos * headDim)). rewrite HT by lia. rewrite M2. auto.
        -- rewrite <- (Nat.add_assoc (pos * headDim)). rewrite HT by lia. rewrite M2. auto.
        -- exists o2. split; [|split].
           ++ destruct (put out2 ((pos * headDim + i) * 2) (cos (INR pos * f i))) as [x|]; simpl in P1 |- *; [|discriminate]. rewrite P1. simpl. exact P2.
           ++ eapply upto_trans; eauto.
           ++ intros p (j & c & [->| ->] & Hc & ->); assert (c = 0 \/ c = 1)%nat as [->| ->] by lia; rewrite ?Nat.add_0_r.
              ** eapply upto_keep; eauto.
              ** eapply upto_keep; eauto.
              ** rewrite Nat.add_assoc. auto.
              ** rewrite Nat.add_assoc. auto.
    + exists out. split; [auto|split]; [auto|]. intros p (j & c & Hj & Hc & ->).
      destruct (Nat.lt_ge_cases j half).
      * apply (C j); [apply in_seq; lia|]. exists j, c. auto.
      * apply (C (j - half)%nat); [apply in_seq; lia|]. exists j, c. split; [right; lia|auto].
  - unfold fresh. apply repeat_length.
  - change (fresh (numel [ctx; headDim; 2%nat])) with (@fresh R L). rewrite E. unfold rotations, table. fold half.
    apply finish_upto with T.
    + fold L. destruct U as [U _]. unfold fresh in U. rewrite repeat_length in U. auto.
    + intros p Hp. fold L in Hp. rewrite EL in Hp.
      assert (Hh : headDim <> 0%nat) by (intros Z0; rewrite Z0 in Hp; lia).
      assert (Ep : p = (((p / 2 / headDim) * headDim + (p / 2) mod headDim) * 2 + p mod 2)%nat).
      { pose proof (Nat.div_mod p 2). pose proof (Nat.div_mod (p / 2) headDim). lia. }
      apply (C (p / 2 / headDim)%nat).
      * apply in_seq. assert (p / 2 < ctx * headDim)%nat by (apply Nat.div_lt_upper_bound; lia).
        assert (p / 2 / headDim < ctx)%nat by (apply Nat.div_lt_upper_bound; lia). lia.
      * exists ((p / 2) mod headDim)%nat, (p mod 2)%nat. split; [apply Nat.mod_upper_bound; lia|]. split; [apply Nat.mod_upper_bound; lia|auto].
    + intros idx V. apply valid3 in V. destruct V as (x & y & z & -> & Hx & Hy & Hz). rewrite ravel3, HT by auto. auto.
Qed.
Lemma table_rd ctx headDim c s pos j k : (pos < ctx)%nat -> (j < headDim)%nat -> (k < 2)%nat ->
  rd (tdata (table ctx headDim c s)) ((pos * headDim + j) * 2 + k) = Some (let i := (j mod (headDim / 2))%nat in if (k =? 0)%nat then c pos i else s pos i).
Proof.
  intros. rewrite <- (ravel3 ctx headDim 2 pos j k). unfold table. rewrite rd_of_idx by (apply mk_valid3; auto). auto.
Qed.
Lemma table_rdZ ctx headDim c s pos i k : (pos < ctx)%nat -> (i < headDim / 2)%nat -> (k < 2)%nat ->
  rdZ (tdata (table ctx headDim c s)) (Z.of_nat pos * Z.of_nat headDim * 2 + Z.of_nat (i * 2) + Z.of_nat k) = Some (if (k =? 0)%nat then c pos i else s pos i).
Proof.
  intros Hp Hi Hk. assert (Hi' : (i < headDim)%nat) by (pose proof (Nat.div_le_upper_bound headDim 2 headDim); lia).
  unfold rdZ. destruct (Z.ltb_spec (Z.of_nat pos * Z.of_nat headDim * 2 + Z.of_nat (i * 2) + Z.of_nat k) 0); [lia|].
  replace (Z.to_nat _) with ((pos * headDim + i) * 2 + k)%nat by lia. fold (rd (tdata (table ctx headDim c s)) ((pos * headDim + i) * 2 + k)).
  rewrite table_rd by auto. cbv zeta. rewrite (proj1 (mod_low i _ Hi)). auto.
Qed.
Lemma ropeApply_ok B H Sq D F ctx c s off : (D mod 2 =? 0)%nat = true -> (off + Sq <= ctx)%nat ->
  ropeApply (tensor_of [B; H; Sq; D] F) (table ctx D c s) (Z.of_nat off) = Ok (tensor_of [B; H; Sq; D] (rotated D off c s F)).
Proof.
  intros He Hctx. unfold ropeApply. cbn [tshape tensor_of]. rewrite He. cbv zeta. pose proof (even_half D He) as Eh. set (half := (D / 2)%nat) in *.
  change (mkT [B; H; Sq; D] (map F (indices [B; H; Sq; D]))) with (tensor_of [B; H; Sq; D] F).
  set (sh := [B; H; Sq; D]). set (L := numel sh). assert (EL : L = (B * H * Sq * D)%nat) by apply numel4.
  set (T := fun p => rotated D off c s F (offsetToIndices sh p)).
  assert (HT : forall idx, valid sh idx -> T (ravel sh idx) = rotated D off c s F idx) by (intros idx V; unfold T; rewrite o2i_ravel; auto).
  match goal with |- finish sh (loop _ _ ?body) = _ => set (bodyb := body) end.
  destruct (loop_upto T L (fun b p => exists h t j, (h < H)%nat /\ (t < Sq)%nat /\ (j < D)%nat /\ p = (((b * H + h) * Sq + t) * D + j)%nat) bodyb (seq 0 B)) with (out := @fresh R L) as (out & E & U & C).
  - intros b Hb out1 L1. apply in_seq in Hb. unfold bodyb.
    match goal with |- exists _, loop _ _ ?body = _ /\ _ => set (bodyh := body) end.
    destruct (loop_upto T L (fun h p => exists t j, (t < Sq)%nat /\ (j < D)%nat /\ p = (((b * H + h) * Sq + t) * D + j)%nat) bodyh (seq 0 H)) with (out := out1) as (out & E & U & C); auto.
    + intros h Hh out2 L2. apply in_seq in Hh. unfold bodyh.
      match goal with |- exists _, loop _ _ ?body = _ /\ _ => set (bodyt := body) end.
      destruct (loop_upto T L (fun t p => exists j, (j < D)%nat /\ p = (((b * H + h) * Sq + t) * D + j)%nat) bodyt (seq 0 Sq)) with (out := out2) as (out & E & U & C); auto.
      * intros t Ht out3 L3. apply in_seq in Ht. unfold bodyt.
        match goal with |- exists _, loop _ _ ?body = _ /\ _ => set (bodyi := body) end.
        destruct (loop_upto T L (fun i p => exists j, (j = i \/ j = half + i)%nat /\ p = (((b * H + h) * Sq + t) * D + j)%nat) bodyi (seq 0 half)) with (out := out3) as (out & E & U & C); auto.
        -- intros i Hi out4 L4. apply in_seq in Hi. unfold bodyi.
           assert (Rdx : forall j, (j < D)%nat -> rd (tdata (tensor_of sh F)) (((b * H + h) * Sq + t) * D + j) = Some (F [b; h; t; j])).
           { intros j Hj. rewrite <- (ravel4 B H Sq D b h t j). apply rd_of_idx. apply mk_valid4; lia. }
           rewrite !Rdx by lia. cbn [obind].
           assert (Epos : (Z.of_nat off + Z.of_nat t)%Z = Z.of_nat (off + t)) by lia. rewrite Epos.
           pose proof (table_rdZ ctx D c s (off + t) i 0) as R0. pose proof (table_rdZ ctx D c s (off + t) i 1) as R1. cbn [Nat.eqb] in R0, R1.
           change (Z.of_nat 0) with 0%Z in R0. change (Z.of_nat 1) with 1%Z in R1. rewrite Z.add_0_r in R0. rewrite R0, R1 by (fold half; lia). cbn [obind].
           assert (Bd : forall j, (j < D)%nat -> (((b * H + h) * Sq + t) * D + j < L)%nat).
           { intros j Hj. rewrite EL. pose proof (lt_prod (b * H + h) t j (B * H) Sq D) as Q. apply Q; try lia.
             pose proof (lt_prod b h 0 B H 1) as Q2. lia. }
           destruct (mod_low i half) as [M1 M2]; [lia|].
           destruct (put2 T L out4 (((b * H + h) * Sq + t) * D + i) (F [b; h; t; i] * c (off + t)%nat i - F [b; h; t; (half + i)%nat] * s (off + t)%nat i)
              (((b * H + h) * Sq + t) * D + (half + i)) (F [b; h; t; (half + i)%nat] * c (off + t)%nat i + F [b; h; t; i] * s (off + t)%nat i)) as (o1 & P1 & U1 & C1 & C2).
           ++ auto.
           ++ apply Bd; lia.
           ++ apply Bd; lia.
           ++ rewrite <- (ravel4 B H Sq D b h t i). rewrite HT by (apply mk_valid4; lia). unfold rotated. fold half. destruct (Nat.ltb_spec i half); [|lia]. rewrite M1, (Nat.add_comm half i). auto.
           ++ rewrite <- (ravel4 B H Sq D b h t (half + i)). rewrite HT by (apply mk_valid4; lia). unfold rotated. fold half. destruct (Nat.ltb_spec (half + i) half); [lia|]. rewrite M2.
              replace (half + i - half)%nat with i by lia. auto.
           ++ exists o1. split; [exact P1|]. split; auto. intros p (j & [->| ->] & ->); auto.
        -- exists out. split; [auto|split]; [auto|]. intros p (j & Hj & ->). destruct (Nat.lt_ge_cases j half).
           ++ apply (C j); [apply in_seq; lia|]. exists j. auto.
           ++ apply (C (j - half)%nat); [apply in_seq; lia|]. exists j. split; [right; lia|auto].
      * exists out. split; [auto|split]; [auto|]. intros p (t & j & Ht & Hj & ->). apply (C t); [apply in_seq; lia|]. exists j. auto.
    + exists out. split; [auto|split]; [auto|]. intros p (h & t & j & Hh & Ht & Hj & ->). apply (C h); [apply in_seq; lia|]. exists t, j. auto.
  - unfold fresh. apply repeat_length.
  - fold L. rewrite E. apply finish_upto with T; auto.
    + fold L. destruct U as [U _]. unfold fresh in U. rewrite repeat_length in U. auto.
    + intros p Hp. fold L in Hp. pose proof (o2i_valid sh p Hp) as V. pose proof (ravel_o2i sh p Hp) as Ep. apply valid4 in V. destruct V as (x & y & z & w & Ei & Hx & Hy & Hz & Hw).
      rewrite Ei in Ep. unfold sh in Ep. rewrite ravel4 in Ep. apply (C x); [apply in_seq; lia|]. exists y, z, w. auto.
Qed.
Lemma rotated_low D off c s F b h t i : (i < D / 2)%nat ->
  rotated D off c s F [b; h; t; i] = F [b; h; t; i] * c (off + t)%nat i - F [b; h; t; (i + D / 2)%nat] * s (off + t)%nat i.
Proof. intro H. unfold rotated. cbv zeta. destruct (Nat.ltb_spec i (D / 2)); [|lia]. rewrite (proj1 (mod_low i _ H)). auto. Qed.
Lemma rotated_high D off c s F b h t i : (i < D / 2)%nat ->
  rotated D off c s F [b; h; t; (i + D / 2)%nat] = F [b; h; t; (i + D / 2)%nat] * c (off + t)%nat i + F [b; h; t; i] * s (off + t)%nat i.
Proof.
  intro H. unfold rotated. cbv zeta. destruct (Nat.ltb_spec (i + D / 2) (D / 2)); [lia|]. rewrite (Nat.add_comm i), (proj2 (mod_low i _ H)). rewrite (Nat.add_comm (D / 2) i), Nat.add_sub. auto.
Qed.
Lemma cs1 x : cos x * cos x + sin x * sin x = 1.
Proof. pose proof (sin2_cos2 x). unfold Rsqr in *. lra. Qed.
(** A sum over a row, pair by pair. *)
Lemma sum_pairs (g : nat -> R) D : D = (D / 2 + D / 2)%nat -> Rsum g (seq 0 D) = Rsum (fun i => g i + g (i + D / 2)%nat) (seq 0 (D / 2)).
Proof.
  intro E. rewrite E at 1. rewrite seq_app, sum_app. rewrite Nat.add_0_l.
  assert (Es : seq (D / 2) (D / 2) = map (fun i => (i + D / 2)%nat) (seq 0 (D / 2))).
  { generalize (D / 2)%nat at 2 4. intro m. apply nth_error_ext'. intro q. rewrite nth_error_map, nth_error_seq0.
    pose proof (nth_error_seq m (D / 2) q) as Q. rewrite Q. destruct (q <? m); simpl; auto. f_equal. lia. }
  rewrite Es, sum_map. change (@add Rring) with Rplus. symmetry. exact (sum_add (K := Rring) g (fun i => g (i + D / 2)%nat) (seq 0 (D / 2))).
Qed.
Lemma loop_bodies {S I} (body : S -> I -> option S) : forall l s s', loop l s body = Some s' -> forall i, In i l -> exists a b, body a i = Some b.
Proof.
  induction l as [|j l IH]; intros s s' E i Hi; [destruct Hi|]. simpl in E. destruct (body s j) as [s1|] eqn:E1; simpl in E; [|discriminate].
  destruct Hi as [->|Hi]; [exists s, s1; auto|]. eapply IH; eauto.
Qed.
Lemma rope_past sh F ctx D c s off B H Sq t : sh = [B; H; Sq; D] -> (0 < B)%nat -> (0 < H)%nat -> (t < Sq)%nat -> (0 < D)%nat -> (D mod 2 =? 0)%nat = true ->
  ~ (0 <= off + Z.of_nat t < Z.of_nat ctx)%Z -> ropeApply (tensor_of sh F) (table ctx D c s) off = UB.
Proof.
  intros -> HB HH Ht HD He Hoff. unfold ropeApply. cbn [tshape tensor_of]. rewrite He. cbv zeta.
  destruct (loop _ _ _) as [out|] eqn:E; [|reflexivity]. exfalso.
  destruct (loop_bodies _ _ _ _ E 0%nat) as (a & b & E1); [apply in_seq; lia|]. cbv beta in E1.
  destruct (loop_bodies _ _ _ _ E1 0%nat) as (a2 & b2 & E2); [apply in_seq; lia|]. cbv beta in E2.
  destruct (loop_bodies _ _ _ _ E2 t) as (a3 & b3 & E3); [apply in_seq; lia|]. cbv beta in E3.
  pose proof (even_half D He) as Eh.
  destruct (loop_bodies _ _ _ _ E3 0%nat) as (a4 & b4 & E4); [apply in_seq; lia|]. cbv beta in E4.
  destruct (rd _ _) as [x1|]; cbn [obind] in E4; [|discriminate]. destruct (rd _ _) as [x2|]; cbn [obind] in E4; [|discriminate].
  match type of E4 with obind (rdZ _ ?z) _ = _ => assert (Ez : z = ((off + Z.of_nat t) * Z.of_nat D * 2)%Z) by lia end. rewrite Ez in E4.
  destruct (rdZ (tdata (table ctx D c s)) ((off + Z.of_nat t) * Z.of_nat D * 2)) as [x|] eqn:ER; [|cbn [obind] in E4; discriminate E4]. clear E4 Ez. unfold rdZ in ER.
  destruct (Z.ltb_spec ((off + Z.of_nat t) * Z.of_nat D * 2) 0) as [G|G]; [discriminate ER|].
  assert (Q : nth_error (tdata (table ctx D c s)) (Z.to_nat ((off + Z.of_nat t) * Z.of_nat D * 2)) <> None) by (rewrite ER; discriminate).
  apply nth_error_Some in Q. unfold table in Q. rewrite of_length, numel3 in Q. apply Hoff. split; nia.
Qed.
Lemma scores_rotated f D oq ok Q K b h t t' : (D mod 2 =? 0)%nat = true ->
  let c := fun p i => cos (INR p * f i) in let s := fun p i => sin (INR p * f i) in
  score D (rotated D oq c s Q) (rotated D ok c s K) b h t t' =
  Rsum (fun i => let a := (INR (oq + t) - INR (ok + t')) * f i in
     (Q [b; h; t; i] * K [b; h; t'; i] + Q [b; h; t; (i + D / 2)%nat] * K [b; h; t'; (i + D / 2)%nat]) * cos a
     + (Q [b; h; t; i] * K [b; h; t'; (i + D / 2)%nat] - Q [b; h; t; (i + D / 2)%nat] * K [b; h; t'; i]) * sin a) (seq 0 (D / 2)).
Proof.
  intros He c s. unfold score. rewrite sum_pairs by (apply even_half; auto). apply Rsum_ext. intros i Hi. apply in_seq in Hi.
  rewrite !rotated_low, !rotated_high by lia. cbv zeta. replace ((INR (oq + t) - INR (ok + t')) * f i) with (INR (oq + t) * f i - INR (ok + t') * f i) by ring. rewrite cos_minus, sin_minus. unfold c, s. ring.
Qed.
Lemma ravel1 a x : ravel [a] [x] = x.
Proof. rewrite !ravel_cons. change (ravel [] []) with 0%nat. change (numel []) with 1%nat. lia. Qed.
Lemma ravel2 a b x y : ravel [a; b] [x; y] = (x * b + y)%nat.
Proof. rewrite !ravel_cons, !numel_cons. change (ravel [] []) with 0%nat. change (numel []) with 1%nat. ring. Qed.
Lemma mk_valid2 a b x y : (x < a)%nat -> (y < b)%nat -> valid [a; b] [x; y].
Proof. intros. repeat constructor; auto. Qed.
Lemma valid2 a b idx : valid [a; b] idx -> exists x y, idx = [x; y] /\ (x < a)%nat /\ (y < b)%nat.
Proof. intro V. inversion V as [|x ? l ? H1 V1]; subst. inversion V1 as [|y ? l1 ? H2 V2]; subst. inversion V2; subst. exists x, y. auto. Qed.
