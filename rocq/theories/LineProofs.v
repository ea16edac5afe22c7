(** The line loops visit every element of the result exactly once. *)
From Coq Require Import ZArith List Bool Arith Lia.
From Verif Require Import ShapeModel ShapeSpec ShapeProofs TensorModel TensorSpec TensorLemmas BcastModel BufModel BufProofs CutSpec ReduceSpec LineModel.
Import ListNotations.

(** * Loops of writes *)
Section Upto.
  Context {B : Type} (T : nat -> B).
  Definition upto (out out' : list (option B)) : Prop :=
    length out' = length out /\ forall p, nth_error out' p = nth_error out p \/ nth_error out' p = Some (Some (T p)).
  Lemma upto_refl out : upto out out.
  Proof. split; auto. Qed.
  Lemma upto_keep out out' p : upto out out' -> nth_error out p = Some (Some (T p)) -> nth_error out' p = Some (Some (T p)).
  Proof. intros [_ H] E. destruct (H p) as [K|K]; congruence. Qed.
  Lemma upto_trans a b c : upto a b -> upto b c -> upto a c.
  Proof.
    intros [L1 H1] [L2 H2]. split; [congruence|]. intro p. destruct (H2 p) as [K|K]; auto. destruct (H1 p) as [J|J]; [left|right]; congruence.
  Qed.
  Lemma loop_upto {I} (L : nat) (cov : I -> nat -> Prop) body : forall l,
    (forall x, In x l -> forall out, length out = L -> exists out', body out x = Some out' /\ upto out out' /\ forall p, cov x p -> nth_error out' p = Some (Some (T p))) ->
    forall out, length out = L -> exists out', loop l out body = Some out' /\ upto out out' /\ forall x p, In x l -> cov x p -> nth_error out' p = Some (Some (T p)).
  Proof.
    induction l as [|x l IH]; intros Hb out HL; simpl.
    - exists out. split; [auto|split]; [apply upto_refl|]. intros ? ? [].
    - destruct (Hb x (or_introl eq_refl) out HL) as (o1 & E & U & C). rewrite E. simpl.
      assert (L1 : length o1 = L) by (destruct U as [U _]; congruence).
      destruct (IH (fun y Hy => Hb y (or_intror Hy)) o1 L1) as (o2 & E2 & U2 & C2).
      exists o2. split; [auto|split]; [eapply upto_trans; eauto|].
      intros y p [->|Hy] Hc; [|eapply C2; eauto]. eapply upto_keep; eauto.
  Qed.
  Lemma put_upto out p v : p < length out -> v = T p -> exists out', put out p v = Some out' /\ upto out out' /\ nth_error out' p = Some (Some (T p)).
  Proof.
    intros Hp ->. exists (set_nth out p (Some (T p))). split; [apply wr_set; auto|]. split.
    - split; [apply set_nth_length|]. intro q. rewrite set_nth_nth. destruct (Nat.eqb_spec q p); simpl; auto.
      destruct (Nat.ltb_spec p (length out)); subst; auto.
    - rewrite set_nth_nth, Nat.eqb_refl. apply Nat.ltb_lt in Hp. rewrite Hp. auto.
  Qed.
End Upto.

Lemma lt_prod o j i outer m inner : o < outer -> j < m -> i < inner -> (o * m + j) * inner + i < outer * m * inner.
Proof.
  intros. assert (o * m + j < outer * m) by (assert (S o * m <= outer * m) by (apply Nat.mul_le_mono_r; lia); simpl in *; lia).
  assert (S (o * m + j) * inner <= outer * m * inner) by (apply Nat.mul_le_mono_r; lia). simpl in *. lia.
Qed.
Lemma div_prod q i inner : i < inner -> (q * inner + i) / inner = q /\ (q * inner + i) mod inner = i.
Proof.
  intro H. split.
  - rewrite Nat.div_add_l by lia. rewrite Nat.div_small; lia.
  - rewrite Nat.add_comm, Nat.mod_add by lia. apply Nat.mod_small; auto.
Qed.
Lemma nth_error_combine {A B} (l : list A) (m : list B) : forall k, nth_error (combine l m) k = match nth_error l k, nth_error m k with Some a, Some b => Some (a, b) | _, _ => None end.
Proof. revert m. induction l as [|a l IH]; intros [|b m] [|k]; simpl; try reflexivity; try (destruct (nth_error l k); reflexivity); apply IH. Qed.
Lemma nth_error_seq0 n k : nth_error (seq 0 n) k = if k <? n then Some k else None.
Proof. exact (nth_error_seq n 0 k). Qed.

Lemma split_at sh k : k < length sh -> sh = firstn k sh ++ nth k sh 0 :: skipn (S k) sh.
Proof. revert k. induction sh as [|s sh IH]; intros [|k] H; simpl in *; try lia; auto. f_equal. apply IH. lia. Qed.
Section Kernel.
  Context {B : Type} (d : B).
  Lemma lineLoop_ok outer inner m (body : nat -> nat -> option (list B)) (G : nat -> nat -> list B) :
    (forall o i, o < outer -> i < inner -> body o i = Some (G o i) /\ length (G o i) = m) ->
    forall out, length out = outer * m * inner ->
    exists out', lineLoop outer inner m body out = Some out' /\ length out' = outer * m * inner
    /\ forall o j i, o < outer -> j < m -> i < inner -> nth_error out' ((o * m + j) * inner + i) = Some (Some (nth j (G o i) d)).
  Proof.
    intros Hb out HL.
    set (T := fun p => nth ((p / inner) mod m) (G (p / inner / m) (p mod inner)) d).
    assert (HT : forall o j i, j < m -> i < inner -> T ((o * m + j) * inner + i) = nth j (G o i) d).
    { intros o j i Hj Hi. unfold T. destruct (div_prod (o * m + j) i inner Hi) as [-> ->]. destruct (div_prod o j m Hj) as [-> ->]. auto. }
    destruct (loop_upto T (outer * m * inner) (fun o p => exists j i, j < m /\ i < inner /\ p = (o * m + j) * inner + i)
      (fun out o => loop (seq 0 inner) out (fun out i => obind (body o i) (fun r =>
        loop (combine (seq 0 m) r) out (fun out jv => put out ((o * m + fst jv) * inner + i) (snd jv))))) (seq 0 outer)) with (out := out)
      as (out' & E & U & C); auto.
    - intros o Ho out1 HL1. apply in_seq in Ho.
      destruct (loop_upto T (outer * m * inner) (fun i p => exists j, j < m /\ p = (o * m + j) * inner + i)
        (fun out i => obind (body o i) (fun r =>
        loop (combine (seq 0 m) r) out (fun out jv => put out ((o * m + fst jv) * inner + i) (snd jv)))) (seq 0 inner)) with (out := out1)
        as (out' & E & U & C); auto.
      + intros i Hi out2 HL2. apply in_seq in Hi. destruct (Hb o i) as [Eb Lb]; [lia..|]. rewrite Eb. simpl.
        destruct (loop_upto T (outer * m * inner) (fun jv p => p = (o * m + fst jv) * inner + i)
          (fun out jv => put out ((o * m + fst jv) * inner + i) (snd jv)) (combine (seq 0 m) (G o i))) with (out := out2)
          as (out' & E & U & C); auto.
        * intros [j v] Hj out3 HL3. simpl.
          apply In_nth_error in Hj. destruct Hj as [q Hq]. rewrite nth_error_combine, nth_error_seq0 in Hq.
          destruct (Nat.ltb_spec q m); [|discriminate]. destruct (nth_error (G o i) q) eqn:Eq; [|discriminate]. injection Hq as -> ->.
          destruct (put_upto T out3 ((o * m + j) * inner + i) v) as (o4 & E4 & U4 & C4).
          -- rewrite HL3. apply lt_prod; lia.
          -- rewrite HT by lia. symmetry. apply nth_error_nth; auto.
          -- exists o4. split; [auto|split]; [auto|]. intros p ->. auto.
        * exists out'. split; [auto|split]; [auto|]. intros p (j & Hj & ->).
          apply (C (j, nth j (G o i) d)); auto. apply nth_error_In with j. rewrite nth_error_combine, nth_error_seq0.
          replace (j <? m) with true by (symmetry; apply Nat.ltb_lt; auto). rewrite (nth_error_nth' _ d) by lia. auto.
      + exists out'. split; [auto|split]; [auto|]. intros p (j & i & Hj & Hi & ->). apply (C i); [apply in_seq; lia|]. eauto.
    - exists out'. split; [auto|split]; [destruct U; congruence|]. intros o j i Ho Hj Hi. rewrite <- HT by auto.
      apply (C o); [apply in_seq; lia|]. eauto.
  Qed.

  (** For a result of shape [sh1 ++ m :: sh2]. *)
  Lemma lineKernel_split sh1 m sh2 (body : nat -> nat -> option (list B)) (G : list nat -> list nat -> list B) :
    (forall a b, valid sh1 a -> valid sh2 b -> body (ravel sh1 a) (ravel sh2 b) = Some (G a b) /\ length (G a b) = m) ->
    lineKernel (sh1 ++ m :: sh2) (numel sh1) (numel sh2) m body
    = Ok (tensor_of (sh1 ++ m :: sh2) (fun idx => nth (nth (length sh1) idx 0) (G (firstn (length sh1) idx) (skipn (S (length sh1)) idx)) d)).
  Proof.
    intro Hb.
    assert (Hn : numel (sh1 ++ m :: sh2) = numel sh1 * m * numel sh2).
    { rewrite numel_app, numel_cons. lia. }
    destruct (lineLoop_ok (numel sh1) (numel sh2) m body (fun o i => G (offsetToIndices sh1 o) (offsetToIndices sh2 i))) with (out := @fresh B (numel (sh1 ++ m :: sh2))) as (out & E & L & C).
    - intros o i Ho Hi. destruct (Hb (offsetToIndices sh1 o) (offsetToIndices sh2 i)) as [E L]; [apply o2i_valid; auto..|].
      rewrite !ravel_o2i in E by auto. auto.
    - unfold fresh. rewrite repeat_length. auto.
    - unfold lineKernel, finish. rewrite E. simpl. unfold tensor_of.
      set (F := fun idx : list nat => _).
      assert (Eo : out = map (fun p => Some (F (offsetToIndices (sh1 ++ m :: sh2) p))) (seq 0 (numel (sh1 ++ m :: sh2)))).
      { apply nth_error_ext'. intro p. rewrite nth_error_map, nth_error_seq0. destruct (Nat.ltb_spec p (numel (sh1 ++ m :: sh2))) as [Hp|Hp]; simpl.
        - set (idx := offsetToIndices (sh1 ++ m :: sh2) p).
          assert (V : valid (sh1 ++ m :: sh2) idx) by (apply o2i_valid; auto).
          assert (Ep : ravel (sh1 ++ m :: sh2) idx = p) by (apply ravel_o2i; auto).
          pose proof (valid_length _ _ V) as Lidx. rewrite app_length in Lidx. simpl in Lidx.
          assert (Es : idx = firstn (length sh1) idx ++ nth (length sh1) idx 0 :: skipn (S (length sh1)) idx).
          { apply split_at. lia. }
          set (a := firstn (length sh1) idx) in *. set (b := skipn (S (length sh1)) idx) in *. set (j := nth (length sh1) idx 0) in *.
          assert (La : length a = length sh1) by (unfold a; rewrite firstn_length; lia).
          rewrite Es in V, Ep. apply valid_app in V; auto. destruct V as [Va Vb]. assert (j < m /\ valid sh2 b) as [Hj Vb'] by (inversion Vb; auto). clear Vb.
          rewrite ravel_app, ravel_cons, numel_cons in Ep by auto.
          assert (Q : p = (ravel sh1 a * m + j) * numel sh2 + ravel sh2 b) by (rewrite <- Ep; ring).
          rewrite Q. rewrite C.
          + f_equal. f_equal. unfold F. fold a. fold b. fold j. rewrite !o2i_ravel by auto. auto.
          + apply ravel_lt; auto.
          + auto.
          + apply ravel_lt; auto.
        - apply nth_error_None. lia. }
      rewrite Eo. rewrite (seqopt_map _ (fun p => F (offsetToIndices (sh1 ++ m :: sh2) p))) by auto. simpl. rewrite map_seq_indices. auto.
  Qed.
End Kernel.

(** * Splitting at a dimension *)
Lemma set_nth_split {A} (l : list A) k v : k < length l -> set_nth l k v = firstn k l ++ v :: skipn (S k) l.
Proof. revert k. induction l as [|s sh IH]; intros [|k] H; simpl in *; try lia; auto. f_equal. apply IH. lia. Qed.
Lemma with_coord_split k idx j : k < length idx -> with_coord true k idx j = firstn k idx ++ j :: skipn (S k) idx.
Proof. intro H. unfold with_coord. apply set_nth_split; auto. Qed.
Lemma valid_at sh k idx j n : valid (set_nth sh k n) idx -> k < length sh -> j < nth k sh 0 -> valid sh (with_coord true k idx j).
Proof.
  intros V Hk Hj. pose proof (valid_length _ _ V) as L. rewrite set_nth_length in L.
  rewrite with_coord_split by lia. rewrite (split_at sh k Hk). rewrite set_nth_split in V by auto.
  rewrite (split_at idx k) in V by lia.
  assert (length (firstn k idx) = length (firstn k sh)) by (rewrite !firstn_length; lia).
  apply valid_app in V; auto. apply valid_app; auto. destruct V as [V1 V2]. split; auto. inversion V2; subst. constructor; auto.
Qed.
Lemma readLine_ok {A} sh k (F : list nat -> A) idx n : k < length sh -> valid (set_nth sh k n) idx ->
  readLine (tdata (tensor_of sh F)) (nth k sh 0) (innerSize sh k) (ravel (firstn k sh) (firstn k idx)) (ravel (skipn (S k) sh) (skipn (S k) idx))
  = Some (line F true k (nth k sh 0) idx).
Proof.
  intros Hk V. pose proof (valid_length _ _ V) as L. rewrite set_nth_length in L. unfold readLine, line. apply tab_some. intros j Hj.
  assert (V' : valid sh (with_coord true k idx j)) by (eapply valid_at; eauto).
  rewrite <- (rd_of_idx sh F _ V'). f_equal. unfold lineOffset, innerSize.
  rewrite with_coord_split by lia. replace (ravel sh) with (ravel (firstn k sh ++ nth k sh 0 :: skipn (S k) sh)) by (rewrite <- split_at; auto).
  rewrite ravel_app by (rewrite !firstn_length; lia). rewrite ravel_cons, numel_cons. ring.
Qed.
(** A kernel whose result along dimension [k] is [f] of the input lines. *)
Lemma lineKernel_ok {B} (d : B) sh k m (body : nat -> nat -> option (list B)) (G : list nat -> list B) :
  k < length sh ->
  (forall idx j, G (with_coord true k idx j) = G idx) ->
  (forall idx, valid (set_nth sh k 1) idx -> 
     body (ravel (firstn k sh) (firstn k idx)) (ravel (skipn (S k) sh) (skipn (S k) idx)) = Some (G idx) /\ length (G idx) = m) ->
  lineKernel (set_nth sh k m) (outerSize sh k) (innerSize sh k) m body
  = Ok (tensor_of (set_nth sh k m) (fun idx => nth (nth k idx 0) (G idx) d)).
Proof.
  intros Hk HG Hb. unfold outerSize, innerSize. rewrite set_nth_split by auto.
  assert (Lk : length (firstn k sh) = k) by (rewrite firstn_length; lia).
  rewrite (lineKernel_split d _ _ _ body (fun a b => G (a ++ 0 :: b))).
  - f_equal. apply tensor_of_ext. intros idx V. rewrite Lk.
    pose proof (valid_length _ _ V) as L. rewrite app_length in L. cbn [length] in L. rewrite firstn_length, skipn_length in L.
    rewrite <- with_coord_split by lia. rewrite HG. auto.
  - intros a b Va Vb. pose proof (valid_length _ _ Va) as La. rewrite Lk in La.
    specialize (Hb (a ++ 0 :: b)). rewrite set_nth_split in Hb by auto.
    assert (E1 : firstn k (a ++ 0 :: b) = a) by (rewrite firstn_app, La, Nat.sub_diag, firstn_O, app_nil_r, <- La; apply firstn_all).
    assert (E2 : skipn (S k) (a ++ 0 :: b) = b).
    { rewrite skipn_app. rewrite skipn_all2 by lia. rewrite La. replace (S k - k) with 1 by lia. auto. }
    rewrite E1, E2 in Hb. apply Hb. apply valid_app; [lia|]. split; auto. constructor; auto.
Qed.
