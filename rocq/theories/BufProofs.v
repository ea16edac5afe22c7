From Coq Require Import ZArith List Bool Arith Lia.
From Verif Require Import ShapeModel ShapeSpec ShapeProofs TensorModel TensorSpec TensorLemmas BcastModel BufModel.
Import ListNotations.

Lemma loop_ext {S I} (l : list I) (f g : S -> I -> option S) : forall s, (forall s i, In i l -> f s i = g s i) -> loop l s f = loop l s g.
Proof.
  induction l as [|i l IH]; intros s H; simpl; auto. rewrite H by (left; auto). destruct (g s i); simpl; auto.
  apply IH. intros; apply H; right; auto.
Qed.
Lemma loop_map {S I J} (h : J -> I) (l : list J) (f : S -> I -> option S) : forall s, loop (map h l) s f = loop l s (fun s j => f s (h j)).
Proof. induction l as [|i l IH]; intros s; simpl; auto. destruct (f s (h i)); simpl; auto. Qed.
(** A nest of loops is one loop. *)
Lemma loop_nest {S I J} (m : I -> list J) (l : list I) (f : S -> I -> J -> option S) : forall s,
  loop l s (fun s i => loop (m i) s (fun s j => f s i j))
  = loop (flat_map (fun i => map (pair i) (m i)) l) s (fun s p => f s (fst p) (snd p)).
Proof.
  induction l as [|i l IH]; intros s; simpl; auto. rewrite loop_app, loop_map. simpl.
  destruct (loop (m i) s (fun s j => f s i j)); simpl; auto.
Qed.

(** After a run of writes, each cell holds a value that depends only on its
    position, if every write to it does. *)
Lemma put_some {A} (b : list (option A)) i v : i < length b -> exists b', put b i v = Some b' /\ length b' = length b
  /\ forall k, nth_error b' k = if k =? i then Some (Some v) else nth_error b k.
Proof. apply wr_some. Qed.

Lemma writes {I A} (l : list I) (g : I -> nat) (G : nat -> A) (body : list (option A) -> I -> option (list (option A))) :
  forall b, (forall b' i, In i l -> length b' = length b -> body b' i = put b' (g i) (G (g i))) ->
  (forall i, In i l -> g i < length b) ->
  exists b', loop l b body = Some b' /\ length b' = length b
  /\ forall k, nth_error b' k = if existsb (fun i => g i =? k) l then Some (Some (G k)) else nth_error b k.
Proof.
  induction l as [|i l IH]; intros b H1 H2; simpl.
  - exists b. auto.
  - rewrite H1 by (auto; left; auto). destruct (put_some b (g i) (G (g i))) as (b1 & E & L & N); [apply H2; left; auto|].
    rewrite E. simpl. destruct (IH b1) as (b2 & E2 & L2 & N2).
    + intros b' j Hj HL. apply H1; [right; auto|congruence].
    + intros j Hj. rewrite L. apply H2; right; auto.
    + exists b2. split; auto. split; [congruence|]. intro k. rewrite N2, N. rewrite (Nat.eqb_sym k).
      destruct (existsb _ l); [rewrite orb_true_r; auto|]. rewrite orb_false_r.
      destruct (Nat.eqb_spec (g i) k); subst; auto.
Qed.
Lemma fresh_length {A} n : length (@fresh A n) = n.
Proof. apply repeat_length. Qed.

Lemma fill {I A} (l : list I) (g : I -> nat) (G : nat -> A) n body :
  (forall b i, In i l -> length b = n -> body b i = put b (g i) (G (g i))) ->
  (forall i, In i l -> g i < n) -> (forall k, k < n -> exists i, In i l /\ g i = k) ->
  loop l (fresh n) body = Some (map Some (map G (seq 0 n))).
Proof.
  intros H1 H2 H3. destruct (writes l g G body (fresh n)) as (b' & E & L & N).
  - intros b' i Hi HL. apply H1; auto. rewrite HL. apply fresh_length.
  - intros i Hi. rewrite fresh_length. auto.
  - rewrite E. f_equal. rewrite fresh_length in L. apply nth_error_ext'. intro k. rewrite N, map_map, nth_error_map, nth_error_seq.
    destruct (Nat.ltb_spec k n).
    + simpl. destruct (H3 k H) as (i & Hi & Hk).
      replace (existsb (fun i => g i =? k) l) with true; auto. symmetry. apply existsb_exists. exists i. split; auto. apply Nat.eqb_eq; auto.
    + simpl. destruct (existsb _ l) eqn:Ex; [|apply nth_error_None; rewrite fresh_length; lia].
      apply existsb_exists in Ex. destruct Ex as (i & Hi & Hk). apply Nat.eqb_eq in Hk. apply H2 in Hi. lia.
Qed.
Lemma seqopt_Some {A} (l : list A) : seqopt (map Some l) = Some l.
Proof. rewrite (seqopt_map Some (fun x => x)); auto. rewrite map_id. auto. Qed.
(** The same for a tensor: every write goes to the offset of some index and
    stores the right value; every index is written. *)
Lemma fill_tensor {I A} (l : list I) (g : I -> list nat) (F : list nat -> A) sh body :
  (forall b i, In i l -> length b = numel sh -> body b i = put b (ravel sh (g i)) (F (g i))) ->
  (forall i, In i l -> valid sh (g i)) -> (forall idx, valid sh idx -> exists i, In i l /\ g i = idx) ->
  finish sh (loop l (fresh (numel sh)) body) = Ok (tensor_of sh F).
Proof.
  intros H1 H2 H3. rewrite (fill l (fun i => ravel sh (g i)) (fun k => F (offsetToIndices sh k)) (numel sh)).
  - unfold finish. cbn [obind]. rewrite seqopt_Some. unfold tensor_of. rewrite map_seq_indices. reflexivity.
  - intros b i Hi HL. rewrite o2i_ravel by auto. auto.
  - intros i Hi. apply ravel_lt; auto.
  - intros k Hk. destruct (H3 (offsetToIndices sh k) (o2i_valid _ _ Hk)) as (i & Hi & E). exists i. split; auto.
    rewrite E. apply ravel_o2i; auto.
Qed.

Lemma axis_some rank d k : axis rank d = Some k <-> k < rank /\ (d = Z.of_nat k \/ d = Z.of_nat k - Z.of_nat rank)%Z.
Proof.
  unfold axis. destruct (Z.ltb_spec d 0).
  - destruct (Z.ltb_spec (d + Z.of_nat rank) 0), (Z.leb_spec (Z.of_nat rank) (d + Z.of_nat rank)); simpl; split; intros H2; try discriminate; try lia;
      try (injection H2 as <-; lia); f_equal; lia.
  - destruct (Z.ltb_spec d 0), (Z.leb_spec (Z.of_nat rank) d); simpl; split; intros H2; try discriminate; try lia;
      try (injection H2 as <-; lia); f_equal; lia.
Qed.
Lemma axis_none rank d : axis rank d = None <-> ((d < - Z.of_nat rank) \/ Z.of_nat rank <= d)%Z.
Proof.
  unfold axis. destruct (Z.ltb_spec d 0).
  - destruct (Z.ltb_spec (d + Z.of_nat rank) 0), (Z.leb_spec (Z.of_nat rank) (d + Z.of_nat rank)); simpl; split; intros H2; try discriminate; try lia; auto.
  - destruct (Z.ltb_spec d 0), (Z.leb_spec (Z.of_nat rank) d); simpl; split; intros H2; try discriminate; try lia; auto.
Qed.
Lemma axis_nat rank k : k < rank -> axis rank (Z.of_nat k) = Some k.
Proof. intro. apply axis_some. lia. Qed.
