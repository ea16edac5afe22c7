(** C40, C41, C61: gradient buckets, averaging over ranks, initial broadcast. *)
From Coq Require Import ZArith List Bool Arith Lia Reals Lra Permutation.
From Verif Require Import ReducerModel ReducerSpec ReducerProofs ReducerProofs2 ReducerProofs3.
Import ListNotations.
Open Scope nat_scope.

Definition three : list param := [mkParam 0 2 0 0; mkParam 1 3 0 0; mkParam 2 1 0 0].

(** C40.  The buckets, one after the other, list exactly the parameters; none is
    empty. *)
Theorem buckets_partition : forall e cap ps bs, buildBuckets e cap ps = Some bs ->
  concat (map bparams bs) = ps /\ forall b, In b bs -> bparams b <> [].
Proof.
  intros e cap ps bs H. destruct (build_ok _ _ _ _ H) as (A & B & _). split; [exact A|].
  intros b Hb. rewrite Forall_forall in B. apply (B b Hb).
Qed.
(** In its bucket's flat buffer a parameter has a slice of its own size; the
    slices are disjoint and together make up the buffer. *)
Theorem bucket_slices : forall e cap ps bs, buildBuckets e cap ps = Some bs -> forall b, In b bs ->
  bsizes b = map pnumel (bparams b) /\ tiling 0 (boffsets b) (bsizes b) (btotal b) /\
  forall p q op sp oq, p < q -> nth_error (boffsets b) p = Some op -> nth_error (bsizes b) p = Some sp -> nth_error (boffsets b) q = Some oq ->
    op + sp <= oq.
Proof.
  intros e cap ps bs H b Hb. destruct (build_ok _ _ _ _ H) as (_ & B & _). rewrite Forall_forall in B.
  destruct (B b Hb) as (_ & Z & T & _). split; [exact Z|]. split; [exact T|].
  intros p q op sp oq Hpq Hp Hs Hq.
  assert (exists sq, nth_error (bsizes b) q = Some sq) as (sq & Hsq).
  { destruct (nth_error (bsizes b) q) eqn:E; [eauto|]. apply nth_error_None in E.
    assert (q < length (boffsets b)) by (apply nth_error_Some; congruence). rewrite (tiling_length _ _ _ _ T) in H0. lia. }
  rewrite (tiling_at _ _ _ _ _ _ _ T Hp Hs), (tiling_at _ _ _ _ _ _ _ T Hq Hsq). cbn [plus].
  replace (firstn q (bsizes b)) with (firstn p (bsizes b) ++ [sp] ++ skipn (S p) (firstn q (bsizes b))).
  - rewrite !list_sum_app. cbn. lia.
  - destruct (nth_split' _ _ _ Hs) as (l1 & l2 & E & <-). rewrite E, !firstn_app, Nat.sub_diag, firstn_all, firstn_O, app_nil_r.
    rewrite (firstn_all2 (n := q) l1) by lia. replace (q - length l1) with (S (q - length l1 - 1)) by lia. cbn [firstn].
    rewrite skipn_app, skipn_all2 by lia. replace (S (length l1) - length l1) with 1 by lia. reflexivity.
Qed.
(** A bucket stays within the limit unless it holds a single parameter; a new
    bucket is begun only when the next parameter does not fit. *)
Theorem bucket_limit : forall e cap ps bs, buildBuckets e cap ps = Some bs ->
  (forall b, In b bs -> (bytes e (bparams b) <= cap)%Z \/ length (bparams b) = 1) /\ packed e cap bs.
Proof.
  intros e cap ps bs H. destruct (build_ok _ _ _ _ H) as (_ & B & C). split; [|exact C].
  intros b Hb. rewrite Forall_forall in B. apply (B b Hb).
Qed.
(** Parameters are accepted exactly if they agree in device and dtype. *)
Theorem buckets_accepted : forall e cap ps, (exists bs, buildBuckets e cap ps = Some bs) <-> same_kind ps.
Proof. exact build_some. Qed.
Example buckets_example : option_map (map (fun b => (map pid (bparams b), boffsets b, btotal b))) (buildBuckets 4 20 three)
  = Some [([0; 1], [0; 2], 5); ([2], [0], 1)].
Proof. vm_compute. reflexivity. Qed.
Example buckets_big : option_map (map (fun b => map pid (bparams b))) (buildBuckets 4 8 three) = Some [[0]; [1]; [2]].
Proof. vm_compute. reflexivity. Qed.
Example buckets_mixed : buildBuckets 4 20 (three ++ [mkParam 3 1 0 1]) = None.
Proof. vm_compute. reflexivity. Qed.

(** C41.  Whatever the order in which gradients become ready on each rank: if on
    all ranks the buckets become full in the same order, then no assertion fails,
    every rank hands over every bucket exactly once, and every gradient ends as
    the mean over ranks.  Missing: ranks whose buckets fill in different orders
    (refuted below) and parameters without elements (refuted below). *)
Theorem ddp_average_partial : forall e cap ps bs ins c, buildBuckets e cap ps = Some bs ->
  (forall q, In q ps -> 0 < pnumel q) -> ins <> [] ->
  (forall i, In i ins -> fits bs i /\ complete bs (order i) /\ completions (order i) = c) ->
  exists sts, passAll bs ins = Some sts /\ length sts = length ins /\
    (forall st, In st sts -> Permutation (map fst (issued st)) (seq 0 (length bs))) /\
    forall i st, In (i, st) (combine ins sts) -> forall b p bk q, nth_error bs b = Some bk -> nth_error (bparams bk) p = Some q ->
      exists v, gradAfter bs sts st (grad i) b p = Some v /\ length v = pnumel q /\
        forall k, k < pnumel q -> nth k v 0%R = mean ins b p k.
Proof.
  intros e cap ps bs ins c Hb Hp Ne H. destruct (build_ok _ _ _ _ Hb) as (A & W & _).
  assert (P : forall bk q, In bk bs -> In q (bparams bk) -> 0 < pnumel q).
  { intros bk q H1 H2. apply Hp. rewrite <- A. apply in_concat. exists (bparams bk). split; [apply in_map; exact H1|exact H2]. }
  destruct (passAll_ok bs e cap ins c W P H) as (sts & E & G). exists sts. split; [exact E|].
  split; [clear -G; induction G; cbn; lia|]. split.
  - intros st Hst. clear -G Hst. induction G as [|i s r t g G IH]; [destruct Hst|]. destruct Hst as [<-|Hst]; [apply g|apply IH; exact Hst].
  - intros i st Hi b p bk q H1 H2. exact (average_at bs e cap ins c W H sts i st G Ne Hi b p bk q H1 H2).
Qed.
(** With one bucket the ranks need not agree on anything. *)
Theorem ddp_average_one_bucket : forall e cap ps bk ins, buildBuckets e cap ps = Some [bk] ->
  (forall q, In q ps -> 0 < pnumel q) -> ins <> [] ->
  (forall i, In i ins -> fits [bk] i /\ complete [bk] (order i)) ->
  exists sts, passAll [bk] ins = Some sts /\
    forall i st, In (i, st) (combine ins sts) -> forall p q, nth_error (bparams bk) p = Some q ->
      exists v, gradAfter [bk] sts st (grad i) 0 p = Some v /\ length v = pnumel q /\
        forall k, k < pnumel q -> nth k v 0%R = mean ins 0 p k.
Proof.
  intros e cap ps bk ins Hb Hp Ne H.
  destruct (ddp_average_partial e cap ps [bk] ins [0] Hb Hp Ne) as (sts & E & _ & _ & G).
  - intros i Hi. destruct (H i Hi) as (F & C). split; [exact F|]. split; [exact C|].
    destruct (buckets_partition _ _ _ _ Hb) as (_ & N). specialize (N bk (or_introl eq_refl)).
    destruct C as (_ & C).
    assert (A : forall x, In x (order i) -> fst x = 0).
    { intros (b, p) Hx. apply C in Hx. destruct Hx as (k & Hk & _). destruct b as [|[|b]]; [reflexivity|discriminate|discriminate]. }
    assert (B : order i <> []).
    { destruct (bparams bk) as [|q r] eqn:Eq; [congruence|]. intros Eo. assert (Q : In (0, 0) (order i)) by (apply C; exists bk; rewrite Eq; split; [reflexivity|cbn; lia]).
      rewrite Eo in Q. destruct Q. }
    clear -A B. induction (order i) as [|(b, p) r IH]; [congruence|]. cbn [completions].
    pose proof (A (b, p) (or_introl eq_refl)) as E. cbn in E. subst b.
    destruct r as [|y r]; [reflexivity|]. pose proof (A y (or_intror (or_introl eq_refl))) as Ey. cbn [existsb]. rewrite Ey. cbn [Nat.eqb orb].
    apply IH; [intros x Hx; apply A; right; exact Hx|discriminate].
  - exists sts. split; [exact E|]. intros i st Hi p q Hq. exact (G i st Hi 0 p bk q eq_refl Hq).
Qed.
(** If a parameter gets no gradient, nothing is averaged, on that rank, for any
    parameter, and no error is reported. *)
Theorem ddp_missing_gradient : forall e cap ps bs ins i b p bk, buildBuckets e cap ps = Some bs ->
  (forall q, In q ps -> 0 < pnumel q) -> fits bs i -> NoDup (order i) ->
  (forall b p, In (b, p) (order i) -> exists bk, nth_error bs b = Some bk /\ p < length (bparams bk)) ->
  nth_error bs b = Some bk -> p < length (bparams bk) -> ~ In (b, p) (order i) ->
  exists st, arrivals bs (prepare bs (stale i)) (grad i) (order i) = Some st /\
    forall b' p', gradAfter bs ins st (grad i) b' p' = Some (grad i b' p').
Proof.
  intros e cap ps bs ins i b p bk Hb Hp F N Rg H1 H2 H3. destruct (build_ok _ _ _ _ Hb) as (A & W & _).
  assert (P : forall bk q, In bk bs -> In q (bparams bk) -> 0 < pnumel q).
  { intros k q Q1 Q2. apply Hp. rewrite <- A. apply in_concat. exists (bparams k). split; [apply in_map; exact Q1|exact Q2]. }
  destruct (pass_missing bs e cap i W P F b p bk N Rg H1 H2 H3) as (st & S & L). exists st. split; [exact S|].
  intros b' p'. unfold gradAfter. rewrite (proj2 (Nat.ltb_lt _ _) L). reflexivity.
Qed.
(** After a complete pass the hooks fail until the next forward pass. *)
Theorem ddp_backward_twice : forall e cap ps bs i, buildBuckets e cap ps = Some bs ->
  (forall q, In q ps -> 0 < pnumel q) -> fits bs i -> complete bs (order i) ->
  forall st, arrivals bs (prepare bs (stale i)) (grad i) (order i) = Some st -> forall b p g, onGradReady bs st b p g = None.
Proof.
  intros e cap ps bs i Hb Hp F C. destruct (build_ok _ _ _ _ Hb) as (A & W & _).
  assert (P : forall bk q, In bk bs -> In q (bparams bk) -> 0 < pnumel q).
  { intros k q Q1 Q2. apply Hp. rewrite <- A. apply in_concat. exists (bparams k). split; [apply in_map; exact Q1|exact Q2]. }
  exact (pass_again bs e cap i W P F C).
Qed.

(** Two parameters of one element each, one per bucket. *)
Definition two : list param := [mkParam 0 1 0 0; mkParam 1 1 0 0].
Definition bs2 : list bucket := [createBucket [mkParam 0 1 0 0]; createBucket [mkParam 1 1 0 0]].
Definition rank0 := mkInput (fun b _ => [INR (S b)]) [(0, 0); (1, 0)] [[7%R]; [7%R]].
Definition rank1 := mkInput (fun b _ => [INR (S (S (S b)))]) [(1, 0); (0, 0)] [[0%R]; [0%R]].
Definition rank1' := mkInput (fun b _ => [INR (S (S (S b)))]) [(0, 0); (1, 0)] [[0%R]; [0%R]].
Lemma bs2_built : buildBuckets 4 4 two = Some bs2.
Proof. vm_compute. reflexivity. Qed.
Lemma bs2_complete : complete bs2 [(0, 0); (1, 0)] /\ complete bs2 [(1, 0); (0, 0)].
Proof.
  assert (Q : forall b p, (exists bk, nth_error bs2 b = Some bk /\ p < length (bparams bk)) <-> (b = 0 /\ p = 0 \/ b = 1 /\ p = 0)).
  { intros b p. split.
    - intros (bk & Hb & Hp). destruct b as [|[|b]]; cbn in Hb; [injection Hb as <-; cbn in Hp; lia|injection Hb as <-; cbn in Hp; lia|destruct b; discriminate].
    - intros [(-> & ->)|(-> & ->)]; eexists; (split; [reflexivity|cbn; lia]). }
  split; (split; [constructor; [intros [K|[]]; discriminate|constructor; [intros []|constructor]]|]); intros b p; rewrite Q; cbn; split; intros K.
  all: repeat match goal with H : _ \/ _ |- _ => destruct H as [H|H] | H : False |- _ => destruct H | H : _ /\ _ |- _ => destruct H as (-> & ->) | H : (_, _) = (_, _) |- _ => injection H as <- <- end; auto.
Qed.
Lemma bs2_fits : forall g o s, (forall b p, length (g b p) = 1) -> map (@length R) s = [1; 1] -> fits bs2 (mkInput g o s).
Proof.
  intros g o s Hg Hs. unfold fits. cbn [stale grad].
  assert (L : length s = 2) by (rewrite <- (map_length (@length R)), Hs; reflexivity).
  split; [exact L|]. destruct s as [|x [|y [|z s]]]; try discriminate. injection Hs as Hx Hy.
  intros b bk Hb. destruct b as [|[|b]]; cbn in Hb; [| |destruct b; discriminate]; injection Hb as <-;
    (split; [assumption|]); intros p q Hq; destruct p as [|[|p]]; cbn in Hq; try discriminate; injection Hq as <-; apply Hg.
Qed.
Example ddp_average_meets : forall i, In i [rank0; rank1'] -> fits bs2 i /\ complete bs2 (order i) /\ completions (order i) = [0; 1].
Proof.
  intros i [<-|[<-|[]]]; (split; [apply bs2_fits; reflexivity|]); (split; [apply bs2_complete|reflexivity]).
Qed.
Example ddp_average_example : exists sts st, passAll bs2 [rank0; rank1'] = Some sts /\ nth_error sts 0 = Some st /\
  exists v, gradAfter bs2 sts st (grad rank0) 1 0 = Some v /\ nth 0 v 0%R = 3%R.
Proof.
  destruct (ddp_average_partial 4 4 two bs2 [rank0; rank1'] [0; 1] bs2_built) as (sts & E & L & _ & G);
    [intros q [<-|[<-|[]]]; cbn; lia|discriminate|exact ddp_average_meets|].
  destruct sts as [|st [|st' [|st'' r]]]; try discriminate. exists [st; st'], st. split; [exact E|]. split; [reflexivity|].
  destruct (G rank0 st (or_introl eq_refl) 1 0 _ _ eq_refl eq_refl) as (v & Ev & _ & V). exists v. split; [exact Ev|].
  rewrite (V 0) by (cbn; lia). unfold mean. cbn. lra.
Qed.
(** Buckets that fill in different orders on two ranks are added to each other. *)
Theorem ddp_average_refuted : exists ps bs ins sts i st v, buildBuckets 4 4 ps = Some bs /\ (forall q, In q ps -> 0 < pnumel q) /\
  (forall i, In i ins -> fits bs i /\ complete bs (order i)) /\ passAll bs ins = Some sts /\ In (i, st) (combine ins sts) /\
  gradAfter bs sts st (grad i) 0 0 = Some v /\ nth 0 v 0%R <> mean ins 0 0 0.
Proof.
  pose proof (bs2_fits (grad rank0) (order rank0) (stale rank0) (fun _ _ => eq_refl) eq_refl) as F0.
  pose proof (bs2_fits (grad rank1) (order rank1) (stale rank1) (fun _ _ => eq_refl) eq_refl) as F1.
  exists two, bs2, [rank0; rank1]. do 4 eexists.
  split; [exact bs2_built|]. split; [intros q [<-|[<-|[]]]; cbn; lia|].
  split; [intros j [<-|[<-|[]]]; (split; [assumption|apply bs2_complete])|].
  split; [cbn; reflexivity|]. split; [left; reflexivity|]. split; [cbn; reflexivity|].
  unfold mean. cbn. lra.
Qed.
(** A parameter without elements at the end of a bucket, or alone in one, makes
    the pass fail. *)
Theorem ddp_zero_size_refuted : exists ps bs o, buildBuckets 4 100 ps = Some bs /\ same_kind ps /\ complete bs o /\
  forall g s, fits bs (mkInput g o s) -> passAll bs [mkInput g o s] = None.
Proof.
  exists [mkParam 0 0 0 0], [createBucket [mkParam 0 0 0 0]], [(0, 0)].
  split; [reflexivity|]. split; [intros p q [<-|[]] [<-|[]]; auto|]. split.
  - split; [constructor; [intros []|constructor]|]. intros b p. split.
    + intros [H|[]]. injection H as <- <-. eexists. split; [reflexivity|cbn; lia].
    + intros (bk & Hb & Hp). destruct b as [|[|b]]; cbn in Hb; try discriminate. injection Hb as <-. cbn in Hp. left. f_equal. lia.
  - intros g s _. reflexivity.
Qed.
Theorem ddp_zero_size_last_refuted : exists ps bs o, buildBuckets 4 100 ps = Some bs /\ complete bs o /\
  forall g s, fits bs (mkInput g o s) -> passAll bs [mkInput g o s] = None.
Proof.
  exists [mkParam 0 1 0 0; mkParam 1 0 0 0], [createBucket [mkParam 0 1 0 0; mkParam 1 0 0 0]], [(0, 1); (0, 0)].
  split; [reflexivity|]. split.
  - split; [constructor; [intros [K|[]]; discriminate|constructor; [intros []|constructor]]|]. intros b p. split.
    + intros [H|[H|[]]]; injection H as <- <-; eexists; (split; [reflexivity|cbn; lia]).
    + intros (bk & Hb & Hp). destruct b as [|[|b]]; cbn in Hb; try discriminate. injection Hb as <-. cbn in Hp.
      destruct p as [|[|p]]; [right; left; reflexivity|left; reflexivity|lia].
  - intros g s (L & G). destruct (G 0 _ eq_refl) as (Lb & _). cbn in Lb.
    unfold passAll, arrivals, onGradReady. cbn [nth_error createBucket layout boffsets bsizes btotal stale grad order prepare bufs].
    cbn in Lb. destruct s as [|x s]; [discriminate|]. cbn in Lb. cbn. unfold copySlice. rewrite Lb. reflexivity.
Qed.

(** C61.  Constructing the distributed module gives every rank the root's
    parameter values ([grad] holds parameter values here). *)
Theorem broadcast_parameters_partial : forall e cap ps bs root me, buildBuckets e cap ps = Some bs ->
  (forall q, In q ps -> 0 < pnumel q) -> fits bs root -> fits bs me ->
  forall b p bk, nth_error bs b = Some bk -> p < length (bparams bk) -> broadcastParam bs root me b p = Some (grad root b p).
Proof.
  intros e cap ps bs root me Hb Hp Fr Fm. destruct (build_ok _ _ _ _ Hb) as (A & W & _).
  apply (broadcast_ok bs e cap root me W); [|exact Fr|exact Fm].
  intros bk q H1 H2. apply Hp. rewrite <- A. apply in_concat. exists (bparams bk). split; [apply in_map; exact H1|exact H2].
Qed.
Example broadcast_example : broadcastParam bs2 rank0 rank1 1 0 = Some [INR 2].
Proof.
  exact (broadcast_parameters_partial 4 4 two bs2 rank0 rank1 bs2_built
    ltac:(intros q [<-|[<-|[]]]; cbn; lia) (bs2_fits (grad rank0) (order rank0) (stale rank0) (fun _ _ => eq_refl) eq_refl)
    (bs2_fits (grad rank1) (order rank1) (stale rank1) (fun _ _ => eq_refl) eq_refl)
    1 0 _ eq_refl ltac:(cbn; lia)).
Qed.
Theorem broadcast_zero_size_refuted : exists ps bs, buildBuckets 4 100 ps = Some bs /\
  forall root me, broadcastParam bs root me 0 0 = None.
Proof. exists [mkParam 0 0 0 0], [createBucket [mkParam 0 0 0 0]]. split; reflexivity. Qed.

Print Assumptions buckets_partition.
Print Assumptions bucket_slices.
Print Assumptions bucket_limit.
Print Assumptions buckets_accepted.
Print Assumptions ddp_average_partial.
Print Assumptions ddp_average_one_bucket.
Print Assumptions ddp_missing_gradient.
Print Assumptions ddp_backward_twice.
Print Assumptions ddp_average_refuted.
Print Assumptions ddp_zero_size_refuted.
Print Assumptions ddp_zero_size_last_refuted.
Print Assumptions broadcast_parameters_partial.
Print Assumptions broadcast_zero_size_refuted.
