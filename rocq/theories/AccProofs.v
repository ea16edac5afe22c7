(** The loops of AccModel add up in order. *)
From Coq Require Import ZArith List Bool Arith Lia.
From Verif Require Import ShapeModel ShapeSpec ShapeProofs TensorModel TensorSpec TensorLemmas CutSpec ReduceSpec SoftmaxProofs SampleSpec BcastModel BcastSpec BcastProofs BcastProofs2 BufModel BufProofs
  PermModel PermProofs2 CutModel CutProofs CutProofs2 ReduceModel ReduceProofs ReduceProofs2 LinalgModel LinalgSpec LinalgProofs LineModel LineProofs SampleModel SampleProofs AccModel.
Import ListNotations.
Open Scope nat_scope.

(** Reading, combining and writing back at [g i]: each cell combines its items in
    their order. *)
Lemma scatter_fold {A I} (g : I -> nat) (h : A -> I -> A) (body : list A -> I -> option (list A)) : forall items (s : list A),
  (forall r i x, In i items -> nth_error r (g i) = Some x -> body r i = wr r (g i) (h x i)) -> (forall i, In i items -> g i < length s) ->
  exists r, loop items s body = Some r /\ length r = length s /\
    forall q x, nth_error s q = Some x -> nth_error r q = Some (fold_left h (filter (fun i => g i =? q) items) x).
Proof.
  induction items as [|i items IH]; intros s B G.
  - exists s. split; [reflexivity|]. split; [reflexivity|]. intros q x H. exact H.
  - assert (Gi : g i < length s) by (apply G; left; reflexivity). destruct (nth_error s (g i)) as [x|] eqn:E; [|apply nth_error_None in E; lia].
    cbn [loop]. rewrite (B s i x (or_introl eq_refl) E). rewrite wr_set by exact Gi. cbn [obind].
    destruct (IH (set_nth s (g i) (h x i))) as (r & L & N & V).
    + intros r j y J. apply B. right. exact J.
    + intros j J. rewrite set_nth_length. apply G. right. exact J.
    + exists r. split; [exact L|]. split; [rewrite N; apply set_nth_length|]. intros q y Y. cbn [filter]. destruct (Nat.eqb_spec (g i) q) as [<-|NE].
      * assert (y = x) by congruence. subst y. cbn [fold_left]. apply V. rewrite set_nth_nth. rewrite Nat.eqb_refl. rewrite (proj2 (Nat.ltb_lt _ _) Gi). reflexivity.
      * apply V. rewrite set_nth_nth. destruct (Nat.eqb_spec q (g i)); [congruence|exact Y].
Qed.
Section Generic.
Context {A : Type} (zero : A) (add mul : A -> A -> A).
Definition addUp (l : list A) (x : A) : A := fold_left add l x.
(** [reduceAll] has the new element on the left. *)
Lemma reduce_fold (app : A -> A -> A) (sh : list nat) (F : list nat -> A) d :
  reduceAll d app (map F (indices sh)) (numel sh) = Some (fold_left (fun v x => app x v) (map F (indices sh)) d).
Proof.
  unfold reduceAll. assert (G : forall l pre v, loop (seq (length pre) (length l)) v (fun val i => obind (rd (pre ++ l) i) (fun x => Some (app x val))) = Some (fold_left (fun v x => app x v) l v)).
  { induction l as [|x l IH]; intros pre v; [reflexivity|]. cbn [length seq loop]. unfold rd at 1. rewrite nth_error_app2, Nat.sub_diag by lia. cbn [nth_error obind fold_left].
    specialize (IH (pre ++ [x]) (app x v)). rewrite app_length, Nat.add_1_r, <- app_assoc in IH. exact IH. }
  specialize (G (map F (indices sh)) [] d). cbn [length List.app] in G. rewrite map_length, indices_length in G. exact G.
Qed.
Lemma sumAll_order sh F : sh <> [] -> sumAllOf zero add (tensor_of sh F) = Ok (mkT [] [fold_left (fun v x => add x v) (map F (indices sh)) zero]).
Proof.
  intros N. unfold sumAllOf, reduceOpAll, isScalar. cbn [tshape tensor_of tdata]. unfold tnumel. cbn [tshape tensor_of]. destruct sh as [|d sh]; [congruence|]. cbn [length Nat.eqb]. rewrite reduce_fold. reflexivity.
Qed.
Lemma sumDims_order sh ax keep (F : list nat -> A) : length ax = length sh ->
  sumDimsOf zero add (tensor_of sh F) ax keep
  = Some (tensor_of (reduced_shape ax keep sh)
      (fun ridx => addUp (map F (filter (fun idx => same_idx (reduced_idx ax keep idx) ridx) (indices sh))) zero)).
Proof.
  intro Hl. unfold sumDimsOf, tnumel. cbn [tshape tensor_of].
  change (getReduceShape sh ax keep) with (reduced_shape ax keep sh). set (rsh := reduced_shape ax keep sh).
  pose (g := fun k => getReduceDstIndex sh ax k).
  assert (Hg : forall k, k < numel sh -> g k = ravel rsh (reduced_idx ax keep (offsetToIndices sh k))).
  { intros k Hk. unfold g, getReduceDstIndex. rewrite (dst_spec keep) by (auto; lia). reflexivity. }
  assert (Hv : forall k, k < numel sh -> valid rsh (reduced_idx ax keep (offsetToIndices sh k))).
  { intros k Hk. apply reduced_valid; auto. apply o2i_valid; auto. }
  destruct (scatter_fold g (fun a k => add a (F (offsetToIndices sh k))) (fun ret srcIdx =>
      let r := getReduceDstIndex sh ax srcIdx in
      obind (rd ret r) (fun a => obind (rd (tdata (tensor_of sh F)) srcIdx) (fun x => wr ret r (add a x))))
      (seq 0 (numel sh)) (repeat zero (numel rsh))) as (ret & E & L & N).
  - intros r k x Hk Hx. apply in_seq in Hk. cbv zeta. fold (g k). unfold rd at 1. rewrite Hx. cbn [obind].
    rewrite rd_of by lia. reflexivity.
  - intros k Hk. apply in_seq in Hk. rewrite Hg by lia. rewrite repeat_length. apply ravel_lt. apply Hv. lia.
  - cbn [tdata tensor_of] in E |- *. cbv zeta in E |- *. rewrite E. cbn [obind]. unfold tensor_of. do 2 f_equal.
    rewrite repeat_length in L. apply nth_error_ext'. intro k.
    destruct (Nat.lt_ge_cases k (numel rsh)) as [Hk|Hk].
    2: { rewrite (proj2 (nth_error_None _ _)) by lia. symmetry. apply nth_error_None. rewrite map_length, indices_length. auto. }
    rewrite (N k zero) by (rewrite repeat_nth; destruct (Nat.ltb_spec k (numel rsh)); [auto|lia]).
    rewrite nth_error_map, indices_nth by auto. simpl. f_equal. unfold addUp.
    rewrite <- indices_seq. assert (X : forall l x, (forall i, In i l -> i < numel sh) ->
      fold_left (fun a k0 => add a (F (offsetToIndices sh k0))) (filter (fun i => g i =? k) l) x
      = fold_left add (map F (filter (fun idx => same_idx (reduced_idx ax keep idx) (offsetToIndices rsh k)) (map (offsetToIndices sh) l))) x).
    { induction l as [|i l IH]; intros x R; [reflexivity|]. cbn [map filter]. assert (Hi : i < numel sh) by (apply R; left; reflexivity).
      assert (Q : (g i =? k) = same_idx (reduced_idx ax keep (offsetToIndices sh i)) (offsetToIndices rsh k)).
      { rewrite Hg by exact Hi. rewrite <- (ravel_o2i rsh k Hk) at 1. rewrite ravel_eqb; auto. apply o2i_valid; auto. }
      rewrite <- Q. destruct (g i =? k); cbn [map fold_left]; apply IH; intros j J; apply R; right; exact J. }
    apply X. intros i Hi. apply in_seq in Hi. lia.
Qed.
Lemma dot_order sh (F G : list nat -> A) : dotOf zero add mul (tensor_of sh F) (tensor_of sh G) = Ok (mkT [] [addUp (map (fun i => mul (F i) (G i)) (indices sh)) zero]).
Proof.
  unfold dotOf, tnumel. cbn [tshape tensor_of tdata].
  assert (X : forall l f g v, loop (seq (length f) (length l)) v (fun acc i => obind (rd (f ++ map F l) i) (fun x => obind (rd (g ++ map G l) i) (fun y => Some (add acc (mul x y))))) = Some (addUp (map (fun i => mul (F i) (G i)) l) v) \/ length f <> length g).
  { induction l as [|i l IH]; intros f g v; [left; reflexivity|]. destruct (Nat.eq_dec (length f) (length g)) as [E|]; [left|right; assumption]. cbn [length seq loop map]. unfold rd at 1. rewrite nth_error_app2, Nat.sub_diag by lia. cbn [nth_error obind].
    unfold rd at 1. rewrite E, nth_error_app2, Nat.sub_diag by lia. cbn [nth_error obind]. destruct (IH (f ++ [F i]) (g ++ [G i]) (add v (mul (F i) (G i)))) as [Q|Q]; [|rewrite !app_length in Q; cbn in Q; lia].
    rewrite app_length, Nat.add_1_r, <- !app_assoc in Q. rewrite <- E. exact Q. }
  destruct (X (indices sh) [] [] zero) as [Q|Q]; [|cbn in Q; lia]. cbn [length List.app] in Q. rewrite indices_length in Q. rewrite Q. reflexivity.
Qed.
Lemma filter_none {I} (p : I -> bool) l : (forall i, In i l -> p i = false) -> filter p l = [].
Proof. induction l as [|x l IH]; intros H; [reflexivity|]. cbn. rewrite (H x (or_introl eq_refl)). apply IH. intros i Hi. apply H. right. exact Hi. Qed.
Lemma filter_flat {I J} (p : J -> bool) (f : I -> list J) l : filter p (flat_map f l) = flat_map (fun i => filter p (f i)) l.
Proof. induction l as [|x l IH]; [reflexivity|]. cbn. rewrite filter_app, IH. reflexivity. Qed.
Lemma flat_one {I J} (f : I -> list J) l i : NoDup l -> In i l -> (forall j, In j l -> j <> i -> f j = []) -> flat_map f l = f i.
Proof.
  induction l as [|x l IH]; intros N H Z; [destruct H|]. inversion N; subst. cbn. destruct H as [->|H].
  - assert (E : flat_map f l = []).
    { assert (ZZ : forall j, In j l -> f j = []) by (intros j Jj; apply Z; [right; exact Jj|intros ->; contradiction]). clear - ZZ. induction l as [|y l IH]; [reflexivity|]. cbn. rewrite (ZZ y (or_introl eq_refl)). apply IH. intros j Jj. apply ZZ. right. exact Jj. }
    rewrite E. apply app_nil_r.
  - rewrite (Z x) by (try (left; reflexivity); intros ->; contradiction). apply IH; auto. intros j Jj. apply Z. right. exact Jj.
Qed.
Lemma gemm_order (a b : list A) ao bo m k n (ta tb : bool) (P Q : nat -> nat -> A) :
  (forall i p, i < m -> p < k -> nth_error a (ao + (if ta then p * m + i else i * k + p)) = Some (P i p)) ->
  (forall p j, p < k -> j < n -> nth_error b (bo + (if tb then j * k + p else p * n + j)) = Some (Q p j)) ->
  gemmOf zero add mul a ao b bo m k n ta tb
  = Some (map (fun ij => addUp (map (fun p => mul (P (nth 0 ij 0) p) (Q p (nth 1 ij 0))) (seq 0 k)) zero) (indices [m; n])).
Proof.
  intros HA HB. unfold gemmOf.
  rewrite (loop_ext _ _ (fun c i => loop (seq 0 k) c (fun c p => loop (seq 0 n) c (fun c j =>
      obind (rd c (i * n + j)) (fun x => wr c (i * n + j) (add x (mul (P i p) (Q p j)))))))).
  2: { intros c i Hi. apply in_seq in Hi. apply loop_ext. intros c' p Hp. apply in_seq in Hp.
       unfold rd at 1. rewrite HA by lia. cbn [obind]. apply loop_ext. intros c'' j Hj. apply in_seq in Hj.
       unfold rd at 1. rewrite HB by lia. reflexivity. }
  rewrite (loop_nest3 (seq 0 m) (fun _ => seq 0 k) (fun _ _ => seq 0 n) (fun c i p j =>
      obind (rd c (i * n + j)) (fun x => wr c (i * n + j) (add x (mul (P i p) (Q p j)))))).
  set (items := flat_map _ _).
  assert (HI : forall i p j, In (i, (p, j)) items -> i < m /\ p < k /\ j < n).
  { intros i p j. unfold items. rewrite flat_map_pair_in. cbn [fst snd]. rewrite flat_map_pair_in. cbn [fst snd]. rewrite !in_seq. lia. }
  destruct (scatter_fold (fun q => fst q * n + snd (snd q)) (fun x q => add x (mul (P (fst q) (fst (snd q))) (Q (fst (snd q)) (snd (snd q)))))
    (fun s p => obind (rd s (fst p * n + snd (snd p))) (fun x => wr s (fst p * n + snd (snd p)) (add x (mul (P (fst p) (fst (snd p))) (Q (fst (snd p)) (snd (snd p)))))))
    items (repeat zero (m * n))) as (r & E & L & N).
  - intros r [i [p j]] x Hq Hx. cbn [fst snd] in *. unfold rd. rewrite Hx. reflexivity.
  - intros [i [p j]] Hq. apply HI in Hq. cbn [fst snd]. rewrite repeat_length. nia.
  - refine (eq_trans E _). f_equal. rewrite repeat_length in L. apply nth_error_ext'. intro q. rewrite nth_error_map.
    destruct (Nat.ltb_spec q (m * n)) as [Hq|Hq].
    2: { rewrite (proj2 (nth_error_None _ _)) by lia. symmetry. rewrite (proj2 (nth_error_None _ _)); auto.
         rewrite indices_length. unfold numel. cbn. lia. }
    rewrite indices_nth by (rewrite !numel_cons, numel_nil; lia). cbn [option_map].
    assert (En : nth_error (repeat zero (m * n)) q = Some zero) by (rewrite nth_error_repeat; auto).
    rewrite (N q zero En). f_equal.
    assert (n <> 0) by nia. pose proof (Nat.div_mod q n) as Hdm. pose proof (Nat.mod_upper_bound q n).
    assert (q / n < m) by (apply Nat.div_lt_upper_bound; lia).
    replace (offsetToIndices [m; n] q) with [q / n; q mod n].
    2: { rewrite <- (o2i_ravel [m; n] [q / n; q mod n]); [f_equal; rewrite !ravel_cons, ravel_nil, !numel_cons, numel_nil; nia|].
         repeat constructor; auto. }
    cbn [nth]. set (i0 := q / n) in *. set (j0 := q mod n) in *.
    assert (X : filter (fun i => fst i * n + snd (snd i) =? q) items = map (fun p => (i0, (p, j0))) (seq 0 k)).
    { unfold items. rewrite filter_flat. rewrite (flat_one _ _ i0); [|apply seq_NoDup|apply in_seq; lia|].
      - assert (Y : forall l, (forall p, In p l -> p < k) -> filter (fun i => fst i * n + snd (snd i) =? q) (map (pair i0) (flat_map (fun p => map (pair p) (seq 0 n)) l)) = map (fun p => (i0, (p, j0))) l).
        { induction l as [|p l IH]; intros Hl; [reflexivity|]. cbn [flat_map map]. rewrite map_app, filter_app, IH by (intros; apply Hl; right; assumption).
          replace (filter _ (map (pair i0) (map (pair p) (seq 0 n)))) with [(i0, (p, j0))]; [reflexivity|].
          assert (W : forall s c, s <= j0 < s + c -> s + c <= n -> filter (fun i => fst i * n + snd (snd i) =? q) (map (pair i0) (map (pair p) (seq s c))) = [(i0, (p, j0))]).
          { intros s c. revert s. induction c as [|c IHc]; intros s K1 K2; [lia|]. cbn [seq map filter fst snd]. destruct (Nat.eqb_spec (i0 * n + s) q).
            - assert (s = j0) by nia. subst s. f_equal. apply filter_none. intros [i [p' j]] Hi. apply in_map_iff in Hi. destruct Hi as ([p'' j'] & E1 & Hi). apply in_map_iff in Hi. destruct Hi as (j'' & E2 & Hi). apply in_seq in Hi. injection E1 as <- <- <-. injection E2 as <- <-. cbn [fst snd]. apply Nat.eqb_neq. nia.
            - apply IHc; [|lia]. assert (s <> j0) by (intros ->; apply n0; nia). lia. }
          symmetry. apply W; lia. }
        apply Y. intros p Hp. apply in_seq in Hp. lia.
      - intros i Hi NE. apply filter_none. intros [i' [p j]] H3. apply in_map_iff in H3. destruct H3 as ([p' j'] & E1 & H3). injection E1 as <- <- <-. apply (in_flat_map (fun p => map (pair p) (seq 0 n))) in H3. destruct H3 as (p2 & _ & H3). apply in_map_iff in H3. destruct H3 as (j2 & E2 & H3). injection E2 as <- <-. apply in_seq in H3. cbn [fst snd]. apply Nat.eqb_neq. intros C. apply NE. apply (pos_inj n i j2 i0 j0); lia. }
    rewrite X. unfold addUp. generalize (seq 0 k) zero. induction l as [|p l IH]; intros z; [reflexivity|]. cbn [map fold_left fst snd]. apply IH.
Qed.
Lemma cumLine_length l : forall a, length (cumsumLineOf add a l) = length l.
Proof. induction l as [|x l IH]; intros a; [reflexivity|]. cbn [cumsumLineOf length]. cbv zeta. cbn [length]. rewrite IH. reflexivity. Qed.
Lemma cumLine_nth l : forall a j d, j < length l -> nth j (cumsumLineOf add a l) d = addUp (firstn (S j) l) a.
Proof.
  induction l as [|x l IH]; intros a j d Hj; simpl in Hj; [lia|]. cbn [cumsumLineOf firstn]. cbv zeta. destruct j as [|j]; cbn [nth]; [reflexivity|]. rewrite IH by lia. reflexivity.
Qed.
Lemma cumsum_order sh (F : list nat -> A) dim k : dim_is (length sh) dim k ->
  cumsumOf zero add (tensor_of sh F) dim = Ok (tensor_of sh (fun idx => addUp (map (fun j => F (with_coord true k idx j)) (seq 0 (S (nth k idx 0)))) zero)).
Proof.
  intros [Hk Hd]. unfold cumsumOf. simpl tshape. replace (axis (length sh) dim) with (Some k) by (symmetry; apply axis_some; auto).
  cbv zeta. set (n := nth k sh 0) in *.
  pose proof (lineKernel_ok zero sh k n (fun o i => obind (readLine (tdata (tensor_of sh F)) n (innerSize sh k) o i) (fun l => Some (cumsumLineOf add zero l)))
    (fun idx => cumsumLineOf add zero (line F true k n idx)) Hk) as Q.
  replace (set_nth sh k n) with sh in Q by (symmetry; apply set_nth_same).
  rewrite Q.
  - f_equal. apply tensor_of_ext. intros idx V. pose proof (coord_lt sh k idx V Hk). rewrite cumLine_nth by (rewrite line_length; auto).
    rewrite line_firstn by (unfold n; lia). reflexivity.
  - intros idx j. rewrite line_twice. auto.
  - intros idx V. unfold n at 1. rewrite (readLine_ok sh k F idx 1) by auto. simpl. split; auto. rewrite cumLine_length, line_length. auto.
Qed.
End Generic.
