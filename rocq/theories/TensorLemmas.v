(** Lemmas about tensors, reads, loops and sums. *)
From Coq Require Import ZArith List Bool Arith Lia Permutation Ring.
From Verif Require Import ShapeModel ShapeSpec ShapeProofs TensorModel TensorSpec.
Import ListNotations.

(** * Lists *)
Lemma nth_error_ext' {A} (l m : list A) : (forall k, nth_error l k = nth_error m k) -> l = m.
Proof.
  revert m. induction l as [|x l IH]; intros [|y m] H; auto.
  - specialize (H 0); discriminate.
  - specialize (H 0); discriminate.
  - f_equal. + specialize (H 0). simpl in H. congruence. + apply IH. intro k. exact (H (S k)).
Qed.
Lemma map_seq_indices {A} sh (F : list nat -> A) :
  map (fun k => F (offsetToIndices sh k)) (seq 0 (numel sh)) = map F (indices sh).
Proof.
  rewrite <- (map_map (offsetToIndices sh) F). f_equal.
  apply nth_error_ext'. intro k. rewrite nth_error_map, nth_error_seq.
  destruct (Nat.ltb_spec k (numel sh)); simpl.
  - rewrite indices_nth; auto.
  - symmetry. apply nth_error_None. rewrite indices_length. auto.
Qed.
Lemma indices_seq sh : map (offsetToIndices sh) (seq 0 (numel sh)) = indices sh.
Proof. etransitivity; [exact (map_seq_indices sh (fun x => x))|apply map_id]. Qed.
Lemma seq_indices sh : map (ravel sh) (indices sh) = seq 0 (numel sh).
Proof.
  rewrite <- indices_seq, map_map. rewrite <- (map_id (seq 0 (numel sh))) at 2. apply map_ext_in.
  intros k Hk. apply in_seq in Hk. apply ravel_o2i. lia.
Qed.
Lemma Forall2_length {A B} (R : A -> B -> Prop) l m : Forall2 R l m -> length l = length m.
Proof. induction 1; simpl; auto. Qed.
Lemma valid_length sh idx : valid sh idx -> length idx = length sh.
Proof. apply Forall2_length. Qed.
Lemma o2i_length sh : forall k, length (offsetToIndices sh k) = length sh.
Proof. intro k. unfold offsetToIndices. induction sh as [|d sh IH]; simpl; auto. Qed.

(** * Reading a tensor given by a function *)
Lemma of_length {A} sh (F : list nat -> A) : length (tdata (tensor_of sh F)) = numel sh.
Proof. simpl. rewrite map_length. apply indices_length. Qed.
Lemma of_wf {A} sh (F : list nat -> A) : twf (tensor_of sh F).
Proof. apply of_length. Qed.
Lemma rd_of {A} sh (F : list nat -> A) k : k < numel sh -> rd (tdata (tensor_of sh F)) k = Some (F (offsetToIndices sh k)).
Proof. intro H. unfold rd. simpl. rewrite nth_error_map, indices_nth; auto. Qed.
Lemma rd_of_idx {A} sh (F : list nat -> A) idx : valid sh idx -> rd (tdata (tensor_of sh F)) (ravel sh idx) = Some (F idx).
Proof. intro H. rewrite rd_of by (apply ravel_lt; auto). rewrite o2i_ravel; auto. Qed.
Lemma tensor_of_ext {A} sh (F G : list nat -> A) : agree sh F G -> tensor_of sh F = tensor_of sh G.
Proof. intro H. unfold tensor_of. f_equal. apply map_ext_in. intros idx Hi. apply H. apply indices_in; auto. Qed.
(** Every well-formed tensor is of this form. *)
Lemma tensor_of_surj {A} (a : A) (t : tensor A) : twf t -> t = tensor_of (tshape t) (fun idx => nth (ravel (tshape t) idx) (tdata t) a).
Proof.
  destruct t as [sh d]. unfold twf. simpl. intro H. unfold tensor_of. f_equal.
  rewrite <- (map_map (ravel sh) (fun k => nth k d a)), seq_indices, <- H. clear H.
  apply nth_error_ext'. intro k. rewrite nth_error_map, nth_error_seq.
  destruct (Nat.ltb_spec k (length d)); simpl.
  - apply nth_error_nth'. auto.
  - apply nth_error_None. auto.
Qed.

(** * tab, loop, wr *)
Lemma seqopt_map {I A} (f : I -> option A) (g : I -> A) l : (forall i, In i l -> f i = Some (g i)) -> seqopt (map f l) = Some (map g l).
Proof.
  induction l as [|i l IH]; intro H; simpl; auto. rewrite H by (left; auto). simpl.
  rewrite IH by (intros; apply H; right; auto). reflexivity.
Qed.
Lemma seqopt_none {A} (l : list (option A)) : In None l -> seqopt l = None.
Proof.
  induction l as [|o l IH]; intro H; [destruct H|]. destruct H as [->|H]; simpl; auto. rewrite (IH H). destruct o; auto.
Qed.
Lemma seqopt_length {A} (l : list (option A)) : forall r, seqopt l = Some r -> length r = length l.
Proof.
  induction l as [|o l IH]; intros r H; simpl in *; [injection H as <-; auto|].
  destruct o; simpl in *; [|discriminate]. destruct (seqopt l) as [r'|]; simpl in *; [|discriminate].
  injection H as <-. simpl. f_equal. auto.
Qed.
Lemma seqopt_nth {A} (l : list (option A)) : forall r k, seqopt l = Some r -> nth_error r k = match nth_error l k with Some o => o | None => None end.
Proof.
  induction l as [|o l IH]; intros r k H; simpl in *; [injection H as <-; destruct k; auto|].
  destruct o; simpl in *; [|discriminate]. destruct (seqopt l) as [r'|] eqn:E; simpl in *; [|discriminate].
  injection H as <-. destruct k; simpl; auto.
Qed.
Lemma tab_some {A} n (f : nat -> option A) (g : nat -> A) : (forall i, i < n -> f i = Some (g i)) -> tab n f = Some (map g (seq 0 n)).
Proof. intro H. apply seqopt_map. intros i Hi. apply in_seq in Hi. apply H. lia. Qed.
Lemma tab_none {A} n (f : nat -> option A) i : i < n -> f i = None -> tab n f = None.
Proof. intros H E. apply seqopt_none. apply in_map_iff. exists i. split; auto. apply in_seq. lia. Qed.
Lemma tab_tensor {A} sh (f : nat -> option A) (F : list nat -> A) :
  (forall idx, valid sh idx -> f (ravel sh idx) = Some (F idx)) -> tab (numel sh) f = Some (tdata (tensor_of sh F)).
Proof.
  intro H. rewrite (tab_some _ _ (fun k => F (offsetToIndices sh k))).
  - simpl. rewrite map_seq_indices. reflexivity.
  - intros i Hi. rewrite <- (ravel_o2i sh i Hi) at 1. apply H. apply o2i_valid; auto.
Qed.

Lemma wr_some {A} (l : list A) : forall i v, i < length l -> exists l', wr l i v = Some l' /\ length l' = length l
  /\ forall k, nth_error l' k = if k =? i then Some v else nth_error l k.
Proof.
  induction l as [|x l IH]; intros i v H; simpl in *; [lia|]. destruct i as [|i].
  - exists (v :: l). split; auto. split; auto. intros [|k]; auto.
  - destruct (IH i v ltac:(lia)) as (l' & -> & H2 & H3). exists (x :: l'). split; auto. split; [simpl; auto|].
    intros [|k]; simpl; auto.
Qed.
Lemma wr_none {A} (l : list A) : forall i v, length l <= i -> wr l i v = None.
Proof. induction l as [|x l IH]; intros [|i] v H; simpl in *; auto; [lia|]. rewrite IH by lia. auto. Qed.
Lemma wr_set {A} (l : list A) : forall i v, i < length l -> wr l i v = Some (set_nth l i v).
Proof. induction l as [|x l IH]; intros [|i] v H; simpl in *; auto; try lia. rewrite IH by lia. auto. Qed.
Lemma set_nth_length {A} (l : list A) : forall i v, length (set_nth l i v) = length l.
Proof. induction l as [|x l IH]; intros [|i] v; simpl; auto. Qed.
Lemma set_nth_nth {A} (l : list A) : forall i v k, nth_error (set_nth l i v) k = if (k =? i) && (i <? length l) then Some v else nth_error l k.
Proof.
  induction l as [|x l IH]; intros [|i] v [|k]; simpl; auto.
  - rewrite Bool.andb_false_r. auto.
  - rewrite IH. reflexivity.
Qed.
Lemma loop_app {S I} (l m : list I) (s : S) body : loop (l ++ m) s body = obind (loop l s body) (fun s => loop m s body).
Proof. revert s. induction l as [|i l IH]; intro s; simpl; auto. destruct (body s i); simpl; auto. Qed.
Lemma loop_inv {S I} (P : list I -> S -> Prop) (body : S -> I -> option S) : forall l pre s,
  P pre s -> (forall p i q s, l = p ++ i :: q -> P (pre ++ p) s -> exists s', body s i = Some s' /\ P (pre ++ p ++ [i]) s') ->
  exists s', loop l s body = Some s' /\ P (pre ++ l) s'.
Proof.
  induction l as [|i l IH]; intros pre s H Hs; simpl.
  - exists s. rewrite app_nil_r. auto.
  - destruct (Hs [] i l s eq_refl) as (s' & -> & H2); [rewrite app_nil_r; auto|]. simpl.
    destruct (IH (pre ++ [i]) s') as (s2 & -> & H3).
    + exact H2.
    + intros p j q s0 E Hp. destruct (Hs (i :: p) j q s0) as (s3 & E3 & H3).
      * rewrite E. reflexivity.
      * rewrite <- app_assoc in Hp. exact Hp.
      * exists s3. split; auto. rewrite <- app_assoc. exact H3.
    + exists s2. split; auto. rewrite <- app_assoc in H3. exact H3.
Qed.

(** * Ring arithmetic and sums *)
Lemma add_0_r (K : cring) (x : K) : add x zero = x.
Proof. rewrite add_comm. apply add_0_l. Qed.
Lemma cring_ring (K : cring) : ring_theory (R := K) zero one add mul (fun x y => add x (opp y)) opp eq.
Proof.
  constructor; intros.
  - apply add_0_l. - apply add_comm. - apply add_assoc. - apply mul_1_l. - apply mul_comm. - apply mul_assoc.
  - rewrite mul_comm, mul_add_l, (mul_comm _ z x), (mul_comm _ z y). auto.
  - auto. - apply add_opp_r.
Qed.
Section Sums.
Context {K : cring}.
Add Ring Kring : (cring_ring K).
Lemma mul_0_r (x : K) : mul x zero = zero.
Proof. ring. Qed.
Lemma mul_0_l (x : K) : mul zero x = zero.
Proof. ring. Qed.
Lemma sum_nil {I} (f : I -> K) : sum f [] = zero. Proof. reflexivity. Qed.
Lemma sum_cons {I} (f : I -> K) i l : sum f (i :: l) = add (f i) (sum f l). Proof. reflexivity. Qed.
Lemma sum_app {I} (f : I -> K) l m : sum f (l ++ m) = add (sum f l) (sum f m).
Proof. induction l as [|i l IH]; simpl; [rewrite sum_nil; ring|]. rewrite !sum_cons, IH. ring. Qed.
Lemma sum_ext {I} (f g : I -> K) l : (forall i, In i l -> f i = g i) -> sum f l = sum g l.
Proof.
  induction l as [|i l IH]; intro H; auto. rewrite !sum_cons, IH, H; auto; [left; auto|].
  intros; apply H; right; auto.
Qed.
Lemma sum_map {I J} (f : I -> K) (g : J -> I) l : sum f (map g l) = sum (fun j => f (g j)) l.
Proof. induction l as [|i l IH]; auto. simpl map. rewrite !sum_cons, IH. auto. Qed.
Lemma sum_zero {I} (l : list I) : sum (K := K) (fun _ => zero) l = zero.
Proof. induction l as [|i l IH]; auto. rewrite sum_cons, IH. ring. Qed.
Lemma sum_zero' {I} (f : I -> K) l : (forall i, In i l -> f i = zero) -> sum f l = zero.
Proof. intro H. rewrite (sum_ext f (fun _ => zero)) by auto. apply sum_zero. Qed.
Lemma sum_add {I} (f g : I -> K) l : sum (fun i => add (f i) (g i)) l = add (sum f l) (sum g l).
Proof. induction l as [|i l IH]; [rewrite !sum_nil; ring|]. rewrite !sum_cons, IH. ring. Qed.
Lemma sum_mul_l {I} c (f : I -> K) l : sum (fun i => mul c (f i)) l = mul c (sum f l).
Proof. induction l as [|i l IH]; [rewrite !sum_nil; ring|]. rewrite !sum_cons, IH. ring. Qed.
Lemma sum_mul_r {I} c (f : I -> K) l : sum (fun i => mul (f i) c) l = mul (sum f l) c.
Proof. induction l as [|i l IH]; [rewrite !sum_nil; ring|]. rewrite !sum_cons, IH. ring. Qed.
Lemma sum_swap {I J} (f : I -> J -> K) l m : sum (fun i => sum (f i) m) l = sum (fun j => sum (fun i => f i j) l) m.
Proof.
  induction l as [|i l IH].
  - simpl. symmetry. apply sum_zero'. auto.
  - rewrite sum_cons, IH. rewrite <- sum_add. apply sum_ext. intros j _. rewrite sum_cons. auto.
Qed.
Lemma sum_filter {I} (p : I -> bool) (f : I -> K) l : sum f (filter p l) = sum (fun i => if p i then f i else zero) l.
Proof. induction l as [|i l IH]; auto. simpl filter. rewrite sum_cons. destruct (p i); rewrite ?sum_cons, IH; ring. Qed.
Lemma sum_perm {I} (f : I -> K) l m : Permutation l m -> sum f l = sum f m.
Proof. induction 1; auto. - rewrite !sum_cons, IHPermutation. auto. - rewrite !sum_cons. ring. - congruence. Qed.
Lemma sum_flat_map {I J} (f : J -> K) (g : I -> list J) l : sum f (flat_map g l) = sum (fun i => sum f (g i)) l.
Proof. induction l as [|i l IH]; auto. simpl flat_map. rewrite sum_app, sum_cons, IH. auto. Qed.
(** A sum in which at most one index contributes. *)
Lemma sum_single {I} (eqb : I -> I -> bool) (Heq : forall x y, eqb x y = true <-> x = y) (f : I -> K) i l : NoDup l -> In i l ->
  sum (fun j => if eqb j i then f j else zero) l = f i.
Proof.
  induction 1 as [|x l Hn Hd IH]; intros Hi; [destruct Hi|]. rewrite sum_cons. destruct Hi as [->|Hi].
  - rewrite (proj2 (Heq i i) eq_refl). rewrite sum_zero'; [ring|]. intros j Hj.
    destruct (eqb j i) eqn:E; auto. apply Heq in E. subst. contradiction.
  - rewrite IH by auto. destruct (eqb x i) eqn:E; [apply Heq in E; subst; contradiction|]. ring.
Qed.
(** An accumulating loop. *)
Lemma fold_left_sum {I} (f : I -> K) l : forall a, fold_left (fun acc i => add acc (f i)) l a = add a (sum f l).
Proof. induction l as [|i l IH]; intro a; simpl; [rewrite sum_nil; ring|]. rewrite IH, sum_cons. ring. Qed.

(** [for (i : l) ret[g i] += v i] *)
Lemma scatter_add {I} (g : I -> nat) (v : I -> K) (body : list K -> I -> option (list K)) : forall (l : list I) ret,
  (forall r i x, In i l -> nth_error r (g i) = Some x -> body r i = wr r (g i) (add x (v i))) ->
  (forall i, In i l -> g i < length ret) ->
  exists ret', loop l ret body = Some ret' /\ length ret' = length ret /\
    forall k x, nth_error ret k = Some x -> nth_error ret' k = Some (add x (sum v (filter (fun i => g i =? k) l))).
Proof.
  induction l as [|i l IH]; intros ret Hb Hg.
  - exists ret. split; auto. split; auto. intros k x Hx. simpl. rewrite Hx. rewrite sum_nil. f_equal. ring.
  - assert (Hi : g i < length ret) by (apply Hg; left; auto).
    destruct (nth_error ret (g i)) as [x|] eqn:Ex; [|apply nth_error_None in Ex; lia].
    destruct (wr_some ret (g i) (add x (v i)) Hi) as (r1 & E1 & L1 & N1).
    destruct (IH r1) as (r2 & E2 & L2 & N2).
    { intros r j y Hj. apply Hb. right; auto. }
    { intros j Hj. rewrite L1. apply Hg; right; auto. }
    exists r2. simpl loop. rewrite (Hb ret i x) by (auto; left; auto). rewrite E1. simpl. rewrite E2. split; auto.
    split; [congruence|]. intros k y Hk. simpl filter.
    destruct (Nat.eqb_spec (g i) k) as [<-|Ne].
    + rewrite Ex in Hk. injection Hk as <-. rewrite (N2 (g i) (add x (v i))).
      * rewrite sum_cons. f_equal. ring.
      * rewrite N1, Nat.eqb_refl. auto.
    + apply N2. rewrite N1. destruct (Nat.eqb_spec k (g i)); [congruence|]. auto.
Qed.
End Sums.

(** * Index comparison *)
Definition idx_eqb (a b : list nat) : bool := if list_eq_dec Nat.eq_dec a b then true else false.
Lemma idx_eqb_true a b : idx_eqb a b = true <-> a = b.
Proof. unfold idx_eqb. destruct (list_eq_dec Nat.eq_dec a b); split; intros; auto; discriminate. Qed.
Lemma ravel_inj sh a b : valid sh a -> valid sh b -> ravel sh a = ravel sh b -> a = b.
Proof. intros H1 H2 E. rewrite <- (o2i_ravel sh a H1), <- (o2i_ravel sh b H2), E. auto. Qed.
Lemma ravel_eqb sh a b : valid sh a -> valid sh b -> (ravel sh a =? ravel sh b) = idx_eqb a b.
Proof.
  intros H1 H2. destruct (Nat.eqb_spec (ravel sh a) (ravel sh b)) as [E|E].
  - symmetry. apply idx_eqb_true. eapply ravel_inj; eauto.
  - destruct (idx_eqb a b) eqn:E2; auto. apply idx_eqb_true in E2. congruence.
Qed.

(** Splitting shapes. *)
Lemma valid_app sh1 sh2 a b : length a = length sh1 -> valid (sh1 ++ sh2) (a ++ b) <-> valid sh1 a /\ valid sh2 b.
Proof.
  intro Hl. split.
  - intro H. apply Forall2_app_inv_l in H. destruct H as (x & y & H1 & H2 & E).
    assert (length x = length sh1) by (apply Forall2_length in H1; lia).
    assert (x = sh1 /\ y = sh2) as [-> ->].
    { clear -E H. revert x sh1 E H. induction x as [|u x IH]; intros [|w s1] E H; simpl in *; try discriminate; auto.
      injection E as -> E. injection H as H. destruct (IH s1 (eq_sym (eq_sym E)) H) as [-> ->]. auto. }
    auto.
  - intros [H1 H2]. apply Forall2_app; auto.
Qed.
Lemma ravel_app sh1 sh2 : forall a b, length a = length sh1 ->
  ravel (sh1 ++ sh2) (a ++ b) = ravel sh1 a * numel sh2 + ravel sh2 b.
Proof.
  induction sh1 as [|d sh1 IH]; intros [|i a] b H; simpl in H; try discriminate; [reflexivity|].
  simpl app. rewrite !ravel_cons, IH by lia. rewrite numel_app. lia.
Qed.
Lemma indices_app sh1 sh2 : indices (sh1 ++ sh2) = flat_map (fun a => map (app a) (indices sh2)) (indices sh1).
Proof.
  induction sh1 as [|d sh1 IH]; simpl.
  - rewrite app_nil_r. symmetry. exact (map_id _).
  - rewrite IH. clear IH. induction (seq 0 d) as [|i s IHs]; auto. simpl. rewrite IHs, flat_map_app. f_equal.
    clear. induction (indices sh1) as [|a l IH]; auto. simpl. rewrite map_app, IH, map_map. f_equal.
Qed.
