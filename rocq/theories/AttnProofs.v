From Coq Require Import ZArith List Bool Arith Lia Reals Lra.
From Verif Require Import ShapeModel ShapeSpec ShapeProofs TensorModel TensorSpec TensorLemmas BcastModel BcastSpec BcastProofs BufModel BufProofs CutSpec CutModel
  ReduceModel ReduceSpec PermModel PermSpec PermProofs PermProofs2 PermProps LinalgModel LinalgSpec LinalgProofs LinalgProofs2 LineModel LineProofs SoftmaxModel SoftmaxProofs
  LinearProofs DropModel DropProofs MaskModel MaskProofs AttnModel AttnSpec.
Import ListNotations.
Open Scope R_scope.

(** * Lines of scores *)
Definition sexp (v : score) : R := match v with Some x => exp x | None => 0 end.
Lemma scoreMax_ge l : forall m, m <= scoreMax m l /\ forall x, In (Some x) l -> x <= scoreMax m l.
Proof.
  induction l as [|v l IH]; intro m; [split; [simpl; lra|intros ? []]|]. unfold scoreMax in *. cbn [fold_left].
  destruct v as [y|].
  - destruct (Rlt_dec m y) as [H|H]; [destruct (IH y) as [A C]|destruct (IH m) as [A C]]; (split; [lra|]); intros x [E|Hx]; auto; injection E as ->; lra.
  - destruct (IH m) as [A C]. split; auto. intros x [E|Hx]; [discriminate|auto].
Qed.
Lemma scoreExp_ok lo M l v : 0 <= M -> In v l -> scoreExp M (scoreMax lo l) v = Some (exp (- scoreMax lo l) * sexp v).
Proof.
  intros HM Hv. destruct v as [x|]; simpl; [|f_equal; ring]. pose proof (proj2 (scoreMax_ge l lo) x Hv) as H.
  unfold expf. destruct (Rle_dec (x - scoreMax lo l) M); [|lra]. f_equal. unfold Rminus. rewrite exp_plus. ring.
Qed.
Lemma sexp_nonneg v : 0 <= sexp v.
Proof. destruct v; simpl; [left; apply exp_pos|lra]. Qed.
Lemma Rsum_nonneg {I} (f : I -> R) l : (forall i, In i l -> 0 <= f i) -> 0 <= Rsum f l.
Proof.
  induction l as [|x l IH]; intro H; [right; reflexivity|]. rewrite sum_cons. change (@add Rring) with Rplus.
  assert (0 <= f x) by (apply H; simpl; auto). assert (0 <= Rsum f l) by (apply IH; intros; apply H; simpl; auto). lra.
Qed.
Lemma Rsum_pos_one {I} (f : I -> R) l a : (forall i, In i l -> 0 <= f i) -> In a l -> 0 < f a -> 0 < Rsum f l.
Proof.
  induction l as [|x l IH]; intros H Ha Hf; [destruct Ha|]. rewrite sum_cons. change (@add Rring) with Rplus.
  assert (0 <= f x) by (apply H; simpl; auto). assert (0 <= Rsum f l) by (apply Rsum_nonneg; intros; apply H; simpl; auto).
  destruct Ha as [->|Ha]; [lra|]. assert (0 < Rsum f l) by (apply IH; auto; intros; apply H; simpl; auto). lra.
Qed.
Lemma Rsum_zero {I} (f : I -> R) l : (forall i, In i l -> f i = 0) -> Rsum f l = 0.
Proof.
  induction l as [|x l IH]; intro H; [reflexivity|]. rewrite sum_cons. change (@add Rring) with Rplus.
  rewrite H by (simpl; auto). rewrite IH by (intros; apply H; simpl; auto). lra.
Qed.
Lemma scoreLine_gen lo M l : 0 <= M -> scoreLine lo M l
  = Some (map (fun v => if Req_EM_T (Rsum sexp l) 0 then None else Some (sexp v / Rsum sexp l)) l).
Proof.
  intro HM. unfold scoreLine. rewrite (seqopt_map _ (fun v => exp (- scoreMax lo l) * sexp v)) by (intros; apply scoreExp_ok; auto).
  cbn [obind]. f_equal. rewrite map_map. apply map_ext. intro v. rewrite total_sum, sum_map.
  rewrite Rsum_scal. pose proof (exp_pos (- scoreMax lo l)) as P.
  change (Rsum sexp l) with (Rsum (fun i => sexp i) l). set (s := Rsum (fun i => sexp i) l). clearbody s. set (c := exp (- scoreMax lo l)) in *.
  destruct (Req_EM_T s 0) as [->|N].
  - destruct (Req_EM_T (c * 0) 0) as [|N]; auto. exfalso. apply N. ring.
  - destruct (Req_EM_T (c * s) 0) as [Z|_].
    + apply Rmult_integral in Z. destruct Z; lra.
    + f_equal. field. split; lra.
Qed.

(** * Indices of batched matrices *)
Lemma ext2 {A} b m n (F G : list nat -> A) :
  (forall be i j, valid b be -> (i < m)%nat -> (j < n)%nat -> F (be ++ [i; j]) = G (be ++ [i; j])) ->
  tensor_of (b ++ [m; n]) F = tensor_of (b ++ [m; n]) G.
Proof.
  intro H. apply tensor_of_ext. intros idx V. pose proof (valid_length _ _ V) as Ln. rewrite app_length in Ln. cbn [length] in Ln.
  rewrite <- (firstn_skipn (length b) idx) in V |- *.
  assert (Lf : length (firstn (length b) idx) = length b) by (rewrite firstn_length; lia).
  apply valid_app in V; auto. destruct V as [V1 V2]. destruct (skipn (length b) idx) as [|i [|j [|]]]; try (inversion V2; fail).
  - inversion V2 as [|? ? ? ? ? V3]. inversion V3.
  - inversion V2 as [|? ? ? ? HI1 V3]. inversion V3 as [|? ? ? ? HJ V4]. subst. apply H; auto.
  - inversion V2 as [|? ? ? ? HI1 V3]. inversion V3 as [|? ? ? ? HJ V4]. inversion V4.
Qed.
Definition on3 {A} (nb : nat) (f : list nat -> nat -> nat -> A) (idx : list nat) : A :=
  f (firstn nb idx) (nth nb idx 0%nat) (nth (S nb) idx 0%nat).
Lemma on3_at {A} b be i j (f : list nat -> nat -> nat -> A) : valid b be -> on3 (length b) f (be ++ [i; j]) = f be i j.
Proof.
  intro V. pose proof (valid_length _ _ V) as Ln. unfold on3. rewrite <- Ln.
  rewrite firstn_app, firstn_all, Nat.sub_diag, firstn_O, app_nil_r, !app_nth2, Nat.sub_diag by lia.
  replace (S (length be) - length be)%nat with 1%nat by lia. reflexivity.
Qed.
Lemma valid2 b m n be i j : valid b be -> (i < m)%nat -> (j < n)%nat -> valid (b ++ [m; n]) (be ++ [i; j]).
Proof. intros V Hi Hj. apply valid_app; [apply valid_length; auto|]. split; auto. repeat constructor; auto. Qed.
Lemma size_end b m n : sizeFromEnd (b ++ [m; n]) 2 = Some m /\ sizeFromEnd (b ++ [m; n]) 1 = Some n.
Proof.
  unfold sizeFromEnd. rewrite app_length. cbn [length]. split.
  - destruct (Nat.ltb_spec (length b + 2) 2); [lia|]. rewrite nth_error_app2 by lia. replace (length b + 2 - 2 - length b)%nat with 0%nat by lia. reflexivity.
  - destruct (Nat.ltb_spec (length b + 2) 1); [lia|]. rewrite nth_error_app2 by lia. replace (length b + 2 - 1 - length b)%nat with 1%nat by lia. reflexivity.
Qed.
Lemma set_nth_app_r {A} (a : list A) : forall l k v, set_nth (a ++ l) (length a + k) v = a ++ set_nth l k v.
Proof. induction a as [|x a IH]; intros l k v; [reflexivity|]. cbn [app length Nat.add set_nth]. rewrite IH. reflexivity. Qed.
Lemma swapped_last be i j : swapped (length be) (S (length be)) (be ++ [i; j]) = be ++ [j; i].
Proof.
  unfold swapped. rewrite !app_nth2, Nat.sub_diag by lia. replace (S (length be) - length be)%nat with 1%nat by lia. cbn [nth].
  pose proof (set_nth_app_r be [i; j] 0 j) as E0. rewrite Nat.add_0_r in E0. rewrite E0.
  pose proof (set_nth_app_r be (set_nth [i; j] 0 j) 1 i) as E1. rewrite Nat.add_1_r in E1. rewrite E1. reflexivity.
Qed.
Lemma transpose_last b m n (F : list nat -> R) : exists G, transpose (tensor_of (b ++ [m; n]) F) (-2) (-1) = Ok (tensor_of (b ++ [n; m]) G)
  /\ forall be i j, valid b be -> (i < m)%nat -> (j < n)%nat -> G (be ++ [j; i]) = F (be ++ [i; j]).
Proof.
  destruct (transpose_swaps R (b ++ [m; n]) F (-2) (-1) (length b) (S (length b))) as (G & E & H).
  - constructor; [|constructor; [|constructor]]; (split; [rewrite app_length; simpl; lia|]); right; rewrite app_length; cbn [length]; lia.
  - rewrite swapped_last in E. exists G. split; auto. intros be i j V Hi Hj. rewrite <- (H (be ++ [i; j])) by (apply valid2; auto).
    f_equal. rewrite <- (valid_length _ _ V). symmetry. apply swapped_last.
Qed.
Lemma positive_app a b : positive (a ++ b) <-> positive a /\ positive b.
Proof. apply Forall_app. Qed.
(** Products of batched matrices with the same batch shape. *)
Lemma matmul_same b m k n (A B : list nat -> R) : positive b -> (0 < m)%nat -> (0 < n)%nat ->
  matmul (K := Rring) (tensor_of (b ++ [m; k]) A) (tensor_of (b ++ [k; n]) B) false false
  = Ok (tensor_of (b ++ [m; n]) (on3 (length b) (fun be i j => Rsum (fun p => A (be ++ [i; p]) * B (be ++ [p; j])) (seq 0 k)))).
Proof.
  intros P Hm Hn. pose proof (matmul_correct (K := Rring) b b b false false m k n A B P P (bcast_self b) (or_introl eq_refl)) as H.
  cbn [at_] in H. assert (NZ : b = [] \/ (m * n <> 0)%nat) by (right; nia). specialize (H NZ). etransitivity; [exact H|]. f_equal. apply (ext2 (A := R)). intros be i j V Hi Hj. rewrite on3_at by auto.
  unfold mprod. cbv zeta. rewrite <- (valid_length _ _ V). rewrite firstn_app, skipn_app, Nat.sub_diag, firstn_all, skipn_all.
  cbn [firstn skipn app]. rewrite app_nil_r. rewrite bidx_same by auto. reflexivity.
Qed.
(** * The bias *)
Lemma unary_not sh M : unary negb (tensor_of sh M) = Some (tensor_of sh (fun idx => negb (M idx))).
Proof. apply unary_correct. Qed.
Lemma repeat_of {A} sh (x : A) : mkT sh (repeat x (numel sh)) = tensor_of sh (fun _ => x).
Proof.
  unfold tensor_of. f_equal. rewrite <- indices_length. generalize (indices sh) as l. clear. induction l; simpl; f_equal; auto.
Qed.
Lemma inplace_two {A} (f : list A -> A) sh bsh (F B : list nat -> A) : positive sh -> positive bsh -> is_broadcast [sh; bsh] sh ->
  elementwise_inplace f (tensor_of sh F) [Some (tensor_of bsh B)] = Ok (tensor_of sh (fun idx => f [F idx; B (bidx bsh idx)])).
Proof.
  intros P1 P2 HI. assert (HP : Forall positive [sh; bsh]) by auto.
  apply (inplace_correct f sh F [Some (bsh, B)]); auto. apply broadcastShape_iff; auto.
Qed.
Lemma causal_fits b L S : positive (b ++ [L; S]) -> is_broadcast [b ++ [L; S]; [L; S]] (b ++ [L; S]).
Proof.
  intro P. split; [simpl; rewrite app_length; simpl; lia|]. intros p Hp. split.
  - intros s [<-|[<-|[]]]; auto. unfold from_right. rewrite rev_app_distr. cbn [rev app].
    destruct p as [|[|p]]; cbn [nth]; auto. left. destruct p; reflexivity.
  - right. exists (b ++ [L; S]). simpl. auto.
Qed.
Lemma bidx_causal b be L S i j : valid b be -> (i < L)%nat -> (j < S)%nat -> bidx [L; S] (be ++ [i; j]) = [i; j].
Proof.
  intros V Hi Hj. unfold bidx. rewrite app_length. cbn [length]. replace (length be + 2 - 2)%nat with (length be) by lia.
  rewrite skipn_app, skipn_all, Nat.sub_diag. cbn [skipn app combine map fst snd].
  destruct (Nat.eqb_spec L 1), (Nat.eqb_spec S 1); repeat f_equal; lia.
Qed.
Lemma bias_ok b L S v : positive (b ++ [L; S]) -> mask_fits v (b ++ [L; S]) ->
  (attnBias L S (is_causal v) (mask_of v) = Ok None /\ v = Everything)
  \/ exists bsh B, attnBias L S (is_causal v) (mask_of v) = Ok (Some (tensor_of bsh B)) /\ positive bsh /\ is_broadcast [b ++ [L; S]; bsh] (b ++ [L; S])
     /\ forall be i j, valid b be -> (i < L)%nat -> (j < S)%nat -> B (bidx bsh (be ++ [i; j])) = bias_at v be i j.
Proof.
  intros P F. destruct v as [| |sh Mk|sh B]; cbn [is_causal mask_of attnBias].
  - left. auto.
  - right. exists [L; S], (fun idx => if (nth 1 idx 0 <=? nth 0 idx 0)%nat then Some 0 else None).
    apply positive_app in P as P'. destruct P' as [_ P2].
    split; [|split; [auto|split; [apply causal_fits; auto|]]].
    + replace (L * S)%nat with (numel [L; S]) by (cbn; lia). rewrite repeat_of.
      pose proof (tril_keeps bool false [] L S (fun _ => true) 0) as T. cbn [app length] in T. rewrite T. cbn [rbind].
      rewrite unary_not. cbn [ofOption rbind]. unfold zeros. rewrite repeat_of, masked_inplace. cbn [rbind]. do 2 f_equal. apply tensor_of_ext.
      intros idx V. cbv zeta. cbn [length Nat.add].
      destruct (Nat.leb_spec (nth 1 idx 0%nat) (nth 0 idx 0%nat)), (Z.leb_spec (Z.of_nat (nth 1 idx 0%nat)) (Z.of_nat (nth 0 idx 0%nat) + 0)); try reflexivity; lia.
    + intros be i j V Hi Hj. rewrite (bidx_causal b) by auto. reflexivity.
  - right. destruct F as [P2 HI]. exists sh, (fun idx => if Mk idx then Some 0 else None).
    split; [|split; [auto|split; [auto|reflexivity]]].
    rewrite unary_not. cbn [ofOption rbind tshape tensor_of]. unfold zeros. rewrite repeat_of. change (mkT sh (map (fun idx => negb (Mk idx)) (indices sh))) with (tensor_of sh (fun idx => negb (Mk idx))).
    rewrite masked_inplace. cbn [rbind]. do 2 f_equal. apply tensor_of_ext. intros idx V. destruct (Mk idx); reflexivity.
  - right. destruct F as [P2 HI]. exists sh, B. split; [|split; [auto|split; [auto|reflexivity]]].
    cbn [tshape tensor_of]. unfold zeros. rewrite repeat_of, inplace_two; auto using bcast_self. cbn [rbind]. do 2 f_equal. apply tensor_of_ext. intros idx V.
    rewrite bidx_same by auto. unfold addScores, scoreAdd. cbn [nth]. destruct (B idx); auto. f_equal. ring.
Qed.
