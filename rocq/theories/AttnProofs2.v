From Coq Require Import ZArith List Bool Arith Lia Reals Lra.
From Verif Require Import ShapeModel ShapeSpec ShapeProofs TensorModel TensorSpec TensorLemmas BcastModel BcastSpec BcastProofs BufModel BufProofs CutSpec CutModel
  ReduceModel ReduceSpec PermModel PermSpec LinalgModel LineModel LineProofs SoftmaxModel SoftmaxProofs
  LinearProofs DropModel DropProofs MaskModel AttnModel AttnSpec AttnProofs.
Import ListNotations.
Open Scope R_scope.

Lemma tmap_of {A B} (f : A -> B) sh F : tmap f (tensor_of sh F) = tensor_of sh (fun idx => f (F idx)).
Proof. unfold tmap, tensor_of. cbn [tshape tdata]. rewrite map_map. reflexivity. Qed.
Lemma scalar_fits sh : positive sh -> is_broadcast [sh; []] sh.
Proof.
  intro P. split; [simpl; lia|]. intros p Hp. split.
  - intros s [<-|[<-|[]]]; auto. left. unfold from_right. destruct p; reflexivity.
  - right. exists sh. simpl. auto.
Qed.
Section Attn.
  Variables (lo M : R) (b : list nat) (L S E : nat) (Q K : list nat -> R) (v : visibility) (scale : option R).
  Hypotheses (HM : 0 <= M) (Pb : positive b) (HL : (0 < L)%nat) (HS : (0 < S)%nat).
  Hypothesis (HF : mask_fits v (b ++ [L; S])).
  Let s := factor E scale.
  Let wsh := b ++ [L; S].
  Definition score_at (be : list nat) (i j : nat) : score :=
    match bias_at v be i j with None => None | Some c => Some (s * similarity E Q K be i j + c) end.
  Lemma Pw : positive wsh.
  Proof using Pb HL HS. apply positive_app. split; auto. repeat constructor; auto. Qed.
  Lemma scores_ok : exists keyT w w2 bias,
    transpose (tensor_of (b ++ [S; E]) K) (-2) (-1) = Ok keyT
    /\ matmul (K := Rring) (tensor_of (b ++ [L; E]) Q) keyT false false = Ok w
    /\ elementwise_inplace (fun l => nth 0 l 0 * nth 1 l 0) w [Some (mkT [] [s])] = Ok w2
    /\ attnBias L S (is_causal v) (mask_of v) = Ok bias
    /\ match bias with None => Ok (tmap Some w2) | Some b => elementwise_inplace addScores (tmap Some w2) [Some b] end
       = Ok (tensor_of wsh (on3 (length b) score_at)).
  Proof using Pb HL HS HF.
    destruct (transpose_last b S E K) as (KT & ET & HT). pose proof Pw as PW.
    exists (tensor_of (b ++ [E; S]) KT), (tensor_of wsh (on3 (length b) (fun be i j => similarity E Q K be i j))),
      (tensor_of wsh (on3 (length b) (fun be i j => similarity E Q K be i j * s))).
    assert (W1 : matmul (K := Rring) (tensor_of (b ++ [L; E]) Q) (tensor_of (b ++ [E; S]) KT) false false
      = Ok (tensor_of wsh (on3 (length b) (fun be i j => similarity E Q K be i j)))).
    { rewrite matmul_same by auto. f_equal. apply ext2. intros be i j Vb Hi Hj. rewrite !on3_at by auto. unfold similarity.
      apply Rsum_ext. intros e He. apply in_seq in He. rewrite HT by (auto; lia). reflexivity. }
    assert (W2 : elementwise_inplace (fun l => nth 0 l 0 * nth 1 l 0) (tensor_of wsh (on3 (length b) (fun be i j => similarity E Q K be i j))) [Some (mkT [] [s])]
      = Ok (tensor_of wsh (on3 (length b) (fun be i j => similarity E Q K be i j * s)))).
    { change (mkT [] [s]) with (tensor_of [] (fun _ : list nat => s)). rewrite inplace_two by (first [apply Forall_nil | apply PW | apply scalar_fits; apply PW]).
      reflexivity. }
    destruct (bias_ok b L S v PW HF) as [[EB Ev0]|(bsh & B & EB & PB & HI & HB)].
    - exists None. repeat (split; auto). rewrite tmap_of. f_equal. apply ext2. intros be i j Vb Hi Hj. rewrite !on3_at by auto.
      unfold score_at. rewrite Ev0. cbn [bias_at]. f_equal. ring.
    - exists (Some (tensor_of bsh B)). repeat (split; auto). rewrite tmap_of, inplace_two; auto. f_equal. apply ext2. intros be i j Vb Hi Hj.
      rewrite HB by auto. unfold score_at. rewrite !on3_at by auto. unfold addScores, scoreAdd. cbn [nth]. destruct (bias_at v be i j); auto. f_equal. ring.
  Qed.
  Lemma sexp_score be i j : sexp (score_at be i j) = importance s E Q K v be i j.
  Proof. unfold score_at, importance. destruct (bias_at v be i j); reflexivity. Qed.
  Lemma coord_last be i j j' : with_coord true (Datatypes.S (length be)) (be ++ [i; j]) j' = be ++ [i; j'].
  Proof. unfold with_coord. pose proof (set_nth_app_r be [i; j] 1 j') as H. rewrite Nat.add_1_r in H. exact H. Qed.
  Lemma line_scores be i j : valid b be ->
    Rsum sexp (line (on3 (length b) score_at) true (Datatypes.S (length b)) S (be ++ [i; j])) = Rsum (importance s E Q K v be i) (seq 0 S).
  Proof.
    intro Vb. unfold line. rewrite sum_map. apply Rsum_ext. intros j' _. rewrite <- (valid_length _ _ Vb), coord_last, (valid_length _ _ Vb), on3_at by auto.
    apply sexp_score.
  Qed.
  Definition weight_or_nan (be : list nat) (i j : nat) : option R :=
    if Req_EM_T (Rsum (importance s E Q K v be i) (seq 0 S)) 0 then None else Some (weight s E S Q K v be i j).
  Lemma weights_ok : softmaxWith (scoreLine lo M) (tensor_of wsh (on3 (length b) score_at)) (-1)
    = Ok (tensor_of wsh (on3 (length b) weight_or_nan)).
  Proof using HM HL HS.
    assert (Lw : length wsh = (length b + 2)%nat) by (unfold wsh; rewrite app_length; simpl; lia).
    rewrite (softmaxWith_ok None (scoreLine lo M) (fun l x => if Req_EM_T (Rsum sexp l) 0 then None else Some (sexp x / Rsum sexp l))
      wsh (on3 (length b) score_at) (-1) (Datatypes.S (length b))).
    - f_equal. apply ext2. intros be i j Vb Hi Hj.
      assert (Nn : nth (Datatypes.S (length b)) wsh 0%nat = S).
      { unfold wsh. rewrite app_nth2 by lia. replace (Datatypes.S (length b) - length b)%nat with 1%nat by lia. reflexivity. }
      rewrite Nn, line_scores, !on3_at by auto. unfold weight_or_nan, weight. rewrite sexp_score. reflexivity.
    - split; [lia|]. right. lia.
    - intros idx _. apply scoreLine_gen; auto.
  Qed.
  Lemma head_ok value p draws : sdpAttention lo M (tensor_of (b ++ [L; E]) Q) (tensor_of (b ++ [S; E]) K) value (is_causal v) (mask_of v) p scale draws
    = match seqopt (tdata (tensor_of wsh (on3 (length b) weight_or_nan))) with
      | None => Ok None
      | Some ws => rbind (if Rlt_dec 0 p then dropoutOp (mkT wsh ws) p draws else Ok (mkT wsh ws)) (fun ws =>
                   rbind (matmul (K := Rring) ws value false false) (fun r => Ok (Some r)))
      end.
  Proof using HM Pb HL HS HF.
    destruct scores_ok as (keyT & w & w2 & bias & E1 & E2 & E3 & E4 & E5). unfold sdpAttention.
    change (tshape (tensor_of (b ++ [L; E]) Q)) with (b ++ [L; E]). change (tshape (tensor_of (b ++ [S; E]) K)) with (b ++ [S; E]).
    rewrite (proj1 (size_end b L E)), (proj2 (size_end b L E)), (proj1 (size_end b S E)). cbn [ofOption rbind].
    rewrite E1. cbn [rbind]. rewrite E2. cbn [rbind]. cbv zeta.
    change (match scale with Some s => s | None => 1 / sqrt (INR E) end) with s. rewrite E3. cbn [rbind]. rewrite E4. cbn [rbind]. rewrite E5. cbn [rbind].
    rewrite weights_ok. cbn [rbind]. reflexivity.
  Qed.
  Hypothesis (HV : sees_something b L S v).
  Lemma importance_nonneg be i j : 0 <= importance s E Q K v be i j.
  Proof. rewrite <- sexp_score. apply sexp_nonneg. Qed.
  Lemma total_pos be i : valid b be -> (i < L)%nat -> 0 < Rsum (importance s E Q K v be i) (seq 0 S).
  Proof using HV.
    clear HM Pb HL HS HF. intros Vb Hi. destruct (HV be i Vb Hi) as (j & Hj & N). apply (Rsum_pos_one _ _ j).
    - intros. apply importance_nonneg.
    - apply in_seq. lia.
    - unfold importance. destruct (bias_at v be i j); [apply exp_pos|contradiction].
  Qed.
  Lemma all_numbers : seqopt (tdata (tensor_of wsh (on3 (length b) weight_or_nan))) = Some (tdata (tensor_of wsh (on3 (length b) (weight s E S Q K v)))).
  Proof using HV.
    clear HM Pb HL HS HF. assert (X : tensor_of wsh (on3 (length b) weight_or_nan) = tensor_of wsh (fun idx => Some (on3 (length b) (weight s E S Q K v) idx))).
    { apply ext2. intros be i j Vb Hi Hj. rewrite !on3_at by auto. unfold weight_or_nan. pose proof (total_pos be i Vb Hi).
      destruct (Req_EM_T _ 0); [lra|reflexivity]. }
    rewrite X. unfold tensor_of. cbn [tdata]. apply (seqopt_map (fun idx => Some (on3 (length b) (weight s E S Q K v) idx))). auto.
  Qed.
  Variables (Ev : nat) (V : list nat -> R).
  Hypothesis (HEv : (0 < Ev)%nat).
  Lemma attention_ok p draws : p <= 0 ->
    sdpAttention lo M (tensor_of (b ++ [L; E]) Q) (tensor_of (b ++ [S; E]) K) (tensor_of (b ++ [S; Ev]) V) (is_causal v) (mask_of v) p scale draws
    = Ok (Some (tensor_of (b ++ [L; Ev]) (on3 (length b) (attention s E S Q K V v)))).
  Proof.
    intro Hp. rewrite head_ok, all_numbers. destruct (Rlt_dec 0 p); [lra|]. cbn [rbind].
    change (mkT wsh (tdata (tensor_of wsh (on3 (length b) (weight s E S Q K v))))) with (tensor_of wsh (on3 (length b) (weight s E S Q K v))).
    unfold wsh. rewrite matmul_same by auto. cbn [rbind]. do 2 f_equal. apply ext2. intros be i e Vb Hi He. rewrite !on3_at by auto. unfold attention.
    apply Rsum_ext. intros j Hj. rewrite on3_at by auto. reflexivity.
  Qed.
  Lemma attention_dropped p D : 0 < p ->
    sdpAttention lo M (tensor_of (b ++ [L; E]) Q) (tensor_of (b ++ [S; E]) K) (tensor_of (b ++ [S; Ev]) V) (is_causal v) (mask_of v) p scale (map D (indices wsh))
    = Ok (Some (tensor_of (b ++ [L; Ev]) (on3 (length b) (fun be i e =>
        Rsum (fun j => (if D (be ++ [i; j]) : bool then weight s E S Q K v be i j / p else 0) * V (be ++ [j; e])) (seq 0 S))))).
  Proof.
    intro Hp. rewrite head_ok, all_numbers. destruct (Rlt_dec 0 p); [|lra]. 
    assert (ED : dropoutOp (mkT wsh (tdata (tensor_of wsh (on3 (length b) (weight s E S Q K v))))) p (map D (indices wsh))
      = Ok (tensor_of wsh (fun idx => on3 (length b) (weight s E S Q K v) idx * ofBool (D idx) / p))).
    { unfold dropoutOp, tensor_of. cbn [tshape tdata]. do 2 f_equal. generalize (indices wsh) as l. clear. induction l; simpl; f_equal; auto. }
    rewrite ED. cbn [rbind]. unfold wsh. rewrite matmul_same by auto. cbn [rbind]. do 2 f_equal. apply ext2. intros be i e Vb Hi He. rewrite !on3_at by auto.
    apply Rsum_ext. intros j Hj. rewrite on3_at by auto. f_equal. destruct (D (be ++ [i; j])); cbn [ofBool]; field; lra.
  Qed.
End Attn.
