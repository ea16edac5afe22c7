(** Proofs about shapes. *)
From Coq Require Import ZArith List Bool Arith Lia.
From Verif Require Import ShapeModel ShapeSpec.
Import ListNotations.

Lemma fold_left_mul l : forall a, fold_left Nat.mul l a = a * fold_left Nat.mul l 1.
Proof.
  induction l as [|d l IH]; intro a; simpl; [lia|]. rewrite IH. rewrite (IH (d + 0)). nia.
Qed.
Lemma numel_cons d r : numel (d :: r) = d * numel r.
Proof. unfold numel. simpl. rewrite fold_left_mul. lia. Qed.
Lemma numel_nil : numel [] = 1.
Proof. reflexivity. Qed.
Lemma numel_app a b : numel (a ++ b) = numel a * numel b.
Proof. induction a as [|d a IH]; simpl app; rewrite ?numel_cons, ?numel_nil; [lia|]. rewrite IH. lia. Qed.

Lemma strides_loop_fst s : fst (strides_loop s) = numel s.
Proof. induction s as [|d s IH]; simpl; auto. rewrite numel_cons, IH. lia. Qed.
Lemma strides_cons d r : strides (d :: r) = numel r :: strides r.
Proof. unfold strides. simpl. rewrite strides_loop_fst. reflexivity. Qed.
Lemma strides_length s : length (strides s) = length s.
Proof. induction s as [|d s IH]; auto. rewrite strides_cons. simpl. auto. Qed.

Lemma ito_acc l : forall a, fold_left (fun off p => off + snd p * fst p) l a
  = a + fold_left (fun off (p : nat * nat) => off + snd p * fst p) l 0.
Proof. induction l as [|p l IH]; intro a; simpl; [lia|]. rewrite IH, (IH (snd p * fst p)). lia. Qed.
Lemma ito_cons s st i idx : indicesToOffset (s :: st) (i :: idx) = i * s + indicesToOffset st idx.
Proof. unfold indicesToOffset. simpl. rewrite ito_acc. lia. Qed.
Lemma ito_nil_l idx : indicesToOffset [] idx = 0.
Proof. reflexivity. Qed.

Definition ravel (sh idx : list nat) : nat := indicesToOffset (strides sh) idx.
Lemma ravel_cons d sh i idx : ravel (d :: sh) (i :: idx) = i * numel sh + ravel sh idx.
Proof. unfold ravel. rewrite strides_cons, ito_cons. reflexivity. Qed.
Lemma ravel_nil idx : ravel [] idx = 0.
Proof. reflexivity. Qed.

Lemma ravel_lt sh : forall idx, valid sh idx -> ravel sh idx < numel sh.
Proof.
  induction sh as [|d sh IH]; intros idx H; inversion H; subst.
  - rewrite ravel_nil, numel_nil. lia.
  - rewrite ravel_cons, numel_cons. apply IH in H4. nia.
Qed.

(** [offsetToIndices] unfolded from the front. *)
Definition o2i_loop (shape : list nat) (offset : nat) :=
  fold_right (fun d acc => (fst acc / d, fst acc mod d :: snd acc)) (offset, @nil nat) shape.
Lemma o2i_fst s off : numel s <> 0 -> fst (o2i_loop s off) = off / numel s.
Proof.
  induction s as [|d s IH]; intro H; [rewrite numel_nil, Nat.div_1_r; auto|]; simpl.
  rewrite numel_cons in *. assert (numel s <> 0 /\ d <> 0) as [H1 H2] by nia.
  rewrite IH by auto. rewrite (Nat.mul_comm d), Nat.div_div; auto.
Qed.
Lemma o2i_cons d s off : numel s <> 0 ->
  offsetToIndices (d :: s) off = (off / numel s) mod d :: offsetToIndices s off.
Proof. intro H. unfold offsetToIndices. simpl. fold (o2i_loop s off). rewrite o2i_fst by auto. reflexivity. Qed.

Lemma o2i_mod s : forall off, numel s <> 0 -> offsetToIndices s off = offsetToIndices s (off mod numel s).
Proof.
  induction s as [|d s IH]; intros off H; auto.
  rewrite numel_cons in *. assert (numel s <> 0 /\ d <> 0) as [H1 H2] by nia.
  rewrite !o2i_cons by auto. rewrite IH by auto. rewrite (IH (off mod (d * numel s))) by auto.
  f_equal.
  - rewrite (Nat.mul_comm d). rewrite Nat.mod_mul_r by auto.
    rewrite Nat.add_comm, Nat.mul_comm, Nat.div_add_l by auto.
    rewrite (Nat.div_small (off mod numel s)) by (apply Nat.mod_upper_bound; auto).
    rewrite Nat.add_0_r. rewrite Nat.mod_mod by auto. reflexivity.
  - f_equal. rewrite (Nat.mul_comm d). rewrite Nat.mod_mul_r by auto.
    rewrite Nat.mul_comm, Nat.mod_add by auto. rewrite Nat.mod_mod by auto. reflexivity.
Qed.

Lemma o2i_valid s : forall off, off < numel s -> valid s (offsetToIndices s off).
Proof.
  induction s as [|d s IH]; intros off H; [constructor|].
  rewrite numel_cons in H. assert (numel s <> 0 /\ d <> 0) as [H1 H2] by nia.
  rewrite o2i_cons, o2i_mod by auto. constructor.
  - apply Nat.mod_upper_bound; auto.
  - apply IH. apply Nat.mod_upper_bound; auto.
Qed.

Lemma ravel_o2i s : forall off, off < numel s -> ravel s (offsetToIndices s off) = off.
Proof.
  induction s as [|d s IH]; intros off H.
  - rewrite numel_nil in H. rewrite ravel_nil. lia.
  - rewrite numel_cons in H. assert (numel s <> 0 /\ d <> 0) as [H1 H2] by nia.
    rewrite o2i_cons by auto. rewrite ravel_cons. rewrite (o2i_mod s) by auto.
    rewrite IH by (apply Nat.mod_upper_bound; auto).
    rewrite Nat.mod_small by (apply Nat.div_lt_upper_bound; [auto|lia]).
    rewrite (Nat.div_mod off (numel s)) at 3 by auto. lia.
Qed.

Lemma o2i_ravel s : forall idx, valid s idx -> offsetToIndices s (ravel s idx) = idx.
Proof.
  induction s as [|d s IH]; intros idx H; inversion H; subst; auto.
  rename x into i, l into idx. pose proof (ravel_lt s idx H4) as Hlt.
  rewrite ravel_cons. rewrite o2i_cons by lia. rewrite o2i_mod by lia.
  rewrite (Nat.add_comm (i * numel s)).
  rewrite Nat.div_add, Nat.mod_add by lia. rewrite (Nat.mod_small (ravel s idx)) by auto.
  rewrite (Nat.div_small (ravel s idx)) by auto. simpl. rewrite Nat.mod_small by auto. rewrite IH by auto. reflexivity.
Qed.

(** The row-major enumeration. *)
Lemma flat_map_nth {A B} (f : A -> list B) m : forall l k,
  (forall x, In x l -> length (f x) = m) -> m <> 0 ->
  nth_error (flat_map f l) k =
  match nth_error l (k / m) with Some x => nth_error (f x) (k mod m) | None => None end.
Proof.
  induction l as [|x l IH]; intros k Hl Hm; simpl.
  - destruct (k / m), k; reflexivity.
  - assert (Hx : length (f x) = m) by (apply Hl; left; auto).
    destruct (Nat.lt_ge_cases k m) as [Hk|Hk].
    + rewrite Nat.div_small, Nat.mod_small by auto. simpl. apply nth_error_app1. lia.
    + rewrite nth_error_app2 by lia. rewrite Hx. rewrite IH; auto; [|intros; apply Hl; right; auto].
      replace (k / m) with (S ((k - m) / m)).
      2: { replace (k / m) with (((k - m) + 1 * m) / m) by (f_equal; lia). rewrite Nat.div_add by auto. lia. }
      replace (k mod m) with ((k - m) mod m).
      2: { replace (k mod m) with (((k - m) + 1 * m) mod m) by (f_equal; lia). rewrite Nat.mod_add by auto. lia. }
      reflexivity.
Qed.
Lemma indices_length s : length (indices s) = numel s.
Proof.
  induction s as [|d s IH]; auto. simpl. rewrite numel_cons. generalize 0 as a.
  induction d as [|d IHd]; intro a; simpl; auto. rewrite app_length, map_length, IHd, IH. reflexivity.
Qed.
Lemma nth_error_seq n : forall a i, nth_error (seq a n) i = if i <? n then Some (a + i) else None.
Proof.
  induction n as [|n IH]; intros a i; simpl; [destruct i; reflexivity|].
  destruct i as [|i]; simpl; [rewrite Nat.add_0_r; reflexivity|]. rewrite IH.
  change (S i <? S n) with (i <? n). destruct (i <? n); auto. f_equal. lia.
Qed.
Lemma indices_nth s : forall k, k < numel s -> nth_error (indices s) k = Some (offsetToIndices s k).
Proof.
  induction s as [|d s IH]; intros k H.
  - rewrite numel_nil in H. replace k with 0 by lia. reflexivity.
  - rewrite numel_cons in H. assert (numel s <> 0 /\ d <> 0) as [H1 H2] by nia.
    simpl indices. rewrite (flat_map_nth _ (numel s)); auto; [|intros; rewrite map_length; apply indices_length].
    assert (k / numel s < d) by (apply Nat.div_lt_upper_bound; [auto|lia]).
    rewrite nth_error_seq. destruct (Nat.ltb_spec (k / numel s) d); [|lia]. rewrite Nat.add_0_l.
    rewrite nth_error_map. rewrite IH by (apply Nat.mod_upper_bound; auto). simpl.
    rewrite o2i_cons by auto. rewrite (o2i_mod s k) by auto. rewrite (Nat.mod_small (k / numel s)) by auto. reflexivity.
Qed.
Lemma indices_in s idx : In idx (indices s) <-> valid s idx.
Proof.
  split.
  - intro H. apply In_nth_error in H. destruct H as (k & Hk).
    assert (k < numel s) by (rewrite <- indices_length; apply nth_error_Some; congruence).
    rewrite indices_nth in Hk by auto. injection Hk as <-. apply o2i_valid; auto.
  - intro H. apply nth_error_In with (n := ravel s idx). rewrite indices_nth by (apply ravel_lt; auto).
    rewrite o2i_ravel; auto.
Qed.
Lemma indices_nodup s : NoDup (indices s).
Proof.
  apply NoDup_nth_error. intros i j Hi E. rewrite indices_length in Hi.
  rewrite indices_nth in E by auto.
  assert (j < numel s) as Hj. { rewrite <- indices_length. apply nth_error_Some. congruence. }
  rewrite indices_nth in E by auto. injection E as E.
  rewrite <- (ravel_o2i s i), <- (ravel_o2i s j), E; auto.
Qed.

Lemma rowmajor_bijection : forall sh,
  (forall idx, valid sh idx ->
     indicesToOffset (strides sh) idx < numel sh
     /\ offsetToIndices sh (indicesToOffset (strides sh) idx) = idx
     /\ nth_error (indices sh) (indicesToOffset (strides sh) idx) = Some idx)
  /\ (forall off, off < numel sh ->
     valid sh (offsetToIndices sh off)
     /\ indicesToOffset (strides sh) (offsetToIndices sh off) = off)
  /\ length (indices sh) = numel sh.
Proof.
  intro sh. fold (ravel sh). split; [|split].
  - intros idx H. change (indicesToOffset (strides sh) idx) with (ravel sh idx).
    split; [apply ravel_lt; auto|]. split; [apply o2i_ravel; auto|].
    rewrite indices_nth by (apply ravel_lt; auto). rewrite o2i_ravel; auto.
  - intros off H. split; [apply o2i_valid; auto|]. apply ravel_o2i; auto.
  - apply indices_length.
Qed.

(** * Reshape *)
Local Open Scope Z_scope.
Lemma fold_left_mulZ l : forall a, fold_left Z.mul l a = a * fold_left Z.mul l 1.
Proof. induction l as [|d l IH]; intro a; cbn [fold_left]; [lia|]. rewrite IH, (IH (1 * d)). lia. Qed.
Lemma numelZ_prod l : numelZ l = prod l.
Proof.
  unfold numelZ. induction l as [|d l IH]; [reflexivity|]. cbn [fold_left prod fold_right].
  rewrite fold_left_mulZ, IH. unfold prod. lia.
Qed.
Lemma prod_app a b : prod (a ++ b) = prod a * prod b.
Proof. unfold prod. induction a as [|x a IH]; cbn [app fold_right]; [lia|]. rewrite IH. lia. Qed.
Lemma prod_nonneg l : Forall (fun d => 0 <= d) l -> 0 <= prod l.
Proof. induction 1 as [|d l Hd _ IH]; cbn; [lia|]. unfold prod in IH. nia. Qed.

Lemma scan_spec req : forall i inf cnt,
  match scan req i inf cnt with
  | None => (2 <= count_occ Z.eq_dec req (-1)%Z + (match inf with Some _ => 1 | None => 0 end))%nat
  | Some (inf', c, l) =>
      exists pre post l1 l2,
      (count_occ Z.eq_dec req (-1)%Z + (match inf with Some _ => 1 | None => 0 end) <= 1)%nat
      /\ length l = length req
      /\ (count_occ Z.eq_dec req (-1)%Z = 0%nat -> inf' = inf /\ l = req /\ c = cnt * prod req)
      /\ (count_occ Z.eq_dec req (-1)%Z = 1%nat ->
            inf' = Some (i + length pre)%nat /\ req = pre ++ (-1) :: post /\ l = pre ++ 0 :: post
            /\ c = cnt * (prod pre * prod post)
            /\ ~ In (-1) pre /\ ~ In (-1) post /\ l1 = pre /\ l2 = post)
  end.
Proof.
  induction req as [|d req IH]; intros i inf cnt; cbn [scan].
  - exists [], [], [], []. cbn. split; [destruct inf; lia|]. split; auto. split; [intros|]; try discriminate.
    repeat split; lia.
  - cbn [count_occ]. destruct (Z.eqb_spec d (-1)) as [->|N].
    + destruct (Z.eq_dec (-1) (-1)); [|congruence]. destruct inf as [k|].
      * lia.
      * specialize (IH (S i) (Some i) cnt). destruct (scan req (S i) (Some i) cnt) as [[[inf' c] l]|]; [|lia].
        destruct IH as (pre & post & l1 & l2 & H1 & H2 & H3 & H4).
        assert (E : count_occ Z.eq_dec req (-1)%Z = 0%nat) by lia. destruct (H3 E) as (-> & -> & ->).
        exists [], req, [], req. split; [lia|]. split; [cbn; auto|]. split; [lia|]. intros _.
        split; [cbn; f_equal; lia|]. split; auto. split; auto. split; [cbn [prod fold_right]; fold (prod req); lia|].
        split; [auto|]. split; auto. rewrite (count_occ_not_In Z.eq_dec). auto.
    + destruct (Z.eq_dec d (-1)); [congruence|].
      specialize (IH (S i) inf (cnt * d)). destruct (scan req (S i) inf (cnt * d)) as [[[inf' c] l]|]; [|lia].
      destruct IH as (pre & post & l1 & l2 & H1 & H2 & H3 & H4).
      exists (d :: pre), post, (d :: pre), post. split; [lia|]. split; [cbn; auto|]. split.
      * intros E. destruct (H3 E) as (-> & -> & ->). split; auto. split; auto. cbn [prod fold_right]. fold (prod req). lia.
      * intros E. destruct (H4 E) as (-> & -> & -> & -> & H5 & H6 & _). split; [f_equal; cbn; lia|].
        split; auto. split; auto. split; [cbn [prod fold_right]; fold (prod pre); lia|]. split; [|auto].
        intros [|]; auto.
Qed.

Lemma set_nth_app {A} (a b : list A) x v : set_nth (a ++ x :: b) (length a) v = a ++ v :: b.
Proof. induction a as [|y a IH]; simpl; auto. rewrite IH; auto. Qed.

Lemma resolves_none req n sh : ~ In (-1) req -> resolves req n sh -> sh = req /\ prod req = n.
Proof.
  intros Hn (H1 & H2 & _). assert (sh = req); [|subst; auto]. clear H2.
  induction H1 as [|r s req sh H _ IH]; auto. destruct (Z.eqb_spec r (-1)); subst.
  - exfalso. apply Hn. left; auto.
  - f_equal. apply IH. intro; apply Hn; right; auto.
Qed.
Lemma resolves_self req n : ~ In (-1) req -> prod req = n -> resolves req n req.
Proof.
  intros Hn <-. split; [|split; auto].
  - induction req as [|r req IH]; constructor.
    + destruct (Z.eqb_spec r (-1)); auto. subst. exfalso; apply Hn; left; auto.
    + apply IH. intro; apply Hn; right; auto.
  - apply (count_occ_not_In Z.eq_dec) in Hn. lia.
Qed.
Lemma f2_self pre : ~ In (-1) pre -> Forall2 (fun r s => if r =? -1 then 0 <= s else s = r) pre pre.
Proof. intro H. exact (proj1 (resolves_self pre _ H eq_refl)). Qed.
Lemma resolves_one pre post n sh : ~ In (-1) pre -> ~ In (-1) post ->
  resolves (pre ++ -1 :: post) n sh <-> exists s, 0 <= s /\ sh = pre ++ s :: post /\ prod pre * prod post * s = n.
Proof.
  intros H1 H2. split.
  - intros (H & Hp & _). apply Forall2_app_inv_l in H. destruct H as (a & b & Ha & Hb & ->).
    inversion Hb; subst. cbn in H3.
    assert (Ea : a = pre).
    { apply (resolves_none pre (prod a)); auto. split; auto. split; auto.
      apply (count_occ_not_In Z.eq_dec) in H1. lia. }
    assert (Eb : l' = post).
    { apply (resolves_none post (prod l')); auto. split; auto. split; auto.
      apply (count_occ_not_In Z.eq_dec) in H2. lia. }
    subst. exists y. split; auto. split; auto. rewrite prod_app. cbn. fold (prod post). lia.
  - intros (s & Hs & -> & <-). split; [|split].
    + apply Forall2_app; [apply f2_self; auto|]. constructor; auto. apply f2_self; auto.
    + rewrite prod_app. cbn. fold (prod post). lia.
    + rewrite count_occ_app. cbn. apply (count_occ_not_In Z.eq_dec) in H1, H2.
      destruct (Z.eq_dec (-1) (-1)); [|congruence]. lia.
Qed.

Lemma reshape_nil {A} (t : view A) : reshape_ t [] = if vnumel t =? 1 then mkView [] [] (vnumel t) (vdata t) else t.
Proof. reflexivity. Qed.

(** The whole behaviour of a reshape request whose entries are >= -1. *)
Lemma reshape_cases {A} (t : view A) req : 0 <= vnumel t -> Forall (fun d => -1 <= d) req ->
  (forall sh, unique (resolves req (vnumel t)) sh -> reshape_ t req = mkView sh (stridesZ sh) (vnumel t) (vdata t))
  /\ ((~ exists sh, unique (resolves req (vnumel t)) sh) -> reshape_ t req = t).
Proof.
  intros Hn Hr. set (n := vnumel t) in *.
  destruct req as [|d0 req0].
  { rewrite reshape_nil. fold n. split.
    - intros sh ((H & Hp & _) & _). inversion H; subst. cbn in Hp. rewrite <- Hp. reflexivity.
    - intro H. destruct (Z.eqb_spec n 1) as [E|]; auto. exfalso. apply H. exists []. split.
      + apply resolves_self; auto.
      + intros sh Hs. apply resolves_none in Hs; auto. destruct Hs; auto. }
  unfold reshape_. set (req := d0 :: req0) in *. clearbody req. fold n.
  pose proof (scan_spec req 0%nat None 1) as HS.
  destruct (scan req 0 None 1) as [[[inf c] l]|].
  2: { split; auto. intros sh ((_ & _ & H) & _). lia. }
  destruct HS as (pre & post & l1 & l2 & H1 & H2 & H3 & H4).
  assert (Hc : count_occ Z.eq_dec req (-1) = 0%nat \/ count_occ Z.eq_dec req (-1) = 1%nat) by lia.
  destruct Hc as [Hc|Hc].
  - destruct (H3 Hc) as (-> & -> & ->). rewrite numelZ_prod.
    assert (Hi : ~ In (-1) req) by (apply (count_occ_not_In Z.eq_dec); auto).
    destruct (Z.eqb_spec (prod req) n) as [E|E].
    + split.
      * intros sh (Hs & _). apply resolves_none in Hs; auto. destruct Hs; subst; auto.
      * intro H; exfalso; apply H. exists req. split; [apply resolves_self; auto|].
        intros sh Hs. apply resolves_none in Hs; auto. destruct Hs; auto.
    + split; auto. intros sh (Hs & _). apply resolves_none in Hs; auto. destruct Hs; congruence.
  - destruct (H4 Hc) as (-> & -> & -> & -> & Hp1 & Hp2 & _). simpl plus.
    rewrite set_nth_app. rewrite Z.mul_1_l. set (c := prod pre * prod post) in *.
    assert (Hcp : 0 <= c).
    { apply Forall_app in Hr. destruct Hr as [R1 R2]. inversion R2; subst.
      unfold c. assert (forall l, Forall (fun d => -1 <= d) l -> ~ In (-1) l -> 0 <= prod l).
      { intros l H Hi. apply prod_nonneg. rewrite Forall_forall in *. intros x Hx. specialize (H x Hx).
        destruct (Z.eq_dec x (-1)); [subst; tauto|lia]. }
      assert (0 <= prod pre) by auto. assert (0 <= prod post) by auto. nia. }
    destruct (Z.eqb_spec c 0) as [E0|E0]; cbn [orb].
    + split; auto. intros sh (Hs & Hu). exfalso. pose proof Hs as Hs'.
      apply resolves_one in Hs'; auto. destruct Hs' as (s & Hs0 & -> & Hs1). fold c in Hs1.
      assert (Hr2 : resolves (pre ++ -1 :: post) n (pre ++ (s + 1) :: post)).
      { apply resolves_one; auto. exists (s + 1). fold c. split; [lia|]. split; auto. rewrite E0 in *. lia. }
      apply Hu in Hr2. apply app_inv_head in Hr2. injection Hr2. lia.
    + destruct (Z.eqb_spec (Z.rem n c) 0) as [Er|Er]; cbn [negb].
      * assert (Eq : n = c * Z.quot n c) by (pose proof (Z.quot_rem n c E0); lia).
        assert (Hq : 0 <= Z.quot n c) by (apply Z.quot_pos; lia).
        assert (Epr : prod (pre ++ Z.quot n c :: post) = n).
        { rewrite prod_app. cbn. fold (prod post). unfold c in *. nia. }
        rewrite numelZ_prod, Epr, Z.eqb_refl.
        assert (Hres : resolves (pre ++ -1 :: post) n (pre ++ Z.quot n c :: post)).
        { apply resolves_one; auto. exists (Z.quot n c). fold c. split; auto. }
        split.
        -- intros sh (_ & Hu). apply Hu in Hres. subst. reflexivity.
        -- intro H; exfalso; apply H. exists (pre ++ Z.quot n c :: post). split; auto.
           intros sh Hs. apply resolves_one in Hs; auto. destruct Hs as (s & Hs0 & -> & Hs1). fold c in Hs1.
           assert (s = Z.quot n c) by nia. subst. reflexivity.
      * split; auto. intros sh (Hs & _). exfalso. apply resolves_one in Hs; auto.
        destruct Hs as (s & Hs0 & -> & Hs1). fold c in Hs1. apply Er. rewrite <- Hs1, Z.mul_comm. apply Z.rem_mul; auto.
Qed.

(** Any request at all leaves the data, the element count and the consistency
    of shape, strides and element count alone. *)
Lemma reshape_any {A} (t : view A) req : vnumel t = prod (vshape t) -> vstrides t = stridesZ (vshape t) ->
  vdata (reshape_ t req) = vdata t /\ vnumel (reshape_ t req) = vnumel t
  /\ prod (vshape (reshape_ t req)) = vnumel t
  /\ vstrides (reshape_ t req) = stridesZ (vshape (reshape_ t req)).
Proof.
  intros Hn Hs. destruct req as [|d0 req0].
  - rewrite reshape_nil. destruct (Z.eqb_spec (vnumel t) 1); cbn; auto.
  - unfold reshape_. set (req := d0 :: req0). clearbody req.
    destruct (scan req 0 None 1) as [[[inf c] l]|]; [|auto].
    set (r' := match inf with None => Some l | Some i => _ end). destruct r' as [r'|]; auto.
    destruct (Z.eqb_spec (numelZ r') (vnumel t)); cbn; auto. rewrite <- numelZ_prod. auto.
Qed.

Lemma resolves_exact req n : Forall (fun d => 0 <= d) req -> prod req = n -> unique (resolves req n) req.
Proof.
  intros H E. assert (~ In (-1) req).
  { intro Hi. rewrite Forall_forall in H. apply H in Hi. lia. }
  split; [apply resolves_self; auto|]. intros sh Hs. apply resolves_none in Hs; auto. destruct Hs; auto.
Qed.
Lemma reshape_exact {A} (t : view A) req : 0 <= vnumel t -> Forall (fun d => 0 <= d) req -> prod req = vnumel t ->
  reshape_ t req = mkView req (stridesZ req) (vnumel t) (vdata t).
Proof.
  intros H1 H2 H3. apply (proj1 (reshape_cases t req H1 ltac:(eapply Forall_impl; [|exact H2]; simpl; intros; lia))).
  apply resolves_exact; auto.
Qed.

(** Ranges. *)
Lemma slice_in l : forall n from, 0 <= from -> from + Z.of_nat n <= Z.of_nat (length l) ->
  slice_ l from n = Some (firstn n (skipn (Z.to_nat from) l)).
Proof.
  induction n as [|n IH]; intros from H1 H2; simpl slice_; [reflexivity|].
  unfold at_. destruct (Z.ltb_spec from 0); [lia|]. rewrite IH by lia.
  destruct (nth_error l (Z.to_nat from)) as [x|] eqn:E.
  - replace (Z.to_nat (from + 1)) with (S (Z.to_nat from)) by lia.
    f_equal. clear -E. revert E. generalize (Z.to_nat from) as k. intros k E.
    assert (skipn k l = x :: skipn (S k) l) as ->; [|reflexivity].
    revert k E. induction l as [|y l IHl]; intros [|k] E; simpl in *; try discriminate.
    + injection E as ->. reflexivity.
    + apply IHl; auto.
  - apply nth_error_None in E. lia.
Qed.
Lemma range_in l a b : 0 <= a -> a <= b -> b <= Z.of_nat (length l) ->
  range l a b = Some (firstn (Z.to_nat (b - a)) (skipn (Z.to_nat a) l)).
Proof. intros. unfold range. apply slice_in; lia. Qed.
Lemma range_to_end l a : 0 <= a -> a <= Z.of_nat (length l) ->
  range l a (Z.of_nat (length l)) = Some (skipn (Z.to_nat a) l).
Proof.
  intros. rewrite range_in by lia. f_equal. apply firstn_all2. rewrite skipn_length. lia.
Qed.
Lemma range_from0 l b : 0 <= b -> b <= Z.of_nat (length l) -> range l 0 b = Some (firstn (Z.to_nat b) l).
Proof. intros. rewrite range_in by lia. rewrite Z.sub_0_r. reflexivity. Qed.

Lemma flatten_correct {A} (t : view A) (a b c : list Z) :
  wf t -> vshape t = a ++ b ++ c -> b <> [] ->
  flatten_ t (Z.of_nat (length a)) (Z.of_nat (length a + length b) - 1)
    = Some (newView (a ++ [prod b] ++ c) (vdata t)).
Proof.
  intros (W1 & W2 & W3 & W4) E Hb. unfold flatten_, dimZ. rewrite E in *. rewrite !app_length.
  assert (Hlb : (0 < length b)%nat) by (destruct b; [congruence|simpl; lia]).
  destruct (Z.ltb_spec (Z.of_nat (length a + length b) - 1) 0); [lia|].
  rewrite range_from0 by (rewrite ?app_length; lia).
  rewrite range_in by (rewrite ?app_length; lia).
  replace (Z.of_nat (length a + (length b + length c))) with (Z.of_nat (length (a ++ b ++ c))) by (rewrite !app_length; lia).
  rewrite range_to_end by (rewrite ?app_length; lia).
  replace (Z.to_nat (Z.of_nat (length a + length b) - 1 + 1 - Z.of_nat (length a))) with (length b) by lia.
  replace (Z.to_nat (Z.of_nat (length a + length b) - 1 + 1)) with (length a + length b)%nat by lia.
  rewrite !Nat2Z.id. rewrite firstn_app, Nat.sub_diag, firstn_all, app_nil_r.
  rewrite skipn_app, skipn_all, Nat.sub_diag. simpl skipn. cbn [app].
  rewrite firstn_app, Nat.sub_diag, firstn_all, app_nil_r.
  rewrite (app_assoc a b c), skipn_app, app_length, Nat.sub_diag.
  replace (length a + length b)%nat with (length (a ++ b)) by (rewrite app_length; auto). rewrite skipn_all. simpl.
  rewrite numelZ_prod. apply Forall_app in W1. destruct W1 as [W1 W5]. apply Forall_app in W5. destruct W5 as [W5 W6].
  assert (Ep : prod (a ++ prod b :: c) = vnumel t).
  { rewrite W2. rewrite !prod_app. cbn. fold (prod c). lia. }
  f_equal. rewrite reshape_exact.
  - unfold newView. rewrite numelZ_prod. f_equal; auto.
  - rewrite W2. rewrite !prod_app. apply prod_nonneg in W1, W5, W6. nia.
  - apply Forall_app. split; auto. constructor; auto. apply prod_nonneg; auto.
  - auto.
Qed.

Lemma flatten_to_end {A} (t : view A) (a b : list Z) e :
  wf t -> vshape t = a ++ b -> e < 0 ->
  flatten_ t (Z.of_nat (length a)) e = Some (newView (a ++ [prod b]) (vdata t)).
Proof.
  intros (W1 & W2 & W3 & W4) E He. unfold flatten_, dimZ. rewrite E in *.
  destruct (Z.ltb_spec e 0); [|lia].
  replace (Z.of_nat (length (a ++ b)) - 1 + 1) with (Z.of_nat (length (a ++ b))) by lia.
  rewrite range_from0 by (rewrite ?app_length; lia).
  rewrite !range_to_end by (rewrite ?app_length; lia).
  rewrite !Nat2Z.id, skipn_all. rewrite firstn_app, Nat.sub_diag, firstn_all, app_nil_r.
  rewrite skipn_app, skipn_all, Nat.sub_diag. simpl skipn. cbn [app].
  rewrite numelZ_prod. apply Forall_app in W1. destruct W1 as [W1 W5].
  assert (Ep : prod (a ++ [prod b]) = vnumel t).
  { rewrite W2. rewrite !prod_app. cbn. lia. }
  f_equal. rewrite reshape_exact.
  - unfold newView. rewrite numelZ_prod. f_equal; auto.
  - rewrite W2. rewrite !prod_app. apply prod_nonneg in W1, W5. nia.
  - apply Forall_app. split; auto. constructor; auto. apply prod_nonneg; auto.
  - auto.
Qed.

Lemma unsqueeze_correct {A} (t : view A) (a c : list Z) d : wf t -> vshape t = a ++ c ->
  (d = Z.of_nat (length a) \/ d = - Z.of_nat (length c) - 1) ->
  unsqueeze_ t d = Some (newView (a ++ [1] ++ c) (vdata t)).
Proof.
  intros (W1 & W2 & W3 & W4) E Hd. unfold unsqueeze_, dimZ. rewrite E in *. rewrite !app_length.
  destruct (Z.ltb_spec (Z.of_nat (length a + length c)) d); [lia|].
  destruct (Z.ltb_spec d (- Z.of_nat (length a + length c) - 1)); [lia|]. cbn [orb].
  replace (if d <? 0 then d + Z.of_nat (length a + length c) + 1 else d) with (Z.of_nat (length a))
    by (destruct (Z.ltb_spec d 0); lia).
  rewrite range_from0 by (rewrite ?app_length; lia).
  replace (Z.of_nat (length a + length c)) with (Z.of_nat (length (a ++ c))) by (rewrite !app_length; lia).
  rewrite range_to_end by (rewrite ?app_length; lia). rewrite Nat2Z.id.
  rewrite firstn_app, Nat.sub_diag, firstn_all, app_nil_r.
  rewrite skipn_app, skipn_all, Nat.sub_diag. simpl.
  assert (Ep : prod (a ++ 1 :: c) = vnumel t).
  { rewrite W2, !prod_app. cbn [prod fold_right]. fold (prod c). lia. }
  f_equal. rewrite reshape_exact.
  - unfold newView. rewrite numelZ_prod. f_equal; auto.
  - rewrite W2. apply prod_nonneg; auto.
  - apply Forall_app in W1. apply Forall_app. destruct W1. split; auto. constructor; [lia|auto].
  - auto.
Qed.
Lemma unsqueeze_bad {A} (t : view A) d : (dimZ t < d \/ d < - dimZ t - 1) -> unsqueeze_ t d = Some t.
Proof. intro H. unfold unsqueeze_. destruct (Z.ltb_spec (dimZ t) d), (Z.ltb_spec d (- dimZ t - 1)); auto; lia. Qed.

Lemma squeeze1_correct {A} (t : view A) (a : list Z) x c d : wf t -> vshape t = a ++ x :: c ->
  (d = Z.of_nat (length a) \/ d = - Z.of_nat (length c) - 1) ->
  squeeze1_ t d = Some (if x =? 1 then newView (a ++ c) (vdata t) else t).
Proof.
  intros (W1 & W2 & W3 & W4) E Hd. unfold squeeze1_, dimZ. rewrite E in *. rewrite !app_length. cbn [length].
  set (n := Z.of_nat (length a + S (length c))).
  destruct (Z.ltb_spec d (- n)); [lia|]. destruct (Z.leb_spec n d); [lia|]. cbn [orb].
  replace (if d <? 0 then d + n else d) with (Z.of_nat (length a))
    by (destruct (Z.ltb_spec d 0); lia).
  unfold at_. destruct (Z.ltb_spec (Z.of_nat (length a)) 0); [lia|]. rewrite Nat2Z.id.
  rewrite nth_error_app2 by lia. rewrite Nat.sub_diag. simpl nth_error.
  rewrite range_from0 by (rewrite ?app_length; lia). rewrite Nat2Z.id.
  replace n with (Z.of_nat (length (a ++ x :: c))) by (rewrite !app_length; cbn [length]; lia).
  rewrite range_to_end by (rewrite ?app_length; cbn [length]; lia).
  replace (Z.to_nat (Z.of_nat (length a) + 1)) with (length a + 1)%nat by lia.
  rewrite firstn_app, Nat.sub_diag, firstn_all, app_nil_r.
  rewrite skipn_app. rewrite skipn_all2 by lia. replace (length a + 1 - length a)%nat with 1%nat by lia.
  cbn [skipn app].
  destruct (Z.eqb_spec x 1) as [->|]; auto.
  assert (Ep : prod (a ++ c) = vnumel t).
  { rewrite W2, !prod_app. cbn [prod fold_right]. fold (prod c). lia. }
  f_equal. rewrite reshape_exact.
  - unfold newView. rewrite numelZ_prod. f_equal; auto.
  - rewrite W2. apply prod_nonneg; auto.
  - apply Forall_app in W1. apply Forall_app. destruct W1 as [? W1]. inversion W1; subst. split; auto.
  - auto.
Qed.
Lemma squeeze1_bad {A} (t : view A) d : (dimZ t <= d \/ d < - dimZ t) -> squeeze1_ t d = Some t.
Proof. intro H. unfold squeeze1_. destruct (Z.ltb_spec d (- dimZ t)), (Z.leb_spec (dimZ t) d); auto; lia. Qed.

Lemma keep_prod rank dims : forall sh i, prod (keep rank dims i sh) = prod sh.
Proof.
  induction sh as [|x r IH]; intro i; simpl; auto. unfold kept.
  destruct (Z.eqb_spec x 1); simpl andb; [|simpl; fold (prod (keep rank dims (i+1) r)); rewrite IH; auto].
  destruct (match dims with [] => true | _ => _ end); simpl negb; cbn [prod fold_right];
    fold (prod r); fold (prod (keep rank dims (i+1) r)); rewrite IH; lia.
Qed.
Lemma keep_nonneg rank dims : forall sh i, Forall (fun d => 0 <= d) sh -> Forall (fun d => 0 <= d) (keep rank dims i sh).
Proof.
  induction sh as [|x r IH]; intros i H; simpl; auto. inversion H; subst.
  destruct (kept rank dims i x); auto.
Qed.
Lemma squeeze_correct {A} (t : view A) dims : wf t ->
  squeeze_ t dims = newView (keep (dimZ t) dims 0 (vshape t)) (vdata t).
Proof.
  intros (W1 & W2 & W3 & W4).
  assert (E : squeeze_ t dims = reshape_ t (keep (dimZ t) dims 0 (vshape t))).
  { clear W1 W2 W3 W4. unfold squeeze_. generalize (dimZ t) as rk; intro rk. destruct dims as [|d0 dims0].
    - f_equal. generalize 0 as i. induction (vshape t) as [|x r IH]; intro i; simpl; auto.
      unfold kept. rewrite andb_true_r. destruct (x =? 1); simpl; [exact (IH _)|f_equal; exact (IH _)].
    - set (dims := d0 :: dims0) in *. f_equal. generalize 0 as i. induction (vshape t) as [|x r IH]; intro i; auto.
      cbn [keep squeeze_go]. unfold kept, should_squeeze. replace (match dims with [] => true | _ => existsb (fun d => norm rk d =? i) dims end)
        with (existsb (fun d => norm rk d =? i) dims) by reflexivity.
      rewrite <- IH. unfold norm.
      replace (existsb (fun d => ((if d <? 0 then d + rk else d) =? i) && (x =? 1)) dims)
        with ((x =? 1) && existsb (fun d => (if d <? 0 then d + rk else d) =? i) dims).
      2: { clear. induction dims as [|d dims IH]; cbn [existsb]; [destruct (x =? 1); auto|].
           rewrite <- IH. destruct (x =? 1); simpl; rewrite ?andb_true_r, ?andb_false_r; auto. }
      destruct ((x =? 1) && _); reflexivity. }
  rewrite E. assert (Ep : prod (keep (dimZ t) dims 0 (vshape t)) = vnumel t) by (rewrite keep_prod; auto).
  rewrite reshape_exact; auto.
  - unfold newView. rewrite numelZ_prod. f_equal; auto.
  - rewrite W2. apply prod_nonneg; auto.
  - apply keep_nonneg; auto.
Qed.

(** Unflatten. *)
Lemma last_inferred_none req : forall i acc, ~ In (-1) req -> last_inferred req i acc = acc.
Proof.
  induction req as [|d r IH]; intros i acc H; auto. cbn [last_inferred].
  destruct (Z.eqb_spec d (-1)); [subst; exfalso; apply H; left; auto|]. apply IH. intro; apply H; right; auto.
Qed.
Lemma last_inferred_one pre post : forall i acc, ~ In (-1) pre -> ~ In (-1) post ->
  last_inferred (pre ++ -1 :: post) i acc = Some (i + Z.of_nat (length pre)).
Proof.
  induction pre as [|d r IH]; intros i acc H1 H2.
  - cbn. rewrite last_inferred_none by auto. f_equal. lia.
  - cbn [last_inferred app]. destruct (Z.eqb_spec d (-1)); [subst; exfalso; apply H1; left; auto|].
    rewrite IH; auto; [|intro; apply H1; right; auto]. f_equal. cbn [length]. lia.
Qed.
Lemma prod_skip req : forall a, ~ In (-1) req ->
  fold_left (fun acc x => if x =? -1 then acc else acc * x) req a = a * prod req.
Proof.
  induction req as [|d r IH]; intros a H; cbn [fold_left prod fold_right]; [lia|].
  destruct (Z.eqb_spec d (-1)); [subst; exfalso; apply H; left; auto|]. rewrite IH; [|intro; apply H; right; auto].
  unfold prod. lia.
Qed.
Lemma map_skip req : ~ In (-1) req -> map (fun x => if x =? -1 then 0 else x) req = req.
Proof.
  induction req as [|d r IH]; intros H; simpl; auto.
  destruct (Z.eqb_spec d (-1)); [subst; exfalso; apply H; left; auto|]. f_equal. apply IH. intro; apply H; right; auto.
Qed.
Lemma split_one req : count_occ Z.eq_dec req (-1)%Z = 1%nat ->
  exists pre post, req = pre ++ -1 :: post /\ ~ In (-1) pre /\ ~ In (-1) post.
Proof.
  induction req as [|d r IH]; cbn [count_occ]; [discriminate|]. destruct (Z.eq_dec d (-1)) as [->|N]; intro H.
  - exists [], r. split; auto. split; auto. apply (count_occ_not_In Z.eq_dec). lia.
  - destruct (IH H) as (pre & post & -> & H1 & H2). exists (d :: pre), post. split; auto. split; auto.
    intros [|]; auto.
Qed.
Lemma set_nth_app2 {A} (a b : list A) k v : set_nth (a ++ b) (length a + k) v = a ++ set_nth b k v.
Proof. induction a as [|x a IH]; simpl; auto. rewrite IH; auto. Qed.

Lemma unflatten_correct {A} (t : view A) (a : list Z) x c d req :
  wf t -> vshape t = a ++ x :: c -> (d = Z.of_nat (length a) \/ d = - Z.of_nat (length c) - 1) ->
  Forall (fun r => -1 <= r) req -> (count_occ Z.eq_dec req (-1)%Z <= 1)%nat ->
  (forall sh, unique (resolves req x) sh -> unflatten_ t d req = Some (newView (a ++ sh ++ c) (vdata t)))
  /\ ((~ exists sh, unique (resolves req x) sh) -> unflatten_ t d req = Some t).
Proof.
  intros (W1 & W2 & W3 & W4) E Hd Hr Hcnt. unfold unflatten_, dimZ. rewrite E in *. rewrite !app_length. cbn [length].
  set (n := Z.of_nat (length a + S (length c))).
  replace (if d <? 0 then d + n else d) with (Z.of_nat (length a))
    by (destruct (Z.ltb_spec d 0); lia).
  unfold at_. destruct (Z.ltb_spec (Z.of_nat (length a)) 0); [lia|]. rewrite Nat2Z.id.
  rewrite nth_error_app2 by lia. rewrite Nat.sub_diag. simpl nth_error.
  rewrite range_from0 by (rewrite ?app_length; lia). rewrite Nat2Z.id.
  replace n with (Z.of_nat (length (a ++ x :: c))) by (rewrite !app_length; cbn [length]; lia).
  rewrite range_to_end by (rewrite ?app_length; cbn [length]; lia).
  replace (Z.to_nat (Z.of_nat (length a) + 1)) with (length a + 1)%nat by lia.
  rewrite firstn_app, Nat.sub_diag, firstn_all, app_nil_r.
  rewrite skipn_app. rewrite skipn_all2 by lia. replace (length a + 1 - length a)%nat with 1%nat by lia.
  cbn [skipn app].
  assert (W1' : Forall (fun d => 0 <= d) a /\ 0 <= x /\ Forall (fun d => 0 <= d) c).
  { apply Forall_app in W1. destruct W1 as [Wa Wc]. inversion Wc; auto. }
  destruct W1' as (Wa & Wx & Wc).
  assert (Hn : 0 <= vnumel t) by (rewrite W2; apply prod_nonneg; auto).
  assert (Hdone : forall sh, Forall (fun d => 0 <= d) sh -> prod sh = x ->
            reshape_ t (a ++ sh ++ c) = newView (a ++ sh ++ c) (vdata t)).
  { intros sh Hsh Hp. assert (Ep : prod (a ++ sh ++ c) = vnumel t).
    { rewrite W2, !prod_app. cbn [prod fold_right]. fold (prod c). rewrite Hp. reflexivity. }
    rewrite reshape_exact; auto.
    - unfold newView. rewrite numelZ_prod. f_equal; auto.
    - apply Forall_app; split; auto. apply Forall_app; auto. }
  assert (Hnn : forall l, Forall (fun r => -1 <= r) l -> ~ In (-1) l -> Forall (fun d => 0 <= d) l).
  { intros l H1 Hi. rewrite Forall_forall in *. intros y Hy. specialize (H1 y Hy).
    destruct (Z.eq_dec y (-1)); [subst; tauto|lia]. }
  assert (Hc : count_occ Z.eq_dec req (-1)%Z = 0%nat \/ count_occ Z.eq_dec req (-1)%Z = 1%nat) by lia.
  destruct Hc as [Hc|Hc].
  - apply (count_occ_not_In Z.eq_dec) in Hc. rewrite last_inferred_none, prod_skip, map_skip, Z.mul_1_l by auto.
    destruct (Z.eqb_spec (prod req) x) as [Ep|Ep].
    + rewrite Hdone; auto. split.
      * intros sh (Hs & _). apply resolves_none in Hs; auto. destruct Hs as [-> _]. auto.
      * intro H1; exfalso; apply H1. exists req. apply resolves_exact; auto.
    + split; auto. intros sh (Hs & _). apply resolves_none in Hs; auto. destruct Hs; congruence.
  - destruct (split_one req Hc) as (pre & post & -> & Hp1 & Hp2).
    rewrite last_inferred_one by auto.
    rewrite fold_left_app. cbn [fold_left]. change (-1 =? -1) with true. cbv iota.
    rewrite !prod_skip, Z.mul_1_l by auto. rewrite map_app. cbn [map]. change (-1 =? -1) with true. cbv iota.
    rewrite !map_skip by auto. set (k := prod pre * prod post).
    apply Forall_app in Hr. destruct Hr as [R1 R2]. inversion R2; subst.
    assert (Hk : 0 <= k).
    { unfold k. assert (0 <= prod pre) by (apply prod_nonneg; auto). assert (0 <= prod post) by (apply prod_nonneg; auto). nia. }
    destruct (Z.eqb_spec k 0) as [E0|E0]; cbn [orb].
    + split; auto. intros sh (Hs & Hu). exfalso. pose proof Hs as Hs'.
      apply resolves_one in Hs'; auto. destruct Hs' as (s & Hs0 & -> & Hs1). fold k in Hs1.
      assert (Hr2 : resolves (pre ++ -1 :: post) x (pre ++ (s + 1) :: post)).
      { apply resolves_one; auto. exists (s + 1). fold k. split; [lia|]. split; auto. rewrite E0 in *. lia. }
      apply Hu in Hr2. apply app_inv_head in Hr2. injection Hr2. lia.
    + destruct (Z.eqb_spec (Z.rem x k) 0) as [Er|Er]; cbn [negb].
      * assert (Eq : x = k * Z.quot x k) by (pose proof (Z.quot_rem x k E0); lia).
        assert (Hq : 0 <= Z.quot x k) by (apply Z.quot_pos; lia).
        replace (Z.to_nat (Z.of_nat (length a) + Z.of_nat (length pre))) with (length a + length pre)%nat by lia.
        rewrite set_nth_app2, set_nth_app. rewrite <- app_assoc.
        assert (Hres : resolves (pre ++ -1 :: post) x (pre ++ Z.quot x k :: post)).
        { apply resolves_one; auto. exists (Z.quot x k). fold k. split; auto. }
        rewrite Hdone.
        2: { apply Forall_app; split; auto. }
        2: { destruct Hres as (_ & Hres & _). auto. }
        split.
        -- intros sh (_ & Hu). apply Hu in Hres. subst. reflexivity.
        -- intro H1; exfalso; apply H1. exists (pre ++ Z.quot x k :: post). split; auto.
           intros sh Hs. apply resolves_one in Hs; auto. destruct Hs as (s & Hs0 & -> & Hs1). fold k in Hs1.
           assert (Es : s = Z.quot x k) by nia. rewrite Es. reflexivity.
      * split; auto. intros sh (Hs & _). exfalso. apply resolves_one in Hs; auto.
        destruct Hs as (s & Hs0 & -> & Hs1). fold k in Hs1. apply Er. rewrite <- Hs1, Z.mul_comm. apply Z.rem_mul; auto.
Qed.

(** Views over storage. *)
Lemma view_inside shape esz offset size : Forall (fun d => 0 <= d) shape -> 0 < esz ->
  (offset = 0 \/ (esz = 1 /\ 0 <= offset)) ->
  (view_check shape esz offset size = true <->
   0 <= fst (view_bytes shape esz offset)
   /\ fst (view_bytes shape esz offset) + snd (view_bytes shape esz offset) <= size).
Proof.
  intros H1 H2 H3. unfold view_check, view_bytes. cbn. rewrite Z.leb_le.
  destruct H3 as [->|[-> H3]]; lia.
Qed.
