(** Programs: shapes, values and derivatives. *)
From Coq Require Import ZArith List Bool Arith Lia Reals Lra.
From Verif Require Import ShapeModel ShapeSpec ShapeProofs TensorModel TensorSpec TensorLemmas BcastModel BcastSpec BcastProofs BcastProofs2 BufModel CutModel ReduceModel GradModel GradProofs AutogradModel
  NetModel NetSpec NetProofs NetLaw NetOps3 NetOps4.
Import ListNotations.
Local Notation Rsum := (sum (K := Rring)).
Local Open Scope nat_scope.

Lemma picked : forall {A} (l : list A) xs sel, seqopt (map (nth_error l) xs) = Some sel ->
  length sel = length xs /\ (forall k x, nth_error xs k = Some x -> exists a, nth_error sel k = Some a /\ nth_error l x = Some a).
Proof.
  intros A l xs sel E. apply seqopt_some_iff in E. assert (L : length sel = length xs) by (rewrite <- (map_length Some sel), <- E, map_length; auto). split; auto.
  intros k x Hk. assert (Q : nth_error (map (nth_error l) xs) k = Some (nth_error l x)) by (rewrite nth_error_map, Hk; auto).
  rewrite E, nth_error_map in Q. destruct (nth_error sel k) as [a|]; [|discriminate]. cbn in Q. injection Q as Q. eauto.
Qed.
Lemma pick_more : forall {A} (l e : list A) xs sel, seqopt (map (nth_error l) xs) = Some sel -> seqopt (map (nth_error (l ++ e)) xs) = Some sel.
Proof.
  intros A l e xs sel E. apply seqopt_some_iff in E. apply seqopt_some_iff. rewrite <- E. apply map_ext_in. intros x Hx.
  apply nth_error_app1. apply nth_error_Some. intros N. assert (H : In (nth_error l x) (map (nth_error l) xs)) by (apply in_map; auto). rewrite E, N in H. apply in_map_iff in H. destruct H as (? & H & _). discriminate.
Qed.
Lemma pick_lt : forall {A} (l : list A) xs sel, seqopt (map (nth_error l) xs) = Some sel -> forall x, In x xs -> x < length l.
Proof. intros A l xs sel E x Hx. apply In_nth_error in Hx. destruct Hx as (k & Hk). destruct (proj2 (picked _ _ _ E) k x Hk) as (a & _ & Ha). apply nth_error_Some. congruence. Qed.
Lemma pick_ok : forall {A} (l : list A) xs, (forall x, In x xs -> x < length l) -> exists sel, seqopt (map (nth_error l) xs) = Some sel.
Proof.
  intros A l xs. induction xs as [|x xs IH]; intros H; [exists []; auto|]. destruct IH as (sel & E); [intros; apply H; right; auto|].
  destruct (nth_error l x) as [a|] eqn:Ea; [|apply nth_error_None in Ea; specialize (H x (or_introl eq_refl)); lia]. exists (a :: sel). apply seqopt_some_iff in E. apply seqopt_some_iff. cbn [map]. rewrite Ea, E. auto.
Qed.
Lemma nth_mid : forall {A} (l : list A) a e, nth_error (l ++ a :: e) (length l) = Some a.
Proof. intros. rewrite nth_error_app2 by lia. rewrite Nat.sub_diag. auto. Qed.

(** * Shapes *)
Definition kind_at (ts : list kind) (i : nat) (s : stmt) : Prop :=
  match s with
  | SLeaf sh r => nth_error ts i = Some (sh, r)
  | SApply op xs => exists sel sh, kinds_of ts xs = Some sel /\ (forall x, In x xs -> x < i) /\ accepts op sel sh /\ nth_error ts i = Some (sh, existsb snd sel)
  end.
Lemma typed_more : forall p ks ts, typed p ks ts -> exists e, ts = ks ++ e /\ length e = length p.
Proof.
  intros p ks ts H. induction H as [|sh r p ks ks' _ (e & -> & L)|op xs p ks ks' sel sh _ _ _ (e & -> & L)].
  - exists []. rewrite app_nil_r. auto.
  - exists ((sh, r) :: e). rewrite <- app_assoc. cbn. auto.
  - exists ((sh, existsb snd sel) :: e). rewrite <- app_assoc. cbn. auto.
Qed.
Lemma typed_at : forall p ks ts, typed p ks ts -> forall i s, nth_error p i = Some s -> kind_at ts (length ks + i) s.
Proof.
  intros p ks ts H. induction H as [|sh r p ks ks' H IH|op xs p ks ks' sel sh Hk Ha H IH]; intros i s E; [destruct i; discriminate| |].
  - destruct i as [|i]; cbn in E.
    + injection E as <-. destruct (typed_more _ _ _ H) as (e & -> & _). cbn [kind_at]. rewrite Nat.add_0_r, <- app_assoc. apply nth_mid.
    + specialize (IH i s E). rewrite app_length in IH. cbn in IH. replace (length ks + 1 + i) with (length ks + S i) in IH by lia. auto.
  - destruct i as [|i]; cbn in E.
    + injection E as <-. destruct (typed_more _ _ _ H) as (e & -> & _). cbn [kind_at]. rewrite Nat.add_0_r. exists sel, sh. split; [|split; [|split]]; auto.
      * rewrite <- app_assoc. apply pick_more. auto.
      * eapply pick_lt; eauto.
      * rewrite <- app_assoc. apply nth_mid.
    + specialize (IH i s E). rewrite app_length in IH. cbn in IH. replace (length ks + 1 + i) with (length ks + S i) in IH by lia. auto.
Qed.

(** * Running *)
Definition fits (nd : node) (kd : kind) : Prop := tshape (nval nd) = fst kd /\ length (tdata (nval nd)) = numel (fst kd) /\ nreq nd = snd kd.
Definition canon (sh : list nat) (d : list R) : tens := fun i => nth (ravel sh i) d 0%R.
Lemma canon_of : forall sh d, length d = numel sh -> mkT sh d = tensor_of sh (canon sh d).
Proof.
  intros sh d L. unfold tensor_of, canon. f_equal. rewrite <- (indices_seq sh), map_map. transitivity (map (fun n => nth n d 0%R) (seq 0 (numel sh))).
  - rewrite <- L. clear. induction d as [|x d IH]; auto. cbn [length seq map nth]. f_equal. rewrite <- seq_shift, map_map. exact IH.
  - apply map_ext_in. intros n Hn. apply in_seq in Hn. rewrite ravel_o2i by lia. auto.
Qed.
Lemma fits_of : forall nd kd, fits nd kd -> nval nd = tensor_of (fst kd) (canon (fst kd) (tdata (nval nd))).
Proof. intros nd kd (E & L & _). rewrite <- canon_of by auto. rewrite <- E. destruct (nval nd); auto. Qed.
(** The arguments of a function. *)
Lemma args_fit : forall (sel : list node) (ks : list kind) (X : nat -> tens) s, Forall2 fits sel ks ->
  (forall k nd kd, nth_error sel k = Some nd -> nth_error ks k = Some kd -> forall i, valid (fst kd) i -> X (s + k) i = canon (fst kd) (tdata (nval nd)) i) ->
  map nval sel = map (fun q => tensor_of (fst (snd q)) (X (fst q))) (combine (seq s (length ks)) ks).
Proof.
  intros sel ks X s H. revert s. induction H as [|nd kd sel ks H _ IH]; intros s HX; auto. cbn [map length seq combine fst snd]. f_equal.
  - rewrite (fits_of nd kd H) at 1. apply tensor_of_ext. intros i V. rewrite <- (HX 0 nd kd) by auto. rewrite Nat.add_0_r. auto.
  - apply IH. intros k nd' kd' E1 E2 i V. specialize (HX (S k) nd' kd' E1 E2 i V). replace (S s + k) with (s + S k) by lia. auto.
Qed.
Lemma forall2_pick : forall st ks xs sel ksel, Forall2 fits st ks -> seqopt (map (nth_error st) xs) = Some sel -> seqopt (map (nth_error ks) xs) = Some ksel -> Forall2 fits sel ksel.
Proof.
  intros st ks xs. induction xs as [|x xs IH]; intros sel ksel HF E1 E2; apply seqopt_some_iff in E1, E2.
  - destruct sel, ksel; try discriminate. constructor.
  - destruct sel as [|a sel], ksel as [|b ksel]; try discriminate. cbn [map] in E1, E2. injection E1 as Ea E1. injection E2 as Eb E2. constructor.
    + clear - HF Ea Eb. revert x Ea Eb. induction HF; intros [|j] Ea Eb; cbn in *; try discriminate; [congruence|eauto].
    + apply IH; auto; apply seqopt_some_iff; auto.
Qed.
Lemma record_req : forall M op sel xs out ksel, Forall2 fits sel ksel -> length sel = length xs -> nreq (record M op sel xs out) = existsb snd ksel /\ nval (record M op sel xs out) = out.
Proof.
  intros M op sel xs out ksel HF HL. unfold record.
  set (h := fun q : nat * nat * node => if nreq (snd q) then [delivers M op (map nval sel) out (fst (fst q)) (snd (fst q))] else []).
  assert (Q : forall s (ys : list nat) sl kl, Forall2 fits sl kl -> length sl = length ys -> (flat_map h (combine (combine (seq s (length ys)) ys) sl) = [] <-> existsb snd kl = false)).
  { intros s ys sl kl H. revert s ys. induction H as [|nd kd sl kl (_ & _ & Hr) _ IH]; intros s ys L; [destruct ys; [|discriminate]; cbn; tauto|].
    destruct ys as [|y ys]; [discriminate|]. cbn [length seq combine flat_map existsb]. unfold h at 1. cbn [snd fst]. rewrite Hr. destruct (snd kd); cbn; [split; discriminate|]. apply IH. cbn in L. lia. }
  specialize (Q 0 xs sel ksel HF HL). destruct (flat_map h _) as [|d ds]; cbn [nreq nval].
  - rewrite (proj1 Q eq_refl). auto.
  - destruct (existsb snd ksel); auto. discriminate (proj2 Q eq_refl).
Qed.
Definition full (p : list stmt) (s : nat) (theta : nat -> list R) : Prop := forall l sh r, nth_error p l = Some (SLeaf sh r) -> length (theta (s + l)) = numel sh.
Definition node_at (M lo : R) (theta : nat -> list R) (st : list node) (i : nat) (s : stmt) : Prop :=
  match s with
  | SLeaf sh r => nth_error st i = Some (Node (mkT sh (theta i)) r FLeaf)
  | SApply op xs => exists sel out, select st xs = Some sel /\ forward lo M op (map nval sel) = Ok out /\ nth_error st i = Some (record M op sel xs out)
  end.
Lemma runs : forall lo M theta p ks ts, (0 <= M)%R -> typed p ks ts -> forall st, Forall2 fits st ks -> full p (length st) theta ->
  exists e, runFrom lo M theta p st = Ok (st ++ e) /\ Forall2 fits (st ++ e) ts /\ forall i s, nth_error p i = Some s -> node_at M lo theta (st ++ e) (length st + i) s.
Proof.
  intros lo M theta p ks ts HM H. induction H as [|sh r p ks ks' H IH|op xs p ks ks' sel sh Hk Ha H IH]; intros st HF HU.
  - exists []. rewrite app_nil_r. split; auto. split; auto. intros [|i] s E; discriminate.
  - set (nd := Node (mkT sh (theta (length st))) r FLeaf). destruct (IH (st ++ [nd])) as (e & E1 & E2 & E3).
    + apply Forall2_app; auto. constructor; auto. split; auto. split; auto. cbn. specialize (HU 0 sh r eq_refl). rewrite Nat.add_0_r in HU. auto.
    + intros l sh' r' El. specialize (HU (S l) sh' r' El). rewrite app_length. cbn. replace (length st + 1 + l) with (length st + S l) by lia. auto.
    + exists (nd :: e). rewrite <- app_assoc in E1, E2, E3. cbn in E1, E2, E3. split; [exact E1|]. split; auto. intros [|i] s Es.
      * injection Es as <-. cbn [node_at]. rewrite Nat.add_0_r. apply nth_mid.
      * specialize (E3 i s Es). rewrite app_length in E3. cbn in E3. replace (length st + 1 + i) with (length st + S i) in E3 by lia. auto.
  - assert (HL : length st = length ks) by (eapply Forall2_length; eauto).
    destruct (pick_ok st xs) as (nsel & En); [intros x Hx; rewrite HL; eapply pick_lt; eauto|].
    pose proof (forall2_pick _ _ _ _ _ HF En Hk) as HFs.
    destruct (every_law lo M op sel sh HM Ha) as (value & dot & grads & HV & _).
    set (X := fun k => match nth_error sel k, nth_error nsel k with Some kd, Some nd => canon (fst kd) (tdata (nval nd)) | _, _ => fun _ => 0%R end).
    assert (EA : map nval nsel = args sel X). { apply args_fit; auto. intros k nd kd H1 H2 i V. unfold X. cbn [Nat.add]. rewrite H2, H1. auto. }
    set (out := tensor_of sh (value X)). assert (EO : forward lo M op (map nval nsel) = Ok out) by (rewrite EA; apply HV).
    set (nd := record M op nsel xs out). destruct (record_req M op nsel xs out sel HFs) as [R1 R2]; [eapply picked; eauto|].
    destruct (IH (st ++ [nd])) as (e & E1 & E2 & E3).
    + apply Forall2_app; auto. constructor; auto. unfold nd. split; [|split]; auto; rewrite R2; auto. apply of_length.
    + intros l sh' r' El. specialize (HU (S l) sh' r' El). rewrite app_length. cbn. replace (length st + 1 + l) with (length st + S l) by lia. auto.
    + exists (nd :: e). rewrite <- app_assoc in E1, E2, E3. cbn in E1, E2, E3. split; [|split]; auto.
      * cbn [runFrom runStmt]. unfold select. rewrite En, EO. cbn [rbind]. exact E1.
      * intros [|i] s Es.
        -- injection Es as <-. cbn [node_at]. rewrite Nat.add_0_r. exists nsel, out. split; [apply pick_more; auto|]. split; auto. apply nth_mid.
        -- specialize (E3 i s Es). rewrite app_length in E3. cbn in E3. replace (length st + 1 + i) with (length st + S i) in E3 by lia. auto.
Qed.
