(** The recorded graph. *)
From Coq Require Import ZArith List Bool Arith Lia Reals Lra.
From Verif Require ProgProofs5.
From Verif Require Import ShapeModel ShapeSpec ShapeProofs TensorModel TensorSpec TensorLemmas BcastModel BcastSpec BcastProofs BcastProofs2 BufModel CutModel ReduceModel GradModel GradProofs AutogradModel AutogradSpec
  NetModel NetSpec NetProofs NetLaw NetOps3 NetOps4 NetProofs3 NetProofs4.
Import ListNotations.
Local Notation Rsum := (sum (K := Rring)).
Local Open Scope nat_scope.

Definition formed (osh : list nat) (t : tensor R) : bool := list_eqb (tshape t) osh && (length (tdata t) =? numel osh).
Lemma formed_iff : forall osh t, formed osh t = true <-> tshape t = osh /\ length (tdata t) = numel osh.
Proof. intros osh t. unfold formed, list_eqb. rewrite andb_true_iff, Nat.eqb_eq. destruct (list_eq_dec Nat.eq_dec (tshape t) osh); intuition congruence. Qed.
Lemma formed_of : forall osh t, formed osh t = true -> t = tensor_of osh (canon osh (tdata t)).
Proof. intros osh [s d] H. apply formed_iff in H. cbn in H. destruct H as [-> L]. cbn [tdata]. apply canon_of. auto. Qed.
Definition ideal (osh ksh : list nat) (gr : tens -> tens) (a : gval) : gval :=
  match a with GTensor t => if formed osh t then GTensor (tensor_of ksh (gr (canon osh (tdata t)))) else GBad | x => x end.
Lemma canon_plus : forall sh a b i, length a = numel sh -> length b = numel sh -> valid sh i -> canon sh (plusList a b) i = (canon sh a i + canon sh b i)%R.
Proof.
  intros sh a b i La Lb V. pose proof (ravel_lt _ _ V) as H. unfold canon. revert H. rewrite <- La in *. clear V La. generalize (ravel sh i). intros n Hn. assert (L : length a = length b) by auto. clear Lb. revert b n L Hn.
  induction a as [|x a IH]; intros [|y b] n L Hn; cbn in *; try lia. destruct n; auto. apply IH; lia.
Qed.
Lemma ideal_linear : forall osh ksh gr, (forall G H i, valid ksh i -> gr (fun o => G o + H o)%R i = (gr G i + gr H i)%R) ->
  (forall G H, (forall o, valid osh o -> G o = H o) -> forall i, valid ksh i -> gr G i = gr H i) -> AutogradSpec.linear (V := Tg) (ideal osh ksh gr).
Proof.
  intros osh ksh gr HA HE. split; auto. intros [|s|] [|t|]; cbn [gadd Tg addVal ideal]; auto.
  - destruct (formed osh s) eqn:E; auto.
  - destruct (sameForm s t) eqn:ES; cbn [ideal].
    + apply sameForm_iff in ES. destruct ES as [E1 E2]. destruct (formed osh s) eqn:Fs.
      * assert (Ft : formed osh t = true) by (apply formed_iff; apply formed_iff in Fs; split; destruct Fs; congruence). rewrite Ft.
        assert (Fp : formed osh (mkT (tshape s) (plusList (tdata s) (tdata t))) = true) by (apply formed_iff; apply formed_iff in Fs; cbn [tshape tdata]; rewrite plusList_length by auto; auto). rewrite Fp.
        etransitivity; [|symmetry; apply add_of]. f_equal. apply tensor_of_ext. intros i V. rewrite <- HA by auto. apply HE; auto. intros o Vo. cbn [tdata]. apply formed_iff in Fs, Ft. apply canon_plus; intuition.
      * assert (Ft : formed osh t = false). { destruct (formed osh t) eqn:X; auto. apply formed_iff in X. assert (formed osh s = true) by (apply formed_iff; split; destruct X; congruence). congruence. }
        assert (Fp : formed osh (mkT (tshape s) (plusList (tdata s) (tdata t))) = false).
        { destruct (formed osh (mkT _ _)) eqn:X; auto. apply formed_iff in X. cbn [tshape tdata] in X. rewrite plusList_length in X by auto. assert (formed osh s = true) by (apply formed_iff; auto). congruence. }
        rewrite Ft, Fp. auto.
    + destruct (formed osh s) eqn:Fs, (formed osh t) eqn:Ft; auto.
      apply formed_iff in Fs, Ft. assert (sameForm s t = true) by (apply sameForm_iff; split; destruct Fs, Ft; congruence). congruence.
  - destruct (formed osh s); auto.
  - destruct (formed osh t); auto.
Qed.
Lemma linear_ext : forall f g : Tg -> Tg, (forall a, f a = g a) -> AutogradSpec.linear g -> AutogradSpec.linear f.
Proof. intros f g E [H1 H2]. split; [rewrite E; auto|]. intros x y. rewrite !E. auto. Qed.

Section Rules.
Variables (M : R) (op : nop) (ks : list kind) (osh : list nat) (X : nat -> tens) (Y : tens) (grads : tens -> nat -> tens) (dot : (nat -> tens) -> tens).
Hypothesis RU : rules M op ks osh X Y grads dot.
Lemma grads_ext : forall k kd G H i, nth_error ks k = Some kd -> valid (fst kd) i -> (forall o, valid osh o -> G o = H o) -> grads G k i = grads H k i.
Proof.
  intros k kd G H i E V HE. rewrite <- !(pairs_unit ks k kd i) by auto. destruct RU as [_ _ HP]. rewrite <- !HP. apply (sum_ext (K := Rring)). intros o Ho. apply indices_in in Ho. rewrite HE by auto. auto.
Qed.
Lemma grads_zero : forall k kd i, nth_error ks k = Some kd -> valid (fst kd) i -> grads (fun _ => 0%R) k i = 0%R.
Proof.
  intros k kd i E V. rewrite <- (pairs_unit ks k kd i) by auto. destruct RU as [_ _ HP]. rewrite <- HP. apply (sum_zero' (K := Rring)). intros o _. apply Rmult_0_l.
Qed.
(** What input [k] gets for a gradient [a]. *)
Definition acts (k : nat) (kd : kind) (d : delivery Tg) : Prop :=
  (d = Pass /\ passesGrad op (args ks X) (tensor_of osh Y) k = true) \/ (exists f, d = Fresh (V := Tg) f /\ forall a, f a = ideal osh (fst kd) (fun G => grads G k) a).
Lemma acts_linear : forall k kd d, nth_error ks k = Some kd -> acts k kd d -> AutogradSpec.linear (factor d).
Proof.
  intros k kd d E [[-> _]|(f & -> & Hf)]; [split; auto|]. cbn [factor]. apply (linear_ext _ _ Hf). apply ideal_linear.
  - intros G H i V. eapply rules_add; eauto.
  - intros G H HE i V. eapply grads_ext; eauto.
Qed.
Lemma acts_good : forall k kd d a, nth_error ks k = Some kd -> snd kd = true -> acts k kd d -> good osh a ->
  good (fst kd) (factor d a) /\ forall i, valid (fst kd) i -> elt (fst kd) (factor d a) i = grads (elt osh a) k i.
Proof.
  intros k kd d a E Hs [[-> Hp]|(f & -> & Hf)] Ha.
  - cbn [factor]. destruct RU as [_ HP _]. destruct (HP k kd E Hs Hp) as [-> HG]. split; auto. intros i V. rewrite HG; auto.
  - cbn [factor]. rewrite Hf. destruct Ha as [-> |(F & ->)].
    + split; [left; auto|]. intros i V. change (0%R = grads (fun _ => 0%R) k i). symmetry. eapply grads_zero; eauto.
    + assert (FF : formed osh (tensor_of osh F) = true) by (apply formed_iff; split; auto; apply of_length). cbn [ideal]. rewrite FF. split; [right; eexists; reflexivity|].
      intros i V. rewrite elt_of by auto. eapply grads_ext; eauto.
Qed.
End Rules.

(** * Deliveries *)
Definition dsFrom (s : nat) (h : nat -> delivery Tg) (xs : list nat) (sel : list kind) : list (nat * delivery Tg) :=
  flat_map (fun q : nat * nat * kind => if snd (snd q) then [(snd (fst q), h (fst (fst q)))] else []) (combine (combine (seq s (length xs)) xs) sel).
Definition dsOf := dsFrom 0.
Lemma ds_in : forall (h : nat -> delivery Tg) (xs : list nat) (sel : list kind) s t d, In (t, d) (dsFrom s h xs sel) -> exists k kd, nth_error xs k = Some t /\ nth_error sel k = Some kd /\ snd kd = true /\ d = h (s + k).
Proof.
  intros h xs. induction xs as [|x xs IH]; intros sel s t d H; [destruct H|]. destruct sel as [|kd sel]; [destruct H|]. unfold dsFrom in H. cbn [length seq combine flat_map] in H. apply in_app_iff in H. destruct H as [H|H].
  - cbn [fst snd] in H. destruct (snd kd) eqn:E; [|destruct H]. destruct H as [H|[]]. injection H as <- <-. exists 0, kd. rewrite Nat.add_0_r. auto.
  - apply (IH sel (S s) t d) in H. destruct H as (k & kd' & H1 & H2 & H3 & H4). exists (S k), kd'. replace (s + S k) with (S s + k) by lia. auto.
Qed.
Lemma ds_sum : forall (h : nat -> delivery Tg) (xs : list nat) (sel : list kind) s (F : nat * delivery Tg -> R) (E : nat -> kind -> R), length xs = length sel ->
  (forall k x kd, nth_error xs k = Some x -> nth_error sel k = Some kd -> (if snd kd then F (x, h (s + k)) else 0%R) = E (s + k) kd) ->
  Rsum F (dsFrom s h xs sel) = Rsum (fun q => E (fst q) (snd q)) (combine (seq s (length sel)) sel).
Proof.
  intros h xs. induction xs as [|x xs IH]; intros sel s F E L H; destruct sel as [|kd sel]; try discriminate; auto.
  unfold dsFrom. cbn [length seq combine flat_map]. rewrite (sum_app (K := Rring)), (sum_cons (K := Rring)). cbn [fst snd].
  pose proof (H 0 x kd eq_refl eq_refl) as H0. rewrite Nat.add_0_r in H0. f_equal.
  - rewrite <- H0. destruct (snd kd); auto. rewrite (sum_cons (K := Rring)), (sum_nil (K := Rring)). rg.
  - apply (IH sel (S s) F E); [cbn in L; lia|]. intros k x' kd' E1 E2. replace (S s + k) with (s + S k) by lia. apply (H (S k)); auto.
Qed.
Lemma ds_cons : forall h x xs kd sel s, dsFrom s h (x :: xs) (kd :: sel) = (if snd kd then [(x, h s)] else []) ++ dsFrom (S s) h xs sel.
Proof. reflexivity. Qed.
Lemma ds_count : forall (h : nat -> delivery Tg) (xs : list nat) (sel : list kind) s t, count_occ Nat.eq_dec (map fst (dsFrom s h xs sel)) t <= count_occ Nat.eq_dec xs t.
Proof.
  intros h xs. induction xs as [|x xs IH]; intros sel s t; [cbn; lia|]. destruct sel as [|kd sel]; [cbn; destruct (Nat.eq_dec x t); lia|].
  specialize (IH sel (S s) t). rewrite ds_cons, map_app, count_occ_app. cbn [count_occ]. destruct (snd kd); cbn [map fst count_occ]; destruct (Nat.eq_dec x t); lia.
Qed.
Lemma ds_ext : forall (h h' : nat -> delivery Tg) (xs : list nat) (sel : list kind) s, (forall k kd, nth_error sel k = Some kd -> snd kd = true -> h (s + k) = h' (s + k)) -> dsFrom s h xs sel = dsFrom s h' xs sel.
Proof.
  intros h h' xs. induction xs as [|x xs IH]; intros sel s H; auto. destruct sel as [|kd sel]; auto. unfold dsFrom. cbn [length seq combine flat_map fst snd]. f_equal.
  - destruct (snd kd) eqn:E; auto. pose proof (H 0 kd eq_refl E) as Q. rewrite Nat.add_0_r in Q. rewrite Q. auto.
  - apply (IH sel (S s)). intros k kd' E1 E2. replace (S s + k) with (s + S k) by lia. eauto.
Qed.
Lemma record_fn : forall M op nsel xs out ksel, Forall2 fits nsel ksel ->
  nfn (record M op nsel xs out) = match dsOf (fun k => snd (delivers M op (map nval nsel) out k 0)) xs ksel with [] => FLeaf | ds => FOp ds end.
Proof.
  intros M op nsel xs out ksel HF. unfold record. set (ins := map nval nsel). clearbody ins. unfold dsOf, dsFrom.
  assert (Q : forall s ys, flat_map (fun q => if nreq (snd q) then [delivers M op ins out (fst (fst q)) (snd (fst q))] else []) (combine (combine (seq s (length ys)) ys) nsel)
    = flat_map (fun q : nat * nat * kind => if snd (snd q) then [(snd (fst q), snd (delivers M op ins out (fst (fst q)) 0))] else []) (combine (combine (seq s (length ys)) ys) ksel)).
  { induction HF as [|nd kd nsel ksel (_ & _ & Hr) _ IH]; intros s [|y ys]; auto. cbn [length seq combine flat_map fst snd]. rewrite Hr, IH. auto. }
  rewrite Q. destruct (flat_map _ _); auto.
Qed.
Lemma ds_empty : forall (h : nat -> delivery Tg) (xs : list nat) (sel : list kind) s, length xs = length sel -> (dsFrom s h xs sel = [] <-> existsb snd sel = false).
Proof.
  intros h xs. induction xs as [|x xs IH]; intros sel s L; destruct sel as [|kd sel]; try discriminate; [cbn; tauto|]. unfold dsFrom. cbn [length seq combine flat_map existsb fst snd].
  destruct (snd kd); cbn; [split; discriminate|]. apply IH. cbn in L. lia.
Qed.

(** * The graph of a program, possibly with another first rule *)
Section Graph.
Variables (lo M : R) (p : list stmt) (ts : list kind).
Hypothesis HM : (0 <= M)%R.
Hypothesis HT : typed p [] ts.
Variables (X : nat -> tens) (D dl : nat -> tens).
Local Notation shp := (shp ts).
Definition described (g : graph Tg) (i : nat) (s : stmt) : Prop :=
  match s with
  | SLeaf sh r => nth_error g i = Some FLeaf /\ D i = dl i
  | SApply op xs => exists sel sh grads dot h, kinds_of ts xs = Some sel /\ accepts op sel sh /\ nth_error ts i = Some (sh, existsb snd sel)
      /\ rules M op sel sh (fun k => X (nth k xs 0)) (X i) grads dot /\ (forall o, valid sh o -> D i o = dot (fun k => D (nth k xs 0)) o)
      /\ nth_error g i = Some (if existsb snd sel then FOp (dsOf h xs sel) else FLeaf)
      /\ forall k kd, nth_error sel k = Some kd -> snd kd = true -> acts op sel sh (fun k => X (nth k xs 0)) (X i) grads k kd (h k)
  end.
Variable g : graph Tg.
Hypothesis HL : length g = length p.
Hypothesis HD : forall i s, nth_error p i = Some s -> described g i s.
Hypothesis HZ : forall i sh, nth_error ts i = Some (sh, false) -> forall j, valid sh j -> D i j = 0%R.
Hypothesis SO : sums_once p.

Lemma op_at : forall u ds, nth_error g u = Some (FOp ds) -> exists op xs sel sh grads dot h, nth_error p u = Some (SApply op xs) /\ kinds_of ts xs = Some sel /\ accepts op sel sh
  /\ nth_error ts u = Some (sh, true) /\ rules M op sel sh (fun k => X (nth k xs 0)) (X u) grads dot /\ (forall o, valid sh o -> D u o = dot (fun k => D (nth k xs 0)) o)
  /\ ds = dsOf h xs sel /\ (forall k kd, nth_error sel k = Some kd -> snd kd = true -> acts op sel sh (fun k => X (nth k xs 0)) (X u) grads k kd (h k)).
Proof.
  intros u ds E. assert (Hu : u < length p) by (rewrite <- HL; apply nth_error_Some; congruence). destruct (nth_error p u) as [s|] eqn:Es; [|apply nth_error_None in Es; lia].
  specialize (HD u s Es). destruct s as [sh r|op xs]; cbn [described] in HD; [destruct HD; congruence|].
  destruct HD as (sel & sh & grads & dot & h & P1 & P2 & P3 & P4 & P5 & P6 & P7). rewrite E in P6. destruct (existsb snd sel) eqn:EX; [|discriminate]. injection P6 as ->. exists op, xs, sel, sh, grads, dot, h. auto 10.
Qed.
Lemma arg_at : forall xs sel k t kd, kinds_of ts xs = Some sel -> nth_error xs k = Some t -> nth_error sel k = Some kd -> nth_error ts t = Some kd /\ shp t = fst kd /\ nth k xs 0 = t.
Proof.
  intros xs sel k t kd K1 K2 K3. destruct (proj2 (picked _ _ _ K1) k t K2) as (b & B1 & B2). rewrite K3 in B1. injection B1 as <-. split; auto. unfold NetProofs4.shp. rewrite B2. split; auto. apply nth_error_nth. auto.
Qed.
Lemma g_acyclic : acyclic g.
Proof.
  intros u f t E Ht. destruct f as [|ds]; [destruct Ht|]. destruct (op_at u ds E) as (op & xs & sel & sh & grads & dot & h & P1 & _ & _ & _ & _ & _ & -> & _).
  unfold nexts in Ht. apply in_map_iff in Ht. destruct Ht as ([t' d] & Et & Hin). cbn in Et. subst t'. apply ds_in in Hin. destruct Hin as (k & kd & H1 & _).
  destruct (kind_of p ts HT u _ P1) as (_ & _ & _ & Hx & _). apply Hx. eapply nth_error_In; eauto.
Qed.
Lemma g_linear : linear_rules g.
Proof.
  intros u f t d E Hin. destruct f as [|ds]; [destruct Hin|]. destruct (op_at u ds E) as (op & xs & sel & sh & grads & dot & h & P1 & P2 & P3 & P4 & P5 & P6 & -> & P7).
  cbn [deliveries] in Hin. apply ds_in in Hin. destruct Hin as (k & kd & H1 & H2 & H3 & ->). eapply acts_linear; eauto.
Qed.
Lemma g_good : forall u ds t d (a : Tg), nth_error g u = Some (FOp ds) -> In (t, d) ds -> good (shp u) a -> good (shp t) (factor d a).
Proof.
  intros u ds t d a E Hin Ha. destruct (op_at u ds E) as (op & xs & sel & sh & grads & dot & h & P1 & P2 & P3 & P4 & P5 & P6 & -> & P7).
  apply ds_in in Hin. destruct Hin as (k & kd & H1 & H2 & H3 & ->). destruct (arg_at xs sel k t kd) as (_ & -> & _); auto. eapply acts_good; eauto.
  unfold NetProofs4.shp in Ha. rewrite P4 in Ha. auto.
Qed.
Lemma g_pair : forall u ds (a : Tg), nth_error g u = Some (FOp ds) -> good (shp u) a ->
  pair (shp u) a (D u) = Rsum (fun e : nat * delivery Tg => pair (shp (fst e)) (factor (snd e) a) (D (fst e))) ds.
Proof.
  intros u ds a E Ha. destruct (op_at u ds E) as (op & xs & sel & sh & grads & dot & h & P1 & P2 & P3 & P4 & P5 & P6 & -> & P7).
  assert (ES : shp u = sh) by (unfold NetProofs4.shp; rewrite P4; auto). rewrite ES in *. clear ES.
  unfold dsOf. rewrite (ds_sum h xs sel 0 _ (fun k kd => Rsum (fun i => grads (elt sh a) k i * D (nth k xs 0%nat) i)%R (indices (fst kd)))).
  - unfold pair. rewrite (sum_ext (K := Rring) _ (fun o => elt sh a o * dot (fun k => D (nth k xs 0%nat)) o)%R) by (intros o Ho; apply indices_in in Ho; rewrite P6 by auto; auto).
    rewrite (r_pair _ _ _ _ _ _ _ _ P5). reflexivity.
  - symmetry. eapply picked; eauto.
  - intros k x kd E1 E2. cbn [Nat.add]. destruct (arg_at xs sel k x kd P2 E1 E2) as (A1 & A2 & A3). cbn [fst snd]. rewrite A3. destruct (snd kd) eqn:Es.
    + rewrite A2. unfold pair. apply (sum_ext (K := Rring)). intros i Hi. apply indices_in in Hi. rewrite (proj2 (acts_good _ _ _ _ _ _ _ _ P5 k kd (h k) a E2 Es (P7 k kd E2 Es) Ha)) by auto. auto.
    + symmetry. apply (sum_zero' (K := Rring)). intros i Hi. apply indices_in in Hi. rewrite (HZ x (fst kd)); auto; [apply Rmult_0_r|]. rewrite A1. destruct kd; cbn in *; subst; auto.
Qed.
Lemma g_safe : forall root und, passes_safely g root und.
Proof.
  intros root und u f t _ Ef Hp _. destruct f as [|ds]; [destruct Hp|]. destruct (op_at u ds Ef) as (op & xs & sel & sh & grads & dot & h & P1 & P2 & P3 & P4 & P5 & P6 & -> & P7).
  cbn [deliveries] in Hp. pose proof Hp as Hp'. apply ds_in in Hp. destruct Hp as (k & kd & H1 & H2 & H3 & H4). cbn [Nat.add] in H4.
  assert (HP : passesGrad op (args sel (fun k => X (nth k xs 0))) (tensor_of sh (X u)) k = true) by (destruct (P7 k kd H2 H3) as [[_ Q]|(f & Q & _)]; [auto|congruence]).
  assert (U : uses t p = 1).
  { assert (L : length xs = length sel) by (symmetry; eapply picked; eauto). destruct SO as (S1 & S2 & S3). destruct P3; try discriminate HP.
    - destruct xs as [|x [|y xs]]; try discriminate. destruct k as [|[|k]]; try discriminate. injection H1 as <-. eapply S3; eauto.
    - destruct xs as [|x [|y [|z xs]]]; try discriminate. destruct H as [<-|[<-|[<-|[<-|[]]]]]; try (destruct k; discriminate HP).
      + destruct (S1 _ _ _ P1) as [U1 U2]. destruct k as [|[|[|k]]]; try discriminate; injection H1 as <-; auto.
      + destruct k as [|k]; [|discriminate HP]. injection H1 as <-. eapply S2; eauto. }
  unfold uses in U. set (F := fun s => match s with SApply _ xs => xs | SLeaf _ _ => [] end) in U.
  assert (CN : forall c fc, nth_error g c = Some fc -> forall t, In t (nexts fc) -> exists s, nth_error p c = Some s /\ count_occ Nat.eq_dec (nexts fc) t <= count_occ Nat.eq_dec (F s) t).
  { intros c fc Ec t' Hin. destruct fc as [|ds]; [destruct Hin|]. destruct (op_at c ds Ec) as (op' & xs' & sel' & _ & _ & _ & h' & P1' & _ & _ & _ & _ & _ & -> & _). eexists. split; [exact P1'|]. apply ds_count. }
  assert (Hin : In t (nexts (FOp (dsOf h xs sel)))) by (unfold nexts; apply in_map_iff; exists (t, Pass); auto).
  destruct (CN u _ Ef t Hin) as (s & Es & Cs). pose proof (proj1 (count_occ_In Nat.eq_dec _ _) Hin) as C1. pose proof (ProgProofs5.count_one F p t s (nth_error_In _ _ Es)) as C2. split; [lia|].
  intros c fc _ Ec Hc. destruct (CN c _ Ec t Hc) as (s' & Es' & Cs'). pose proof (proj1 (count_occ_In Nat.eq_dec _ _) Hc) as C1'. destruct (Nat.eq_dec c u) as [|N]; auto.
  pose proof (ProgProofs5.count_two F p t c u s' s Es' Es N). lia.
Qed.
End Graph.
