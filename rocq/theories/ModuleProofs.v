From Coq Require Import List Bool Arith String Ascii DecimalString DecimalNat FinFun Lia.
From Verif Require Import TensorModel BcastModel DispatchModel ModuleModel ModuleSpec.
Import ListNotations.
Local Open Scope string_scope.
Local Open Scope list_scope.
Local Open Scope nat_scope.

(** Induction over a tree, with the hypothesis for every submodule. *)
Fixpoint mtree_rect' (P : mtree -> Prop) (H : forall a ps ss o subs, Forall (fun nm => P (snd nm)) subs -> P (Mod a ps ss o subs)) (m : mtree) : P m :=
  match m with Mod a ps ss o subs =>
    H a ps ss o subs ((fix go l : Forall (fun nm => P (snd nm)) l :=
      match l with [] => Forall_nil _ | nm :: r => Forall_cons nm (mtree_rect' P H (snd nm)) (go r) end) subs)
  end.

(** Both listings at once. *)
Fixpoint named (own : mtree -> list (string * nat)) (prefix : string) (m : mtree) : list (string * nat) :=
  map (fun np => ((prefix ++ fst np)%string, snd np)) (own m)
  ++ match m with Mod _ _ _ _ subs => flat_map (fun nm => named own (prefix ++ fst nm ++ ".")%string (snd nm)) subs end.
Lemma named_params : forall m prefix, namedParameters prefix m = named mparams prefix m.
Proof.
  induction m as [a ps ss o subs IH] using mtree_rect'. intro prefix. cbn. f_equal. induction IH as [|nm r H _ IHr]; cbn; auto. rewrite H, IHr. auto.
Qed.
Lemma named_states : forall m prefix, namedStates prefix m = named mstates prefix m.
Proof.
  induction m as [a ps ss o subs IH] using mtree_rect'. intro prefix. cbn. f_equal. induction IH as [|nm r H _ IHr]; cbn; auto. rewrite H, IHr. auto.
Qed.
Lemma append_assoc (a b c : string) : ((a ++ b) ++ c)%string = (a ++ b ++ c)%string.
Proof. induction a; cbn; congruence. Qed.
Lemma append_nil (a : string) : (a ++ "")%string = a.
Proof. induction a; cbn; congruence. Qed.
Lemma append_inj (a b c : string) : (a ++ b)%string = (a ++ c)%string -> b = c.
Proof. induction a; cbn; auto. intro E. injection E. auto. Qed.

Lemma NoDup_app_i {A} (l1 l2 : list A) : NoDup l1 -> NoDup l2 -> (forall x, In x l1 -> In x l2 -> False) -> NoDup (l1 ++ l2).
Proof.
  induction l1 as [|x l1 IH]; cbn; auto. intros N1 N2 H. inversion N1; subst. constructor.
  - rewrite in_app_iff. intros [I|I]; [contradiction|]. apply (H x); auto.
  - apply IH; auto. intros y Hy. apply H. auto.
Qed.

Section Own.
Variable own : mtree -> list (string * nat).
Lemma owns_inv m path n p : owns own m path n p <->
  (path = [] /\ In (n, p) (own m)) \/ (exists s m1 path', path = s :: path' /\ In (s, m1) (msubs m) /\ owns own m1 path' n p).
Proof.
  unfold owns. split.
  - intros (m' & H & I). destruct H as [m|m s m1 path' m2 Hin Hsub]; [left; auto|right]. exists s, m1, path'. split; auto. split; auto. exists m2. auto.
  - intros [[-> I]|(s & m1 & path' & -> & Hin & m2 & Hsub & I)].
    + exists m. split; auto. constructor.
    + exists m2. split; auto. econstructor; eauto.
Qed.
Lemma named_in : forall m prefix x p, In (x, p) (named own prefix m) <-> exists path n, owns own m path n p /\ x = (prefix ++ dotted path n)%string.
Proof.
  induction m as [a ps ss o subs IH] using mtree_rect'. intros prefix x p. cbn [named]. rewrite in_app_iff, in_map_iff, in_flat_map. split.
  - intros [((n, q) & E & I)|((s, m1) & I & J)].
    + cbn in E. injection E as <- <-. exists [], n. split; auto. apply owns_inv. auto.
    + rewrite Forall_forall in IH. apply (IH (s, m1) I) in J. destruct J as (path & n & O & ->). exists (s :: path), n. split.
      * apply owns_inv. right. exists s, m1, path. auto.
      * cbn. rewrite !append_assoc. auto.
  - intros (path & n & O & ->). apply owns_inv in O. destruct O as [[-> I]|(s & m1 & path' & -> & I & O)].
    + left. exists (n, p). auto.
    + right. exists (s, m1). split; auto. rewrite Forall_forall in IH. apply (IH (s, m1) I). exists path', n. split; auto. cbn. rewrite !append_assoc. auto.
Qed.
Lemma dot_split (a b : string) (x y : string) : dot_free a -> dot_free b -> (a ++ "." ++ x)%string = (b ++ "." ++ y)%string -> a = b /\ x = y.
Proof.
  revert b. induction a as [|c a IH]; intros [|d b] A B E; cbn in *.
  - injection E. auto.
  - injection E as E1 E2. symmetry in E1. destruct B. contradiction.
  - injection E as E1 E2. destruct A. contradiction.
  - injection E as E1 E2. destruct A as [A1 A], B as [B1 B]. destruct (IH b A B E2). subst. auto.
Qed.
Lemma dot_no (a : string) (x : string) b : dot_free a -> a = (b ++ "." ++ x)%string -> False.
Proof. revert a. induction b as [|c b IH]; intros [|d a] A E; cbn in *; try discriminate; injection E as E1 E2; destruct A as [A1 A]; [contradiction|apply (IH a A); auto]. Qed.

Lemma well_sub m s m1 : well_named own m -> In (s, m1) (msubs m) -> well_named own m1.
Proof. intros W I path m' H. apply (W (s :: path)). econstructor; eauto. Qed.
Lemma well_dot_name m : well_named own m -> forall n p, In (n, p) (own m) -> dot_free n.
Proof. intros W n p I. apply (W [] m (at_root m)). apply in_app_iff. left. apply (in_map fst) in I. auto. Qed.
Lemma well_dot_sub m : well_named own m -> forall n m1, In (n, m1) (msubs m) -> dot_free n.
Proof. intros W n p I. apply (W [] m (at_root m)). apply in_app_iff. right. apply (in_map fst) in I. auto. Qed.
Lemma nodup_fst {B} (l : list (string * B)) : NoDup (map fst l) -> forall n x y, In (n, x) l -> In (n, y) l -> x = y.
Proof.
  induction l as [|[k v] l IH]; cbn; intros N n x y Hx Hy; [contradiction|]. inversion N as [|? ? N1 N2]; subst.
  destruct Hx as [Hx|Hx], Hy as [Hy|Hy]; try congruence.
  - injection Hx as -> ->. apply (in_map fst) in Hy. contradiction.
  - injection Hy as -> ->. apply (in_map fst) in Hx. contradiction.
  - eauto.
Qed.
(** Different places have different names. *)
Lemma owns_unique : forall m, well_named own m -> forall path n p path' n' p', owns own m path n p -> owns own m path' n' p' ->
  dotted path n = dotted path' n' -> path = path' /\ n = n' /\ p = p'.
Proof.
  induction m as [a ps ss o subs IH] using mtree_rect'. intros W path n p path' n' p' O O' E. apply owns_inv in O, O'.
  destruct O as [[-> I]|(s & m1 & q & -> & I & O)], O' as [[-> I']|(s' & m1' & q' & -> & I' & O')].
  - cbn in E. subst n'. split; auto. split; auto. eapply nodup_fst; eauto. apply (W [] _ (at_root _)).
  - exfalso. cbn in E. eapply dot_no; [|apply E]. eapply well_dot_name; eauto.
  - exfalso. cbn in E. eapply dot_no; [|symmetry; apply E]. eapply well_dot_name; eauto.
  - cbn [dotted fold_right] in E. apply dot_split in E; [|eapply well_dot_sub; eauto..]. destruct E as [-> E].
    assert (m1' = m1) by (eapply nodup_fst; [apply (W [] _ (at_root _))|eauto..]). subst m1'.
    rewrite Forall_forall in IH. destruct (IH (s', m1) I) with (path := q) (n := n) (p := p) (path' := q') (n' := n') (p' := p') as (-> & -> & ->); auto. eapply well_sub; eauto.
Qed.
Lemma named_nodup : forall m prefix, well_named own m -> NoDup (map fst (named own prefix m)).
Proof.
  induction m as [a ps ss o subs IH] using mtree_rect'. intros prefix W. cbn [named]. rewrite map_app, map_map. cbn [fst].
  assert (S : forall subs', incl subs' subs -> NoDup (map fst subs') -> NoDup (map fst (flat_map (fun nm => named own (prefix ++ fst nm ++ ".")%string (snd nm)) subs'))).
  { rewrite Forall_forall in IH. induction subs' as [|[s m1] r IHr]; intros Hi N; cbn [flat_map]; [constructor|]. cbn [map fst] in N. inversion N as [|? ? N1 N2]; subst. rewrite map_app.
    assert (I1 : In (s, m1) subs) by (apply Hi; left; auto). apply NoDup_app_i.
    - apply (IH (s, m1) I1). eapply well_sub; eauto.
    - apply IHr; auto. intros z Hz. apply Hi. right; auto.
    - intros x Hx Hy. apply in_map_iff in Hx, Hy. destruct Hx as ([x1 p1] & <- & Hx), Hy as ([x2 p2] & E & Hy). cbn in E. subst x2. apply in_flat_map in Hy. destruct Hy as ([s2 m2] & I2 & Hy).
      apply named_in in Hx, Hy. destruct Hx as (q1 & n1 & O1 & E1), Hy as (q2 & n2 & O2 & E2). cbn [fst snd] in *. rewrite E1 in E2. rewrite !append_assoc in E2. apply append_inj in E2. apply dot_split in E2.
      + destruct E2 as [-> _]. apply N1. apply (in_map fst) in I2. auto.
      + eapply well_dot_sub; eauto.
      + eapply well_dot_sub; [eauto|]. cbn. apply Hi. right. eauto. }
  apply NoDup_app_i.
  - assert (N : NoDup (map fst (own (Mod a ps ss o subs)))) by apply (W [] _ (at_root _)). clear -N. induction (own (Mod a ps ss o subs)) as [|[n p] l IHl]; cbn in *; constructor; inversion N; subst; auto.
    intro H. apply in_map_iff in H. destruct H as ([n' p'] & E & H). cbn in E. apply append_inj in E. subst. apply (in_map fst) in H. contradiction.
  - apply S; [apply incl_refl|]. apply (W [] _ (at_root _)).
  - intros x Hx Hy. apply in_map_iff in Hx, Hy. destruct Hx as ([n p] & <- & Hx), Hy as ([x2 p2] & E & Hy). cbn in E. subst x2. apply in_flat_map in Hy. destruct Hy as ([s2 m2] & I2 & Hy).
    apply named_in in Hy. destruct Hy as (q2 & n2 & O2 & E2). cbn [fst snd] in *. rewrite !append_assoc in E2. apply append_inj in E2. eapply dot_no; [|apply E2]. eapply well_dot_name; eauto.
Qed.
End Own.

(** Every tensor owned at one place only is listed once. *)
Lemma named_ptr_nodup own m : well_named own m -> (forall path n path' n' p, owns own m path n p -> owns own m path' n' p -> path = path' /\ n = n') ->
  NoDup (map snd (named own "" m)).
Proof.
  intros W U. pose proof (named_nodup own m "" W) as N. 
  assert (H : forall x y p, In (x, p) (named own "" m) -> In (y, p) (named own "" m) -> x = y).
  { intros x y p Hx Hy. apply named_in in Hx, Hy. destruct Hx as (q & n & O & ->), Hy as (q' & n' & O' & ->). destruct (U _ _ _ _ _ O O') as [-> ->]. auto. }
  induction (named own "" m) as [|[x p] l IH]; cbn in *; constructor; inversion N; subst.
  - intro I. apply in_map_iff in I. destruct I as ([y p'] & E & I). cbn in E. subst p'. assert (x = y) by eauto. subst. apply (in_map fst) in I. contradiction.
  - apply IH; auto. intros a b q Ha Hb. eauto.
Qed.
Lemma reach_inv m a : reachable m a <-> maddr m = a \/ exists nm, In nm (msubs m) /\ reachable (snd nm) a.
Proof.
  split.
  - intros (path & m' & H & E). destruct H as [m|m s m1 path' m2 I H]; auto. right. exists (s, m1). split; auto. exists path', m2. auto.
  - intros [E|([s m1] & I & path & m' & H & E)]; [exists [], m; split; auto; constructor|]. exists (s :: path), m'. split; auto. econstructor; eauto.
Qed.
Lemma setTraining_spec mode : forall m flags x, (reachable m x -> setTraining mode m flags x = mode) /\ (~ reachable m x -> setTraining mode m flags x = flags x).
Proof.
  induction m as [a ps ss o subs IH] using mtree_rect'. intros flags x. cbn [setTraining].
  assert (S : forall (subs' : list (string * mtree)) flags', Forall (fun nm : string * mtree => forall flags x, (reachable (snd nm) x -> setTraining mode (snd nm) flags x = mode) /\ (~ reachable (snd nm) x -> setTraining mode (snd nm) flags x = flags x)) subs' ->
    (flags' x = mode -> fold_left (fun flags nm => setTraining mode (snd nm) flags) subs' flags' x = mode)
    /\ ((exists nm, In nm subs' /\ reachable (snd nm) x) -> fold_left (fun flags nm => setTraining mode (snd nm) flags) subs' flags' x = mode)
    /\ ((forall nm, In nm subs' -> ~ reachable (snd nm) x) -> fold_left (fun flags nm => setTraining mode (snd nm) flags) subs' flags' x = flags' x)).
  { clear. induction subs' as [|nm r IHr]; intros flags' F; cbn.
    - split; auto. split; auto. intros (nm & [] & _).
    - inversion F as [|? ? F1 F2]; subst. destruct (IHr (setTraining mode (snd nm) flags') F2) as (A & B & C). destruct (F1 flags' x) as [D E].
      assert (K : flags' x = mode -> setTraining mode (snd nm) flags' x = mode).
      { intro Q. destruct (bool_dec (setTraining mode (snd nm) flags' x) mode) as [|N]; auto. exfalso. apply N. rewrite <- Q at 2. apply E. intro R. apply N. auto. }
      split; [auto|]. split.
      + intros (nm' & [<-|I] & R); [auto|]. apply B. eauto.
      + intro Q. rewrite C by auto. apply E. auto. }
  destruct (S subs (fun x => if Nat.eqb x a then mode else flags x) IH) as (A & B & C). split.
  - intro R. apply reach_inv in R. cbn in R. destruct R as [<-|R]; [apply A; rewrite Nat.eqb_refl; auto|apply B; auto].
  - intro R. rewrite C.
    + destruct (Nat.eqb_spec x a) as [->|]; auto. exfalso. apply R. apply reach_inv. auto.
    + intros nm I Q. apply R. apply reach_inv. right. eauto.
Qed.

Section Heap.
Context {V : Type} (vzero : V) (cast : dtype -> dtype -> V -> V).
Lemma toAll_fold (f : ptensor V -> ptensor V) (idem : forall t, f (f t) = f t) ps : forall (h : @heap V) q,
  fold_left (fun h p => upd h p (f (h p))) ps h q = if in_dec Nat.eq_dec q ps then f (h q) else h q.
Proof.
  induction ps as [|p ps IH]; intros h q; cbn [fold_left]; auto. rewrite IH. unfold upd.
  destruct (in_dec Nat.eq_dec q ps) as [I|I], (in_dec Nat.eq_dec q (p :: ps)) as [J|J]; destruct (Nat.eqb_spec q p) as [E|E]; subst; auto; exfalso; cbn in J; intuition.
Qed.
Lemma dtypeEqb_eq a b : dtypeEqb a b = true <-> a = b.
Proof. destruct a, b; cbn; split; (reflexivity || discriminate). Qed.
Lemma deviceEqb_eq a b : deviceEqb a b = true <-> a = b.
Proof. destruct a, b; cbn; split; (reflexivity || discriminate). Qed.
Lemma toType_idem ty (t : ptensor V) : toType cast ty (toType cast ty t) = toType cast ty t.
Proof. unfold toType at 2 3. destruct (dtypeEqb (pdt t) ty) eqn:E; unfold toType; cbn [pdt]; [rewrite E; auto|]. rewrite (proj2 (dtypeEqb_eq ty ty) eq_refl). auto. Qed.
Lemma toDevice_idem d (t : ptensor V) : toDevice d (toDevice d t) = toDevice d t.
Proof. unfold toDevice at 2 3. destruct (deviceEqb d (pdev t)) eqn:E; unfold toDevice; cbn [pdev]; [rewrite E; auto|]. rewrite (proj2 (deviceEqb_eq d d) eq_refl). auto. Qed.
Lemma toBoth_idem ty d (t : ptensor V) : (fun t => toDevice d (toType cast ty t)) (toDevice d (toType cast ty t)) = toDevice d (toType cast ty t).
Proof.
  cbv beta. assert (H : toType cast ty (toDevice d (toType cast ty t)) = toDevice d (toType cast ty t)).
  { assert (D : pdt (toDevice d (toType cast ty t)) = ty).
    { unfold toDevice, toType. destruct (dtypeEqb (pdt t) ty) eqn:E; destruct (deviceEqb _ _); cbn; auto; apply dtypeEqb_eq; auto. }
    unfold toType at 1. rewrite D, (proj2 (dtypeEqb_eq ty ty) eq_refl). auto. }
  rewrite H. apply toDevice_idem.
Qed.
Lemma zero_fold ps : forall (h : @heap V), (forall p, In p ps -> pmeta (h p) <> None) ->
  exists h', zeroGradAll vzero ps h = Ok h' /\ forall q, h' q = if in_dec Nat.eq_dec q ps
    then mkP (pdt (h q)) (pdev (h q)) (pdata (h q)) (Some (Some (map (fun _ => vzero) (pdata (h q))))) else h q.
Proof.
  unfold zeroGradAll. induction ps as [|p ps IH]; intros h H; cbn [fold_left].
  - exists h. auto.
  - unfold zeroGradT at 2. destruct (pmeta (h p)) as [g|] eqn:E; [|exfalso; apply (H p); [left|]; auto].
    edestruct IH as (h' & E' & H'); [|exists h'; split; [exact E'|]].
    + intros q I. unfold upd. destruct (Nat.eqb_spec q p); [discriminate|]. apply H. right; auto.
    + intro q. rewrite H'. unfold upd. destruct (in_dec Nat.eq_dec q ps) as [I|I], (in_dec Nat.eq_dec q (p :: ps)) as [J|J]; destruct (Nat.eqb_spec q p) as [Q|Q]; subst; auto; exfalso; cbn in J; intuition.
Qed.
Lemma zero_fails ps : forall (h : @heap V) p, In p ps -> pmeta (h p) = None -> zeroGradAll vzero ps h = Fail.
Proof.
  assert (A : forall ps, fold_left (fun r p => match r with Ok h => match zeroGradT vzero (h p) with Ok t => Ok (upd h p t) | Fail => Fail | UB => UB end | e => e end) ps Fail = @Fail (@heap V)).
  { intro l. induction l; auto. }
  unfold zeroGradAll. induction ps as [|q ps IH]; intros h p I E; [contradiction|]. cbn [fold_left].
  destruct I as [->|I].
  - unfold zeroGradT at 2. rewrite E. apply A.
  - unfold zeroGradT at 2. destruct (pmeta (h q)) as [g|] eqn:G; [|apply A]. apply (IH _ p I). unfold upd. destruct (Nat.eqb_spec p q); [subst; congruence|auto].
Qed.
End Heap.

(** The names of a module list. *)
Lemma moduleList_subs addr l : msubs (moduleList addr l) = combine (map toString (seq 0 (List.length l))) l
  /\ mparams (moduleList addr l) = [] /\ mstates (moduleList addr l) = [] /\ maddr (moduleList addr l) = addr /\ moverrides (moduleList addr l) = false.
Proof.
  unfold moduleList. rewrite <- (rev_involutive l). generalize (rev l) as r. induction r as [|x r IH]; [cbn; auto|]. cbn [rev].
  rewrite fold_left_app. cbn [fold_left]. destruct IH as (A & B & C & D & E). set (ml := fold_left pushBack (rev r) (emptyList addr)) in *. clearbody ml. unfold pushBack, registerModule. cbn [msubs mparams mstates maddr moverrides]. split; auto.
  rewrite A. rewrite combine_length, map_length, seq_length, Nat.min_id. rewrite app_length, rev_length. cbn [List.length].
  rewrite Nat.add_1_r. rewrite seq_S, map_app. cbn [map]. symmetry.
  assert (G : forall (A B : Type) (l1 : list A) (l2 : list B) x y, List.length l1 = List.length l2 -> combine (l1 ++ [x]) (l2 ++ [y]) = combine l1 l2 ++ [(x, y)]).
  { clear. intros A B. induction l1 as [|a l1 IH]; intros [|b l2] x y H; cbn in *; try discriminate; auto. f_equal. apply IH. lia. }
  rewrite G; [auto|]. rewrite map_length, seq_length, rev_length. auto.
Qed.
Lemma toString_inj a b : toString a = toString b -> a = b.
Proof.
  unfold toString. intro E. apply (f_equal NilEmpty.uint_of_string) in E. rewrite !NilEmpty.usu in E. injection E as E. apply DecimalNat.Unsigned.to_uint_inj. auto.
Qed.
Lemma toString_dot n : dot_free (toString n).
Proof. unfold toString. induction (Nat.to_uint n); cbn; auto; split; auto; discriminate. Qed.
Lemma combine_fst {A B} (l1 : list A) : forall (l2 : list B), List.length l1 = List.length l2 -> map fst (combine l1 l2) = l1.
Proof. induction l1 as [|a l1 IH]; intros [|b l2] H; cbn in *; try discriminate; auto. f_equal. auto. Qed.
Lemma list_well_named own addr l : own (moduleList addr l) = [] -> (forall m, In m l -> well_named own m) -> well_named own (moduleList addr l).
Proof.
  intros O W path m' H. destruct (moduleList_subs addr l) as (A & _). 
  assert (F : map fst (msubs (moduleList addr l)) = map toString (seq 0 (List.length l))) by (rewrite A; apply combine_fst; rewrite map_length, seq_length; auto).
  remember (moduleList addr l) as ml. destruct H as [m|m s m1 path' m2 I H].
  - rewrite O. cbn [map]. split; [constructor|]. rewrite F. split.
    + apply Injective_map_NoDup; [intros x y; apply toString_inj|apply seq_NoDup].
    + cbn. intros n I. apply in_map_iff in I. destruct I as (k & <- & _). apply toString_dot.
  - rewrite A in I. apply in_combine_r in I. apply (W m1 I _ _ H).
Qed.
