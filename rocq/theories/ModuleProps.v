(** C50: module trees. *)
From Coq Require Import List Bool Arith String Lia.
From Verif Require Import TensorModel BcastModel DispatchModel ModuleModel ModuleSpec ModuleProofs.
Import ListNotations.
Local Open Scope string_scope.
Local Open Scope list_scope.
Local Open Scope nat_scope.

(** The parameters listed are exactly those owned somewhere in the tree, each
    under the dotted path of its place. *)
Theorem named_parameters_exact : forall m name p, In (name, p) (namedParameters "" m) <-> exists path n, owns mparams m path n p /\ name = dotted path n.
Proof. intros. rewrite named_params. apply (named_in mparams m "" name p). Qed.
Theorem named_states_exact : forall m name p, In (name, p) (namedStates "" m) <-> exists path n, owns mstates m path n p /\ name = dotted path n.
Proof. intros. rewrite named_states. apply (named_in mstates m "" name p). Qed.
(** Each place is listed once: names are distinct, and a name leads to one place. *)
Theorem names_unique : forall m,
  (well_named mparams m -> NoDup (map fst (namedParameters "" m))
    /\ forall path n p path' n' p', owns mparams m path n p -> owns mparams m path' n' p' -> dotted path n = dotted path' n' -> path = path' /\ n = n' /\ p = p')
  /\ (well_named mstates m -> NoDup (map fst (namedStates "" m))
    /\ forall path n p path' n' p', owns mstates m path n p -> owns mstates m path' n' p' -> dotted path n = dotted path' n' -> path = path' /\ n = n' /\ p = p').
Proof.
  intro m. rewrite named_params, named_states. split; intro W; (split; [apply named_nodup; auto|]); intros; eapply owns_unique; eauto.
Qed.
(** A tensor with one place in the tree occurs once in [parameters()] / [states()];
    a tensor without a place not at all. *)
Theorem each_tensor_once : forall m,
  (well_named mparams m -> (forall path n path' n' p, owns mparams m path n p -> owns mparams m path' n' p -> path = path' /\ n = n') ->
    NoDup (parameters m) /\ forall p, In p (parameters m) <-> exists path n, owns mparams m path n p)
  /\ (well_named mstates m -> (forall path n path' n' p, owns mstates m path n p -> owns mstates m path' n' p -> path = path' /\ n = n') ->
    NoDup (states m) /\ forall p, In p (states m) <-> exists path n, owns mstates m path n p).
Proof.
  intro m. unfold parameters, states. rewrite named_params, named_states. split; intros W U; (split; [apply named_ptr_nodup; auto|]); intro p; rewrite in_map_iff; split;
    (intros ((x, q) & <- & H); apply named_in in H; destruct H as (path & n & H & _); eauto) || (intros (path & n & H); exists (dotted path n, p); split; auto; apply named_in; eauto).
Qed.
(** [train] and [eval] reach every module of the tree and no other. *)
Theorem train_reaches : forall mode m flags a,
  (reachable m a -> setTraining mode m flags a = mode) /\ (~ reachable m a -> setTraining mode m flags a = flags a).
Proof. intros. apply setTraining_spec. Qed.
(** [zeroGrad]: every parameter of the tree gets a zero gradient of its size,
    and nothing else changes; it needs every parameter to require a gradient. *)
Theorem zero_grad_reaches_partial : forall V (vzero : V) m h, (forall path n p, owns mparams m path n p -> pmeta (h p) <> None) ->
  exists h', zeroGrad vzero m h = Ok h'
  /\ (forall p, (exists path n, owns mparams m path n p) -> pmeta (h' p) = Some (Some (repeat vzero (List.length (pdata (h p))))))
  /\ (forall p, pdt (h' p) = pdt (h p) /\ pdev (h' p) = pdev (h p) /\ pdata (h' p) = pdata (h p))
  /\ (forall p, ~ (exists path n, owns mparams m path n p) -> h' p = h p).
Proof.
  intros V vzero m h H. unfold zeroGrad.
  assert (M : forall p, In p (map snd (namedParameters "" m)) <-> exists path n, owns mparams m path n p).
  { intro p. rewrite named_params, in_map_iff. split.
    - intros ((x, q) & <- & I). apply named_in in I. destruct I as (path & n & I & _). eauto.
    - intros (path & n & I). exists (dotted path n, p). split; auto. apply named_in. eauto. }
  destruct (zero_fold vzero (map snd (namedParameters "" m)) h) as (h' & E & H').
  - intros p I. apply M in I. destruct I as (path & n & I). eauto.
  - exists h'. split; auto. split; [|split].
    + intros p I. rewrite H'. destruct (in_dec _ _ _) as [|N]; [|exfalso; apply N, M; auto]. cbn. f_equal. f_equal. induction (pdata (h p)); cbn; congruence.
    + intro p. rewrite H'. destruct (in_dec _ _ _); auto.
    + intros p I. rewrite H'. destruct (in_dec _ _ _) as [J|]; auto. apply M in J. contradiction.
Qed.
(** One parameter that does not require a gradient makes the call fail. *)
Theorem zero_grad_frozen_refuted : forall V (vzero : V) m h path n p, owns mparams m path n p -> pmeta (h p) = None -> zeroGrad vzero m h = Fail.
Proof.
  intros V vzero m h path n p O E. apply (zero_fails vzero _ h p); auto. rewrite named_params, in_map_iff. exists (dotted path n, p). split; auto. apply named_in. eauto.
Qed.
(** [to]: every state of the tree ends up with the type (and device) asked for,
    its elements cast once, still requiring a gradient if it did, with no
    gradient if it was replaced; nothing else changes.  Shared tensors included. *)
Theorem to_type_reaches : forall V (cast : dtype -> dtype -> V -> V) ty m h p,
  ((exists path n, owns mstates m path n p) ->
     pdt (moduleToType cast ty m h p) = ty /\ pdev (moduleToType cast ty m h p) = pdev (h p)
     /\ (pdt (h p) = ty -> moduleToType cast ty m h p = h p)
     /\ (pdt (h p) <> ty -> pdata (moduleToType cast ty m h p) = map (cast (pdt (h p)) ty) (pdata (h p))
          /\ (pmeta (h p) = None -> pmeta (moduleToType cast ty m h p) = None) /\ (pmeta (h p) <> None -> pmeta (moduleToType cast ty m h p) = Some None)))
  /\ (~ (exists path n, owns mstates m path n p) -> moduleToType cast ty m h p = h p).
Proof.
  intros V cast ty m h p. unfold moduleToType, toAll. rewrite (toAll_fold _ (toType_idem cast ty)).
  assert (M : In p (map snd (namedStates "" m)) <-> exists path n, owns mstates m path n p).
  { rewrite named_states, in_map_iff. split.
    - intros ((x, q) & <- & I). apply named_in in I. destruct I as (path & n & I & _). eauto.
    - intros (path & n & I). exists (dotted path n, p). split; auto. apply named_in. eauto. }
  destruct (in_dec _ _ _) as [I|I]; split; intro J; try (exfalso; tauto); auto. unfold toType. destruct (dtypeEqb (pdt (h p)) ty) eqn:E.
  - apply dtypeEqb_eq in E. split; auto. split; auto. split; auto. intro; contradiction.
  - assert (N : pdt (h p) <> ty) by (intro Q; apply dtypeEqb_eq in Q; congruence). cbn. split; auto. split; auto. split; [contradiction|]. intros _. split; auto. destruct (pmeta (h p)); split; congruence.
Qed.
Theorem to_device_reaches : forall V d m (h : nat -> ptensor V) p,
  ((exists path n, owns mstates m path n p) -> pdev (moduleToDevice d m h p) = d /\ pdt (moduleToDevice d m h p) = pdt (h p) /\ pdata (moduleToDevice d m h p) = pdata (h p))
  /\ (~ (exists path n, owns mstates m path n p) -> moduleToDevice d m h p = h p).
Proof.
  intros V d m h p. unfold moduleToDevice, toAll. rewrite (toAll_fold _ (toDevice_idem d)).
  assert (M : In p (map snd (namedStates "" m)) <-> exists path n, owns mstates m path n p).
  { rewrite named_states, in_map_iff. split.
    - intros ((x, q) & <- & I). apply named_in in I. destruct I as (path & n & I & _). eauto.
    - intros (path & n & I). exists (dotted path n, p). split; auto. apply named_in. eauto. }
  destruct (in_dec _ _ _) as [I|I]; split; intro J; try (exfalso; tauto); auto. unfold toDevice. destruct (deviceEqb d (pdev (h p))) eqn:E; auto. apply deviceEqb_eq in E. auto.
Qed.
Theorem to_both_reaches : forall V (cast : dtype -> dtype -> V -> V) ty d m h p,
  ((exists path n, owns mstates m path n p) -> pdt (moduleToBoth cast ty d m h p) = ty /\ pdev (moduleToBoth cast ty d m h p) = d
     /\ pdata (moduleToBoth cast ty d m h p) = if dtypeEqb (pdt (h p)) ty then pdata (h p) else map (cast (pdt (h p)) ty) (pdata (h p)))
  /\ (~ (exists path n, owns mstates m path n p) -> moduleToBoth cast ty d m h p = h p).
Proof.
  intros V cast ty d m h p. unfold moduleToBoth, toAll. rewrite (toAll_fold _ (toBoth_idem cast ty d)).
  assert (M : In p (map snd (namedStates "" m)) <-> exists path n, owns mstates m path n p).
  { rewrite named_states, in_map_iff. split.
    - intros ((x, q) & <- & I). apply named_in in I. destruct I as (path & n & I & _). eauto.
    - intros (path & n & I). exists (dotted path n, p). split; auto. apply named_in. eauto. }
  destruct (in_dec _ _ _) as [I|I]; split; intro J; try (exfalso; tauto); auto. unfold toDevice, toType.
  destruct (dtypeEqb (pdt (h p)) ty) eqn:E; cbn; [apply dtypeEqb_eq in E|]; destruct (deviceEqb d (pdev (h p))) eqn:F; cbn; auto; apply deviceEqb_eq in F; auto.
Qed.
(** [initParameters] initialises every module that has its own initialisation,
    once, if such modules have no submodules. *)
Theorem init_reaches : forall m, (forall path m', sub_at m path m' -> moverrides m' = true -> msubs m' = []) ->
  forall a, In a (resetParameters m) <-> exists path m', sub_at m path m' /\ moverrides m' = true /\ maddr m' = a.
Proof.
  induction m as [b ps ss o subs IH] using mtree_rect'. intros H a. cbn [resetParameters]. destruct o.
  - pose proof (H [] _ (at_root _) eq_refl) as S. cbn in S. subst subs. split.
    + intros [<-|[]]. exists [], (Mod b ps ss true []). split; [constructor|auto].
    + intros (path & m' & A & O & <-). inversion A; subst; [left; auto|contradiction].
  - rewrite in_flat_map. rewrite Forall_forall in IH. split.
    + intros ((s, m1) & I & J). apply (IH _ I) in J.
      * destruct J as (path & m' & A & O & E). exists (s :: path), m'. split; auto. econstructor; eauto.
      * intros path m' A O. apply (H (s :: path)); auto. econstructor; eauto.
    + intros (path & m' & A & O & <-). inversion A as [|? s m1 path' ? I A']; subst; [discriminate|]. exists (s, m1). split; auto. apply (IH _ I).
      * intros q m2 A2 O2. apply (H (s :: q)); auto. econstructor; eauto.
      * exists path', m'. auto.
Qed.
(** A module list of well-named modules is well named: its names are the
    indices, and its parameters those of the members under "i.". *)
Theorem module_list_named : forall addr l, (forall m, In m l -> well_named mparams m) ->
  well_named mparams (moduleList addr l)
  /\ forall name p, In (name, p) (namedParameters "" (moduleList addr l)) <-> exists i m path n, nth_error l i = Some m /\ owns mparams m path n p /\ name = dotted (toString i :: path) n.
Proof.
  intros addr l W. destruct (moduleList_subs addr l) as (A & B & _). split; [apply list_well_named; auto|].
  intros name p. rewrite named_parameters_exact. split.
  - intros (path & n & O & ->). apply owns_inv in O. rewrite A, B in O. destruct O as [[_ []]|(s & m1 & q & -> & I & O)].
    apply In_nth_error in I. destruct I as (i & I). exists i, m1, q, n.
    assert (G : forall (l : list mtree) k i x, nth_error (combine (map toString (seq k (List.length l))) l) i = Some x -> nth_error l i = Some (snd x) /\ fst x = toString (k + i)).
    { clear. induction l as [|m l IH]; intros k [|i] x E; cbn in *; try discriminate.
      - injection E as <-. cbn. rewrite Nat.add_0_r. auto.
      - apply IH in E. rewrite <- Nat.add_succ_comm. auto. }
    apply G in I. cbn in I. destruct I as [I ->]. auto.
  - intros (i & m & q & n & I & O & ->). exists (toString i :: q), n. split; auto. apply owns_inv. right. exists (toString i), m, q. split; auto. split; auto. rewrite A.
    assert (G : forall (l : list mtree) k i m, nth_error l i = Some m -> In (toString (k + i), m) (combine (map toString (seq k (List.length l))) l)).
    { clear. induction l as [|m0 l IH]; intros k [|i] m E; cbn in *; try discriminate.
      - injection E as ->. left. rewrite Nat.add_0_r. auto.
      - right. rewrite <- Nat.add_succ_comm. auto. }
    apply (G l 0 i m I).
Qed.
(** The value of a sequence of layers: each applied to the result of the one
    before it; the first failure ends it. *)
Inductive chain {T} : list (T -> res T) -> T -> res T -> Prop :=
| chain_nil : forall x, chain [] x (Ok x)
| chain_ok : forall f fs x y r, f x = Ok y -> chain fs y r -> chain (f :: fs) x r
| chain_fail : forall f fs x, f x = Fail -> chain (f :: fs) x Fail
| chain_ub : forall f fs x, f x = UB -> chain (f :: fs) x UB.
Theorem sequential_chain : forall T (fs : list (T -> res T)) x r, sequential fs x = r <-> chain fs x r.
Proof.
  intros T fs. unfold sequential.
  assert (S : forall r0 fs', (r0 = Fail \/ r0 = UB) -> fold_left (fun (r : res T) f => match r with Ok x => f x | e => e end) fs' r0 = r0).
  { intros r0 fs' Q. induction fs' as [|f fs' IH]; cbn; auto. destruct Q as [-> | ->]; auto. }
  induction fs as [|f fs IH]; intros x r; cbn.
  - split; [intros <-; constructor|]. intro H. inversion H; auto.
  - split.
    + intro E. destruct (f x) as [| |y] eqn:F; [rewrite S in E by auto; subst; apply chain_ub; auto|rewrite S in E by auto; subst; apply chain_fail; auto|]. eapply chain_ok; eauto. apply IH. auto.
    + intro H. inversion H as [|? ? ? y ? F C|? ? ? F|? ? ? F]; subst; rewrite F; [apply IH; auto|apply S; auto|apply S; auto].
Qed.
(** Without the conditions on names they do clash: a dot in a name, a name
    registered twice; and a module registered twice is listed twice. *)
Theorem names_clash_refuted :
  (exists m, (forall path m', sub_at m path m' -> NoDup (map fst (mparams m')) /\ NoDup (map fst (msubs m'))) /\ ~ NoDup (map fst (namedParameters "" m)))
  /\ (exists m sub, ~ NoDup (map fst (namedParameters "" (registerModule (registerModule m "a" sub) "a" sub))))
  /\ (exists m sub, well_named mparams (registerModule (registerModule m "a" sub) "b" sub) /\ ~ NoDup (parameters (registerModule (registerModule m "a" sub) "b" sub))).
Proof.
  set (leaf := Mod 1 [("w", 7)] [("w", 7)] false []). split; [|split].
  - exists (Mod 0 [("a.w", 8)] [] false [("a", leaf)]). split.
    + intros path m' H. inversion H as [|? s m1 q ? I H1]; subst; cbn.
      * split; repeat constructor; auto.
      * destruct I as [I|[]]. injection I as <- <-. inversion H1; subst; [|contradiction]. cbn. split; repeat constructor; auto.
    + cbn. intro N. inversion N as [|? ? N1 _]. apply N1. left; auto.
  - exists (Mod 0 [] [] false []), leaf. cbn. intro N. inversion N as [|? ? N1 _]. apply N1. left; auto.
  - exists (Mod 0 [] [] false []), leaf. split.
    + intros path m' H. inversion H as [|? s m1 q ? I H1]; subst; cbn.
      * split; [constructor|]. split; [repeat constructor; cbn; intuition discriminate|]. intros n [<-|[<-|[]]]; cbn; intuition discriminate.
      * cbn in I. assert (m1 = leaf) by (destruct I as [I|[I|[]]]; congruence). subst m1. inversion H1; subst; [|contradiction]. cbn. split; [repeat constructor; auto|]. split; [constructor|]. intros n [<-|[]]; cbn; intuition discriminate.
    + cbn. intro N. inversion N as [|? ? N1 _]. apply N1. left; auto.
Qed.

(** Two layers in a list inside a model with its own parameter. *)
Example module_case :
  let lin a w b := Mod a [("weight", w); ("bias", b)] [("weight", w); ("bias", b)] true [] in
  let m := Mod 0 [("scale", 9)] [("scale", 9)] false [("layers", moduleList 1 [lin 2 20 21; lin 3 30 31]); ("head", lin 4 40 41)] in
  namedParameters "" m = [("scale", 9); ("layers.0.weight", 20); ("layers.0.bias", 21); ("layers.1.weight", 30); ("layers.1.bias", 31); ("head.weight", 40); ("head.bias", 41)]
  /\ resetParameters m = [2; 3; 4]
  /\ map (setTraining false m (fun _ => true)) [0; 1; 2; 3; 4; 5] = [false; false; false; false; false; true].
Proof. vm_compute. auto. Qed.
Example module_well_named : well_named mparams (moduleList 1 [Mod 2 [("weight", 20); ("bias", 21)] [] true []; Mod 3 [("weight", 30)] [] true []]).
Proof.
  apply module_list_named. intros m [<-|[<-|[]]] path m' H; (inversion H; subst; [|contradiction]); cbn; (split; [repeat constructor; cbn; intuition discriminate|]); (split; [constructor|]);
    intros n I; cbn in I; repeat (destruct I as [<-|I]; [cbn; intuition discriminate|]); contradiction.
Qed.
Example module_move : let m := moduleList 1 [Mod 2 [("w", 0)] [("w", 0)] true []; Mod 3 [("w", 0); ("b", 1)] [("w", 0); ("b", 1)] true []] in
  let h := moduleToBoth (fun _ _ v => v + 100) Float16 CUDA m (fun p => mkP Float32 CPU [p] (Some (Some [5]))) in
  h 0 = mkP Float16 CUDA [100] (Some None) /\ h 1 = mkP Float16 CUDA [101] (Some None) /\ h 2 = mkP Float32 CPU [2] (Some (Some [5])).
Proof. vm_compute. auto. Qed.

Print Assumptions named_parameters_exact.
Print Assumptions named_states_exact.
Print Assumptions names_unique.
Print Assumptions each_tensor_once.
Print Assumptions train_reaches.
Print Assumptions zero_grad_reaches_partial.
Print Assumptions zero_grad_frozen_refuted.
Print Assumptions to_type_reaches.
Print Assumptions to_device_reaches.
Print Assumptions to_both_reaches.
Print Assumptions init_reaches.
Print Assumptions module_list_named.
Print Assumptions sequential_chain.
Print Assumptions names_clash_refuted.
