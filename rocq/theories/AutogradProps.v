(** C21-C23, C25, C26, C54: the autograd engine. *)
From Coq Require Import ZArith List Bool Arith Lia.
From Verif Require Import AutogradModel AutogradSpec AutogradProofs AutogradProofs2 AutogradProofs3.
Import ListNotations.

(** * C21 *)
(** The order used by backward: every function the result depends on, once, after
    all functions that consume its result. *)
Theorem backward_order : forall {V : gvalues} (g : graph V) root, acyclic g -> root < length g ->
  exists order, buildBackwardGraph g root = Some order /\ consumers_first g root order.
Proof. intros V g root AC Hr. apply build_order; auto. Qed.
(** And the functions run are those, in that order. *)
Theorem backward_runs_each_once : forall {V : gvalues} (g : graph V) st st' root seed, acyclic g -> root < length g ->
  backward g st root seed = Some st' -> exists order, consumers_first g root order /\ ran st' = ran st ++ order.
Proof.
  intros V g st st' root seed AC Hr E. destruct (build_order g AC root Hr) as (order & Eo & CF). exists order. split; auto.
  unfold backward in E. rewrite Eo in E. destruct (addGrad st root seed) as [st1|] eqn:E1; [|discriminate].
  assert (AG : forall (a b : state V) n buf, addGrad a n buf = Some b -> ran b = ran a).
  { intros a b n buf H. unfold addGrad in H. destruct (gradOf a n); [|injection H as <-; auto].
    destruct (nth_error (heap a) n0), (nth_error (heap a) buf); try discriminate. injection H as <-. auto. }
  assert (DG : forall ds (a b : state V) buf, deliverAll a buf ds = Some b -> ran b = ran a).
  { induction ds as [|[t d] ds IH]; intros a b buf H; cbn in H; [injection H as <-; auto|]. destruct (deliver a buf (t, d)) as [c|] eqn:Ec; [|discriminate].
    rewrite (IH _ _ _ H). unfold deliver in Ec. cbn in Ec. destruct d as [|f]; [apply (AG _ _ _ _ Ec)|]. destruct (nth_error (heap a) buf); [|discriminate].
    apply (AG _ _ _ _ Ec). }
  rewrite <- (AG _ _ _ _ E1). clear AG E1 Eo CF. revert st1 E. induction order as [|u order IH]; intros st1 E; cbn in E; [injection E as <-; rewrite app_nil_r; auto|].
  destruct (runFn g st1 u) as [st2|] eqn:E2; [|discriminate]. rewrite (IH _ E). unfold runFn in E2. destruct (nth_error g u); [|discriminate]. destruct (gradOf st1 u); [|discriminate].
  destruct (deliverAll st1 n (deliveries f)) as [st3|] eqn:E3; [|discriminate]. injection E2 as <-. cbn. rewrite (DG _ _ _ _ E3), <- app_assoc. auto.
Qed.
(** Graphs recorded by programs are acyclic: the hypothesis above is no
    restriction. *)
Theorem recorded_graphs_are_acyclic : forall {V} (p : prog V), acyclic (fns (fst (exec p (RState [] [] true)))).
Proof.
  intros V p. apply exec_ok. split; [|intros f []]. intros u f t E. destruct u; discriminate.
Qed.

(** * C22 *)
(** The specification lists exactly the paths. *)
Theorem paths_are_walks : forall {V : gvalues} (g : graph V) root v p, acyclic g -> root < length g -> (In p (paths g root v) <-> walk g root v p).
Proof. intros V g root v p AC Hr. apply paths_walks; auto. Qed.
(** Missing: rules that pass the incoming tensor object itself to an input which
    then receives another gradient (see the refutation); gradients of tensors
    that share a gradient tensor when the pass starts. *)
Theorem leaf_gradients_partial : forall {V : gvalues} (g : graph V) (st : state V) root seed,
  acyclic g -> linear_rules g -> root < length g -> good_heap st -> seed < length (heap st) -> (forall n, gradOf st n <> Some seed) ->
  (forall v, reach g root v -> gradOf st v = None \/ own st v) ->
  new_graph g st root -> passes_safely g root (fun t => gradOf st t = None) ->
  exists st', backward g st root seed = Some st'
  /\ (forall v, gradient st' v = gadd (gradient st v) (total g root v (nth seed (heap st) gzero)))
  /\ (forall v, ~ reach g root v -> gradient st' v = gradient st v).
Proof.
  intros V g st root seed AC LR Hr GH Hs Hn HO HN HP. destruct (backward_ok g st root seed) as (st' & order & H1 & _ & _ & H2 & _); auto.
  exists st'. split; auto. split; auto. intros v Hv. rewrite H2. rewrite total_unreachable by auto. apply gadd_0r.
Qed.
(** In particular when every rule makes new tensors. *)
Theorem leaf_gradients_new_tensors : forall {V : gvalues} (g : graph V) root s,
  acyclic g -> linear_rules g -> root < length g -> (forall u f t, nth_error g u = Some f -> ~ In (t, Pass) (deliveries f)) ->
  exists st', backward g (State [s] (fun _ => None) []) root 0 = Some st' /\ forall v, gradient st' v = total g root v s.
Proof.
  intros V g root s AC LR Hr HP. destruct (leaf_gradients_partial g (State [s] (fun _ => None) []) root 0) as (st' & H1 & H2 & _); auto.
  - intros n b H. discriminate.
  - discriminate.
  - intros v ds _ _. auto.
  - intros u f t _ Ef H. exfalso. apply (HP u f t); auto.
  - exists st'. split; auto. intros v. rewrite H2. apply gadd_0.
Qed.
Definition Zg : gvalues := GValues Z 0%Z Z.add Z.add_0_l Z.add_comm Z.add_assoc.
(** A rule that multiplies the incoming gradient by [c]. *)
Definition times (c : Z) : delivery Zg := Fresh (V := Zg) (fun x : Zg => Z.mul c x : Zg).
(** d = (a + b) + a: add hands the same tensor to both operands; b ends with
    gradient 2. *)
Definition sharing : graph Zg := [FLeaf; FLeaf; FOp [(0, Pass); (1, Pass)]; FOp [(2, Pass); (0, Pass)]].
Theorem leaf_gradients_refuted : acyclic sharing /\ linear_rules sharing
  /\ option_map (fun st' => gradient st' 1) (backward sharing (State [1%Z : Zg] (fun _ => None) []) 3 0) = Some 2%Z /\ total sharing 3 1 (1%Z : Zg) = 1%Z.
Proof.
  split; [|split; [|vm_compute; auto]].
  - intros u f t E Ht. do 4 (destruct u as [|u]; [injection E as <-; cbn in Ht; intuition lia|]). destruct u; discriminate.
  - intros u f t d E Hd. do 4 (destruct u as [|u]; [injection E as <-; cbn in Hd; intuition (match goal with H : (_, _) = (_, _) |- _ => injection H as <- <- end; split; auto)|]). destruct u; discriminate.
Qed.
(** d = 3a * (2a + b)-like graph with sharing of intermediate results; all
    hypotheses of the theorems hold. *)
Definition diamond : graph Zg :=
  [FLeaf; FLeaf; FOp [(0, times 3)]; FOp [(0, times 2); (2, times 7); (1, Pass)]; FOp [(2, times 5); (3, Pass)]].
Example ex_diamond : option_map (fun st' => (gradient st' 0, gradient st' 1, ran st')) (backward diamond (State [10%Z : Zg] (fun _ => None) []) 4 0)
  = Some (380%Z, 10%Z, [4; 3; 2; 1; 0]) /\ total diamond 4 0 (10%Z : Zg) = 380%Z /\ total diamond 4 1 (10%Z : Zg) = 10%Z.
Proof. vm_compute. repeat split. Qed.
Example ex_diamond_hyps : acyclic diamond /\ passes_safely diamond 4 (fun _ => True).
Proof.
  split.
  - intros u f t E Ht. do 5 (destruct u as [|u]; [injection E as <-; cbn in Ht; intuition lia|]). destruct u; discriminate.
  - assert (HB : forall c fc, nth_error diamond c = Some fc -> (c = 4 /\ nexts fc = [2; 3]) \/ (c = 3 /\ nexts fc = [0; 2; 1]) \/ (c = 2 /\ nexts fc = [0]) \/ nexts fc = []).
    { intros c fc E. destruct c as [|[|[|[|[|c]]]]]; try (injection E as <-; cbn; tauto). destruct c; discriminate. }
    intros u f t _ E Hd _.
    assert (HC : (u = 3 /\ t = 1 /\ nexts f = [0; 2; 1]) \/ (u = 4 /\ t = 3 /\ nexts f = [2; 3])).
    { destruct u as [|[|[|[|[|u]]]]]; try (injection E as <-; cbn in Hd; decompose [or] Hd; try contradiction; try discriminate; match goal with H : (_, _) = (_, _) |- _ => injection H as <- end; cbn; tauto). destruct u; discriminate. }
    destruct HC as [(-> & -> & ->)|(-> & -> & ->)]; (split; [reflexivity|]); intros c fc _ Ec Hc;
    destruct (HB _ _ Ec) as [[-> HN]|[[-> HN]|[[-> HN]|HN]]]; rewrite HN in Hc; cbn in Hc; auto; exfalso; intuition lia.
Qed.

(** * C23 *)
(** Any number of passes {zero_grad; forward; backward}, each with newly recorded
    operations: the leaves hold the gradients of the last pass.  Tensors may be
    passed on to leaves, and to operations used once.  Missing: as for C22; and
    the claim about two backward passes over one graph, which is false. *)
Theorem zero_grad_passes_partial : forall {V : gvalues} (g : graph V) leaves st ps r s,
  acyclic g -> linear_rules g -> (forall v, In v leaves -> is_leaf g v) ->
  good_heap st -> (forall v, In v leaves -> gradOf st v = None \/ own st v) ->
  (forall p, In p (ps ++ [(r, s)]) ->
     fst p < length g /\ (forall v, reach g (fst p) v -> is_leaf g v -> In v leaves)
     /\ passes_safely g (fst p) (fun t => ~ is_leaf g t) /\ new_graph g st (fst p)) ->
  ForallOrdPairs (fun p p' => forall v ds, nth_error g v = Some (FOp ds) -> reach g (fst p) v -> ~ reach g (fst p') v) (ps ++ [(r, s)]) ->
  exists st', passes g leaves st (ps ++ [(r, s)]) = Some st' /\ forall v, In v leaves -> gradient st' v = total g r v s.
Proof.
  intros V g L st ps r s AC LR HL GH HO HP HD. destruct (passes_ok g L AC LR HL (ps ++ [(r, s)]) st GH HO) as (st' & E & HV); auto.
  - intros p Hp. destruct (HP p Hp) as (H1 & H2 & H3 & H4). split; auto. split; auto.
  - exists st'. split; auto. intros v Hv. apply (HV ps r s); auto.
Qed.
(** Two backward passes over x -> 3x -> 2(3x): 4 times the gradient, not twice. *)
Theorem backward_twice_refuted :
  let g : graph Zg := [FLeaf; FOp [(0, times 3)]; FOp [(1, times 2)]] in
  let once := backward g (State [1%Z : Zg; 1%Z : Zg] (fun _ => None) []) 2 0 in
  let twice := match once with Some st => backward g st 2 1 | None => None end in
  option_map (fun st => gradient st 0) once = Some 6%Z /\ option_map (fun st => gradient st 0) twice = Some 24%Z.
Proof. vm_compute. auto. Qed.
(** y = a + b: after one backward the leaves share the gradient tensor, and a
    later {zero_grad; backward} leaves twice the gradient. *)
Theorem zero_grad_shared_refuted :
  let g : graph Zg := [FLeaf; FLeaf; FOp [(0, Pass); (1, Pass)]; FOp [(0, Pass); (1, Pass)]] in
  let once := backward g (State [1%Z : Zg] (fun _ => None) []) 2 0 in
  let twice := match once with Some st => pass g [0; 1] st (3, 1%Z : Zg) | None => None end in
  option_map (fun st => gradient st 0) once = Some 1%Z /\ option_map (fun st => gradient st 0) twice = Some 2%Z /\ total g 3 0 (1%Z : Zg) = 1%Z.
Proof. vm_compute. auto. Qed.
(** An intermediate result used twice through additions: wrong even if all
    gradients are zeroed first. *)
Theorem zero_grad_intermediate_refuted :
  let g : graph Zg := [FLeaf; FLeaf; FOp [(0, times (-1))]; FOp [(2, Pass); (1, Pass)]; FOp [(3, Pass); (2, Pass)]] in
  option_map (fun st => gradient st 1) (pass g [0; 1] (State [] (fun _ => None) []) (4, 1%Z : Zg)) = Some 2%Z /\ total g 4 1 (1%Z : Zg) = 1%Z.
Proof. vm_compute. auto. Qed.
Example ex_passes :
  let g : graph Zg := [FLeaf; FLeaf; FOp [(0, Pass); (1, Pass)]; FOp [(0, times 4); (1, Pass)]] in
  option_map (fun st => (gradient st 0, gradient st 1)) (passes g [0; 1] (State [] (fun _ => None) []) [(2, 1%Z : Zg); (3, 5%Z : Zg)]) = Some (20%Z, 5%Z).
Proof. vm_compute. auto. Qed.

(** * C25 *)
(** Executing a program with the thread's flag is the same as executing it with
    the nesting depth: operations inside a scope record nothing, the others
    record their inputs; and the flag ends as it began, also when an exception
    leaves the scopes. *)
Theorem no_grad_nests : forall {V} (p : prog V) depth g ts,
  exec p (RState g ts (depth =? 0))
  = (let r := spec_exec depth p (g, ts) in (RState (fst (fst r)) (snd (fst r)) (depth =? 0), snd r)).
Proof. intros. apply exec_spec. auto. Qed.
Example ex_no_grad : exec (V := Zg) (PCons (SLeaf true) (PCons (STry (PCons (SNoGrad (PCons (SApply [(0, Pass)]) (PCons SThrow PNil))) PNil)) (PCons (SApply [(0, Pass); (1, Pass)]) PNil)))
  (RState [] [] true) = (RState [FLeaf; FOp [(0, Pass)]] [Some 0; None; Some 1] true, false).
Proof. reflexivity. Qed.

(** * C26 *)
(** On a leaf, as long as hooks are unregistered newest first. *)
Theorem hooks_run_partial : forall {H} (cs : list (hook_call H)), newest_first 0 cs -> right_hooks [] cs (hookRun true [] cs).
Proof. intros H cs HN. apply (hooks_newest_first cs []). auto. Qed.
(** The first unregistration removes exactly the hook it names. *)
Theorem first_unregister_removes_that_hook_partial : forall {H} (hs : list H) k, k < length hs ->
  hookRun true [] (map Register hs ++ [Unregister (Z.of_nat k); Backward])
  = map (fun i => RId (Z.of_nat i)) (seq 0 (length hs)) ++ [RDone; RRan (firstn k hs ++ skipn (S k) hs)].
Proof.
  intros H hs k Hk.
  assert (HG : forall l hooks, hooks ++ l = hs -> hookRun true hooks (map Register l ++ [Unregister (Z.of_nat k); Backward])
    = map (fun i => RId (Z.of_nat i)) (seq (length hooks) (length l)) ++ [RDone; RRan (firstn k hs ++ skipn (S k) hs)]).
  { induction l as [|h l IH]; intros hooks E.
    - rewrite app_nil_r in E. subst hooks. cbn [map app hookRun hookStep length seq]. replace ((0 <=? Z.of_nat k) && (Z.of_nat k <? Z.of_nat (length hs)))%Z%bool with true by lia.
      rewrite Nat2Z.id. auto.
    - cbn [map app hookRun hookStep length seq]. rewrite app_length. cbn [length]. replace (length hooks + 1 - 1) with (length hooks) by lia.
      f_equal. rewrite IH by (rewrite <- app_assoc; auto). rewrite app_length. cbn [length]. replace (length hooks + 1) with (S (length hooks)) by lia. auto. }
  apply (HG hs []). auto.
Qed.
(** Otherwise identifiers shift: unregistering the first of three hooks and then
    the second removes the third. *)
Theorem hooks_shift_refuted : forall {H} (a b c : H),
  hookRun true [] [Register a; Register b; Register c; Unregister 0%Z; Unregister 1%Z; Backward]
  = [RId 0%Z; RId 1%Z; RId 2%Z; RDone; RDone; RRan [b]].
Proof. reflexivity. Qed.
(** Hooks of tensors that are not leaves never run. *)
Theorem hooks_of_results_refuted : forall {H} (a : H), hookRun false [] [Register a; Backward] = [RId 0%Z; RRan []].
Proof. reflexivity. Qed.
Example ex_hooks : newest_first 0 [Register 10; Register 20; Backward; Unregister 1%Z; Register 30; Backward; Unregister 1%Z; Unregister 0%Z; Backward]
  /\ hookRun true [] [Register 10; Register 20; Backward; Unregister 1%Z; Register 30; Backward; Unregister 1%Z; Unregister 0%Z; Backward]
  = [RId 0%Z; RId 1%Z; RRan [10; 20]; RDone; RId 1%Z; RRan [10; 30]; RDone; RDone; RRan []].
Proof. split; [cbn; intuition lia|reflexivity]. Qed.

(** * C54 *)
(** Whatever the interleaving of saves and reads, the values read are the first
    of those saved, in order, and the rest is still there. *)
Theorem saved_data_in_order : forall {A} (cs : list (ctx_call A)) rest out, ctxRun [] cs = Some (rest, out) -> out ++ rest = pushed cs.
Proof. intros A cs rest out E. apply (ctx_fifo cs [] rest out E). Qed.
(** It fails exactly when more values are asked for than were saved. *)
Theorem saved_data_overrun_reported : forall {A} (cs : list (ctx_call A)),
  ctxRun [] cs = None <-> exists cs1 cs2, cs = cs1 ++ cs2 /\ length (pushed cs1) < pops cs1.
Proof. intros A cs. apply (ctx_fails cs []). Qed.
(** So a second backward of an operation that read everything it saved fails. *)
Theorem second_backward_reported : forall {A} (xs : list A), xs <> [] ->
  ctxRun [] (map PushData xs ++ repeat PopData (length xs)) = Some ([], xs)
  /\ ctxRun [] (map PushData xs ++ repeat PopData (length xs) ++ repeat PopData (length xs)) = None.
Proof.
  intros A xs Hx.
  assert (P1 : forall l, pushed (map (@PushData A) l) = l) by (induction l; cbn; congruence).
  assert (P2 : forall n, pushed (repeat (@PopData A) n) = []) by (induction n; cbn; auto).
  assert (P3 : forall l, pops (map (@PushData A) l) = 0) by (induction l; cbn; auto).
  assert (P4 : forall n, pops (repeat (@PopData A) n) = n) by (induction n; cbn; auto).
  assert (P5 : forall (a b : list (ctx_call A)), pushed (a ++ b) = pushed a ++ pushed b) by (induction a as [|[x|] a IH]; intros b; cbn; auto; rewrite IH; auto).
  assert (P6 : forall (a b : list (ctx_call A)), pops (a ++ b) = pops a + pops b) by (induction a as [|[x|] a IH]; intros b; cbn; auto; rewrite IH; auto).
  split.
  - assert (H : forall d l, ctxRun d (map (@PushData A) l ++ repeat PopData (length (d ++ l))) = Some ([], d ++ l)).
    { intros d l. revert d. induction l as [|x l IH]; intros d; cbn [map app ctxRun ctxStep].
      - rewrite app_nil_r. induction d as [|y d IHd]; auto. cbn. rewrite IHd. auto.
      - specialize (IH (d ++ [x])). rewrite <- app_assoc in IH. cbn [app] in IH. rewrite IH. auto. }
    apply (H [] xs).
  - apply saved_data_overrun_reported. exists (map PushData xs ++ repeat PopData (length xs) ++ repeat PopData (length xs)), []. rewrite app_nil_r. split; auto.
    rewrite !P5, !P6, P1, !P2, P3, !P4, !app_nil_r. destruct xs; [congruence|]. cbn. lia.
Qed.
Example ex_saved : ctxRun [] [PushData 1; PushData 2; PopData; PushData 3; PopData] = Some ([3], [1; 2]).
Proof. reflexivity. Qed.

Print Assumptions backward_order.
Print Assumptions leaf_gradients_partial.
Print Assumptions zero_grad_passes_partial.
Print Assumptions no_grad_nests.
Print Assumptions hooks_run_partial.
Print Assumptions saved_data_overrun_reported.
