(** Data-parallel training equals training in one process. *)
From Coq Require Import ZArith List Arith Bool Lia Reals Lra Permutation FunctionalExtensionality.
From Verif Require Import OptimModel OptimSpec OptimProofs OptimProofs2 ReducerModel ReducerSpec ReducerProofs ReducerProps DdpModel DdpSpec.
Import ListNotations.
Open Scope nat_scope.

(** * Numbering *)
Lemma flat_shift : forall A (f : nat -> list A) n s, flat_map f (seq (S s) n) = flat_map (fun x => f (S x)) (seq s n).
Proof. intros A f n s. rewrite <- seq_shift, !flat_map_concat_map, map_map. reflexivity. Qed.
Lemma map_add : forall n s, map (fun k => s + k) (seq 0 n) = seq s n.
Proof.
  intros n s. revert s. induction n as [|n IH]; intros s; [reflexivity|]. cbn [seq map]. f_equal; [lia|].
  rewrite <- seq_shift, map_map, <- (IH (S s)). apply map_ext. intros x. lia.
Qed.
Lemma tiling_flat : forall sizes offs start stop base, tiling start offs sizes stop ->
  start <= stop /\
  flat_map (fun p => map (fun k => base + nth p offs 0 + k) (seq 0 (nth p sizes 0))) (seq 0 (length sizes)) = seq (base + start) (stop - start).
Proof.
  induction sizes as [|s sizes IH]; intros [|o offs] start stop base H; cbn in H; try contradiction.
  - subst. rewrite Nat.sub_diag. split; [lia|reflexivity].
  - destruct H as (-> & H). destruct (IH _ _ _ base H) as (L & E). split; [lia|]. cbn [length seq flat_map nth].
    rewrite flat_shift. cbn [nth]. rewrite E, map_add. replace (stop - start) with (s + (stop - (start + s))) by lia.
    rewrite seq_app. f_equal. f_equal. lia.
Qed.
Definition tiled (b : bucket) : Prop := tiling 0 (boffsets b) (bsizes b) (btotal b) /\ length (bsizes b) = length (bparams b).
Lemma flat_flat : forall A B C (f : B -> list C) (g : A -> list B) l, flat_map f (flat_map g l) = flat_map (fun x => flat_map f (g x)) l.
Proof. intros A B C f g l. induction l as [|x l IH]; [reflexivity|]. cbn. rewrite flat_map_app, IH. reflexivity. Qed.
Lemma flat_of_map : forall A B C (f : B -> list C) (g : A -> B) l, flat_map f (map g l) = flat_map (fun x => f (g x)) l.
Proof. intros A B C f g l. induction l as [|x l IH]; [reflexivity|]. cbn. rewrite IH. reflexivity. Qed.
Lemma elements_places : forall bs, Forall tiled bs -> flat_map (elements bs) (places bs) = seq 0 (nelems bs).
Proof.
  intros bs H. unfold places. rewrite flat_flat.
  assert (G : forall l base, Forall tiled l ->
    flat_map (fun b => flat_map (fun p => map (fun k => base + list_sum (map btotal (firstn b l)) + poffset l b p + k) (seq 0 (psize l b p))) (seq 0 (nparams l b))) (seq 0 (length l))
    = seq base (nelems l)).
  { induction l as [|b l IH]; intros base Hl; [reflexivity|]. inversion Hl as [|b' l' (Ht & He) Hl']; subst. cbn [length seq flat_map].
    rewrite flat_shift. unfold nelems. cbn [map list_sum fold_right]. change (fold_right Nat.add 0 (map btotal l)) with (nelems l). rewrite seq_app. f_equal.
    - unfold nparams, psize, poffset. cbn [nth_error firstn map list_sum fold_right]. destruct (tiling_flat _ _ _ _ (base + 0) Ht) as (_ & E).
      rewrite He in E. rewrite E. f_equal; lia.
    - rewrite <- (IH (base + btotal b) Hl'). apply flat_map_ext. intros x. unfold nparams, psize, poffset. cbn [nth_error firstn map list_sum fold_right].
      apply flat_map_ext. intros p. apply map_ext. intros k. change (fold_right Nat.add 0 (map btotal (firstn x l))) with (list_sum (map btotal (firstn x l))). lia. }
  rewrite <- (G bs 0 H). apply flat_map_ext. intros b. rewrite flat_of_map. reflexivity.
Qed.
Lemma in_places : forall bs b p, In (b, p) (places bs) <-> exists bk, nth_error bs b = Some bk /\ p < length (bparams bk).
Proof.
  intros bs b p. unfold places. rewrite in_flat_map. split.
  - intros (b' & Hb & Hp). apply in_map_iff in Hp. destruct Hp as (p' & E & Hp). injection E as -> ->. apply in_seq in Hp. unfold nparams in Hp.
    destruct (nth_error bs b) as [bk|] eqn:Eb; [exists bk; split; [reflexivity|lia]|lia].
  - intros (bk & Hb & Hp). exists b. split; [apply in_seq; split; [lia|cbn; apply nth_error_Some; congruence]|].
    apply in_map. apply in_seq. unfold nparams. rewrite Hb. lia.
Qed.
Lemma nodup_app : forall A (l l' : list A), NoDup l -> NoDup l' -> (forall x, In x l -> ~ In x l') -> NoDup (l ++ l').
Proof.
  intros A l l' H H' D. induction H as [|x l N H IH]; [exact H'|]. cbn. constructor.
  - rewrite in_app_iff. intros [C|C]; [exact (N C)|exact (D x (or_introl eq_refl) C)].
  - apply IH. intros y Hy. apply D. right; exact Hy.
Qed.
Lemma nodup_places : forall bs, NoDup (places bs).
Proof.
  intros bs. unfold places. enough (G : forall n s, NoDup (flat_map (fun b => map (fun p => (b, p)) (seq 0 (nparams bs b))) (seq s n))) by apply G.
  induction n as [|n IH]; intros s; [constructor|]. cbn [seq flat_map].
  apply nodup_app; [|apply IH|].
  - apply FinFun.Injective_map_NoDup; [intros x y E; congruence|apply seq_NoDup].
  - intros (b, p) H1 H2. apply in_map_iff in H1. destruct H1 as (x & E & _). injection E as <- <-. apply in_flat_map in H2. destruct H2 as (y & Hy & Hx).
    apply in_map_iff in Hx. destruct Hx as (z & E & _). injection E as -> _. apply in_seq in Hy. lia.
Qed.
Lemma complete_perm : forall bs o, complete bs o -> Permutation o (places bs).
Proof.
  intros bs o (N & H). apply NoDup_Permutation; [exact N|apply nodup_places|]. intros (b, p). rewrite H, in_places. reflexivity.
Qed.
Lemma complete_elements : forall bs o, Forall tiled bs -> complete bs o -> Permutation (flat_map (elements bs) o) (seq 0 (nelems bs)).
Proof. intros bs o Ht H. rewrite <- (elements_places bs Ht). apply Permutation_flat_map. apply complete_perm. exact H. Qed.

(** * Gradient slots as events *)
Lemma add_twice : forall i x y st, addGrad i y (addGrad i x st) = addGrad i (x + y)%R st.
Proof.
  intros i x y st. unfold addGrad. destruct (gradH st i) as [r|] eqn:E; cbn.
  - rewrite E. cbn. unfold withHeap. cbn. f_equal. apply functional_extensionality. intros j. unfold set.
    destruct (Nat.eqb_spec j r) as [->|]; [rewrite Nat.eqb_refl; ring|reflexivity].
  - unfold set at 1. rewrite Nat.eqb_refl. cbn. unfold withHeap, withGrad. cbn. f_equal. apply functional_extensionality. intros j. unfold set.
    destruct (Nat.eqb_spec j (next st)) as [->|]; [rewrite Nat.eqb_refl; reflexivity|reflexivity].
Qed.
Lemma write_as_event : forall st i v r, gradH st i = Some r -> writeGrad st i v = Some (addGrad i (v - gradOf st i)%R st).
Proof.
  intros st i v r E. unfold writeGrad, addGrad, gradOf. rewrite E. replace (heap st r + (v - heap st r))%R with v by ring. reflexivity.
Qed.
Lemma gradOf_option : forall st i, gradOf st i = match option_map (heap st) (gradH st i) with Some x => x | None => 0%R end.
Proof. intros. unfold gradOf. destruct (gradH st i); reflexivity. Qed.
Lemma add_frame : forall st i g, wf st -> gradH st i <> None ->
  wf (addGrad i g st) /\ (forall j, gradH (addGrad i g st) j = gradH st j) /\ forall j, j <> i -> gradOf (addGrad i g st) j = gradOf st j.
Proof.
  intros st i g W N. unfold addGrad. destruct (gradH st i) as [r|] eqn:E; [|congruence]. split; [exact W|]. split; [reflexivity|].
  intros j Hj. unfold gradOf. cbn. destruct (gradH st j) as [r'|] eqn:Ej; [|reflexivity]. apply set_other. intros ->. apply Hj. exact (proj2 W _ _ _ Ej E).
Qed.
Lemma writes_as_events : forall n a iv st, wf st -> NoDup (map fst iv) -> (forall i, In i (map fst iv) -> gradH st i <> None) ->
  writeGrads st iv = Some (fold_left (handle n a) (map (fun x => EGrad (fst x) (snd x - gradOf st (fst x))%R) iv) st).
Proof.
  intros n a iv. induction iv as [|(i, v) iv IH]; intros st W N G; [reflexivity|]. cbn [writeGrads map fold_left fst snd] in *.
  inversion N as [|i' l Hi N']; subst.
  destruct (gradH st i) as [r|] eqn:E; [|exfalso; apply (G i (or_introl eq_refl)); exact E].
  rewrite (write_as_event st i v r E). cbn [handle]. destruct (add_frame st i (v - gradOf st i)%R W ltac:(congruence)) as (W' & H' & G').
  rewrite IH; [|exact W'|exact N'|intros j Hj; rewrite H'; apply G; right; exact Hj]. f_equal.
  set (st' := addGrad i (v - gradOf st i)%R st) in *.
  replace (map (fun x : nat * R => EGrad (fst x) (snd x - gradOf st' (fst x))%R) iv) with (map (fun x : nat * R => EGrad (fst x) (snd x - gradOf st (fst x))%R) iv); [reflexivity|].
  apply map_ext_in. intros (j, w) Hj. cbn [fst snd]. rewrite G'; [reflexivity|]. intros ->. apply Hi. apply (in_map fst) in Hj. exact Hj.
Qed.
Lemma writeGrads_app : forall l l' st, writeGrads st (l ++ l') = match writeGrads st l with Some s => writeGrads s l' | None => None end.
Proof. induction l as [|(i, v) l IH]; intros l' st; [reflexivity|]. cbn. destruct (writeGrad st i v); [apply IH|reflexivity]. Qed.
Lemma combine_map_self : forall A B (f : A -> B) l, combine l (map f l) = map (fun x => (x, f x)) l.
Proof. intros A B f l. induction l as [|x l IH]; [reflexivity|]. cbn. rewrite IH. reflexivity. Qed.
Lemma copyToGrads_all : forall bs rs r gs M l st, (forall b p, In (b, p) l -> gradAfter bs rs r gs b p = Some (map M (elements bs (b, p)))) ->
  copyToGrads bs rs r gs l st = writeGrads st (map (fun i => (i, M i)) (flat_map (elements bs) l)).
Proof.
  intros bs rs r gs M l. induction l as [|(b, p) l IH]; intros st H; [reflexivity|]. cbn [copyToGrads flat_map].
  rewrite (H b p (or_introl eq_refl)), combine_map_self, map_app, writeGrads_app.
  destruct (writeGrads st _); [|reflexivity]. apply IH. intros b' p' Hl. apply H. right; exact Hl.
Qed.

(** * Runs that agree at one element *)
Section Same.
Variables (n : nat) (a : algo) (lr0 : R).
Definition sim (i : nat) (er es : list event) : Prop :=
  forall th, train n a lr0 th (filter (concerns i) er) = train n a lr0 th (filter (concerns i) es).
Lemma train_app : forall th es s, train n a lr0 th (es ++ s) = fold_left (handle n a) s (train n a lr0 th es).
Proof. intros. unfold train. apply fold_left_app. Qed.
Lemma sim_theta : forall i er es th th', sim i er es -> i < n -> th i = th' i -> theta (train n a lr0 th er) i = theta (train n a lr0 th' es) i.
Proof. intros i er es th th' S Hi E. rewrite (independent n a lr0 th th' er i Hi E), (independent n a lr0 th' th' es i Hi eq_refl), S. reflexivity. Qed.
Lemma sim_grad : forall i er es, sim i er es -> gradientOf n i er = gradientOf n i es.
Proof.
  intros i er es S. rewrite <- (gradientOf_filter n i er), <- (gradientOf_filter n i es).
  rewrite <- (proj1 (proj2 (slots_inv n a lr0 (fun _ => 0%R) (filter (concerns i) er))) i), <- (proj1 (proj2 (slots_inv n a lr0 (fun _ => 0%R) (filter (concerns i) es))) i).
  rewrite S. reflexivity.
Qed.
Lemma sim_app : forall i er es s s', sim i er es -> (forall st, fold_left (handle n a) (filter (concerns i) s) st = fold_left (handle n a) (filter (concerns i) s') st) ->
  sim i (er ++ s) (es ++ s').
Proof. intros i er es s s' S H th. rewrite !filter_app, !train_app, S. apply H. Qed.
Lemma filter_grads : forall (g : nat -> R) l i, NoDup l -> In i l -> filter (concerns i) (map (fun j => EGrad j (g j)) l) = [EGrad i (g i)].
Proof.
  intros g l i N. induction N as [|j l Hj N IH]; intros H; [destruct H|]. cbn [map filter concerns]. destruct (Nat.eqb_spec j i) as [->|Ne].
  - f_equal. clear IH H N. induction l as [|k l IH]; [reflexivity|]. cbn [map filter concerns]. destruct (Nat.eqb_spec k i) as [->|]; [exfalso; apply Hj; left; reflexivity|].
    apply IH. intros C. apply Hj. right; exact C.
  - apply IH. destruct H; [contradiction|assumption].
Qed.
End Same.
