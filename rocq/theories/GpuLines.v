(* Kernels whose blocks read, reduce and write: rules for a block and for the launch. *)
From Coq Require Import List Arith ZArith Bool Lia Permutation.
From Verif Require Import GpuModel GpuSpec GpuProofs GpuLemmas GpuWarp CudaModel CudaReduceModel CudaReduceProofs CudaLineModel GpuBlock.
Import ListNotations.
Local Open Scope nat_scope.

Lemma fin_choice : forall A (d : A) (P : nat -> A -> Prop) n, (forall t, t < n -> exists x, P t x) -> exists f, forall t, t < n -> P t (f t).
Proof.
  intros A d P. induction n as [|n IH]; intros H.
  - exists (fun _ => d). intros t Ht. lia.
  - destruct IH as [f Hf]; [intros t Ht; apply H; lia|]. destruct (H n) as [x Hx]; [lia|]. exists (fun t => if t =? n then x else f t). intros t Ht.
    destruct (Nat.eqb_spec t n) as [->|N]; [exact Hx|]. apply Hf. lia.
Qed.

Section Lines.
Context {V : Type}.
Variable m : addr -> cell V.
Variable out : nat.

Definition like (g : addr -> cell V) : Prop := forall a, fst a <> out -> g a = m a.

(* P goes on as P' after reading other buffers than out *)
Definition quietly (P P' : thr V) : Prop :=
  forall g s r w c d, like g -> exists R, (forall a, In a R -> fst a <> out) /\ solo P g s r w c d = solo P' g s (R ++ r) w c d.

Lemma quietly_refl : forall P, quietly P P.
Proof. intros P g s r w c d _. exists []. split; [intros a []|reflexivity]. Qed.

Lemma quietly_trans : forall P P' P'', quietly P P' -> quietly P' P'' -> quietly P P''.
Proof.
  intros P P' P'' H H' g s r w c d L. destruct (H g s r w c d L) as (R1 & A & E). destruct (H' g s (R1 ++ r) w c d L) as (R2 & A' & E').
  exists (R2 ++ R1). split; [intros a Hin; apply in_app_or in Hin as [Hin|Hin]; auto|]. rewrite E, E', app_assoc. reflexivity.
Qed.

Lemma quietly_ld : forall a v k, fst a <> out -> m a = Some (Some v) -> quietly (Ld a k) (k v).
Proof.
  intros a v k N E g s r w c d L. exists [a]. split; [intros b [<-|[]]; exact N|]. cbn [solo]. rewrite (L a N), E. reflexivity.
Qed.

Lemma quietly_each : forall A (body : nat -> A -> (A -> thr V) -> thr V) h k is acc, (forall i acc k, In i is -> quietly (body i acc k) (k (h acc i))) ->
  quietly (each is body acc k) (k (fold_left h is acc)).
Proof.
  intros A body h k. induction is as [|i is IH]; intros acc H; cbn [each fold_left]; [apply quietly_refl|].
  eapply quietly_trans; [apply H; left; reflexivity|]. apply IH. intros j acc' k' Hj. apply H. right. exact Hj.
Qed.

(* what a thread has done that wrote y i at each at_ i, i in is *)
Definition wrote (at_ : nat -> Z) (y : nat -> V) (is : list nat) (L : lane) : Prop :=
  (forall a, In a (gr L) -> fst a <> out) /\
  (forall a, In a (gw L) -> exists i, In i is /\ a = (out, at_ i)) /\
  (forall i, In i is -> In (out, at_ i) (gw L) /\ lg L (out, at_ i) = Some (Some (y i))).

Lemma writes : forall at_ y (body : nat -> unit -> (unit -> thr V) -> thr V) is,
  (forall i u k, In i is -> quietly (body i u k) (St (out, at_ i) (y i) (k tt))) ->
  NoDup is -> (forall i j, In i is -> In j is -> at_ i = at_ j -> i = j) -> (forall i, In i is -> m (out, at_ i) <> None) ->
  forall s r c d, (forall a, In a r -> fst a <> out) ->
  exists L, solo (each is body tt (fun _ => Done)) m s r [] c d = Some L /\ lp L = Done /\ sw L = d /\ wrote at_ y is L.
Proof.
  intros at_ y body is0 H0 ND0 INJ0 AV0 s r0 c d HR0.
  assert (G : forall is done g r w, is0 = done ++ is -> like g -> (forall a, In a r -> fst a <> out) ->
    (forall a, In a w -> exists i, In i done /\ a = (out, at_ i)) -> (forall i, In i done -> In (out, at_ i) w /\ g (out, at_ i) = Some (Some (y i))) ->
    (forall a, (forall i, In i done -> a <> (out, at_ i)) -> g a = m a) ->
    exists L, solo (each is body tt (fun _ => Done)) g s r w c d = Some L /\ lp L = Done /\ sw L = d /\ wrote at_ y is0 L).
  { induction is as [|i is IH]; intros done g r w E Lk HR HW HD HO; cbn [each].
    - rewrite app_nil_r in E. subst done. exists (mkLane g s Done r w c d). cbn [solo]. repeat split; auto; apply HD; assumption.
    - assert (Ii : In i is0) by (rewrite E; apply in_or_app; right; left; reflexivity).
      assert (Ni : ~ In i done). { rewrite E in ND0. apply NoDup_remove_2 in ND0. intros X. apply ND0, in_or_app. left. exact X. }
      destruct (H0 i tt (fun acc => each is body acc (fun _ => Done)) Ii g s r w c d Lk) as (R & HRR & ES). rewrite ES. cbn [solo].
      assert (Gi : g (out, at_ i) = m (out, at_ i)).
      { apply HO. intros j Hj X. apply (f_equal snd) in X. cbn [snd] in X. apply INJ0 in X; [subst j; contradiction|exact Ii|rewrite E; apply in_or_app; left; exact Hj]. }
      destruct (g (out, at_ i)) eqn:EG; [|exfalso; apply (AV0 i Ii); symmetry; exact Gi]. clear Gi.
      apply (IH (done ++ [i])).
      + rewrite <- app_assoc. exact E.
      + intros a N. rewrite upd_other; [apply Lk, N|]. intros <-. apply N. reflexivity.
      + intros a Hin. apply in_app_or in Hin as [Hin|Hin]; auto.
      + intros a [<-|Hin]; [exists i; split; [apply in_or_app; right; left; reflexivity|reflexivity]|]. destruct (HW a Hin) as (j & Hj & Ej). exists j. split; [apply in_or_app; left; exact Hj|exact Ej].
      + intros j Hj. apply in_app_or in Hj as [Hj|[<-|[]]].
        * destruct (HD j Hj) as [A B]. split; [right; exact A|]. rewrite upd_other; [exact B|]. intros X. apply (f_equal snd) in X. cbn [snd] in X.
          apply INJ0 in X; [subst j; contradiction|exact Ii|rewrite E; apply in_or_app; left; exact Hj].
        * split; [left; reflexivity|apply upd_same].
      + intros a N. rewrite upd_other; [apply HO|].
        * intros j Hj. apply N, in_or_app. left. exact Hj.
        * intros X. apply (N i); [apply in_or_app; right; left; reflexivity|symmetry; exact X]. }
  apply (G is0 [] m r0 []); [reflexivity|intros a _; reflexivity|exact HR0|intros a []|intros i []|intros a _; reflexivity].
Qed.

(* ---- a block whose threads have written nothing yet ---- *)
Definition lanes (S : addr -> cell V) (P : nat -> thr V) (r : nat -> list addr) (c : nat -> list addr) : nat -> lane :=
  fun t => mkLane m S (P t) (r t) [] (c t) [].

(* whatever they have read, the threads get to the end *)
Definition gets (BD : nat) (S : addr -> cell V) (P : nat -> thr V) (c : nat -> list addr) (Q : (nat -> lane) -> Prop) : Prop :=
  forall r, (forall t a, t < BD -> In a (r t) -> fst a <> out) -> ends BD S (lanes S P r c) Q.

Lemma gets_quietly : forall BD S P P' c Q, (forall t, t < BD -> quietly (P t) (P' t)) -> gets BD S P' c Q -> gets BD S P c Q.
Proof.
  intros BD S P P' c Q H G r HR.
  destruct (fin_choice (list addr) [] (fun t R => (forall a, In a R -> fst a <> out) /\ run (lanes S P r c t) = run (lanes S P' (fun t => R ++ r t) c t)) BD) as [R HRR].
  { intros t Ht. destruct (H t Ht m S (r t) [] (c t) []) as (R & A & E); [intros a _; reflexivity|]. exists R. split; [exact A|exact E]. }
  apply (ends_run BD S _ (lanes S P' (fun t => R t ++ r t) c)).
  - intros t Ht. apply HRR, Ht.
  - apply G. intros t a Ht Hin. apply in_app_or in Hin as [Hin|Hin]; [apply (proj1 (HRR t Ht)), Hin|apply (HR t a Ht), Hin].
Qed.

Lemma gets_sld : forall BD S P a v c Q, S a = Some (Some v) -> gets BD S (fun t => P t v) (fun t => a :: c t) Q -> gets BD S (fun t => SLd a (P t)) c Q.
Proof.
  intros BD S P a v c Q E G r HR. eapply ends_run; [|apply (G r HR)]. intros t Ht. unfold run, lanes. cbn [lp lg ls gr gw sr sw solo]. rewrite E. reflexivity.
Qed.

Lemma gets_publish : forall BD S (P : nat -> thr V) a v c Q, 0 < BD -> S a <> None -> (forall t, t < BD -> ~ In a (c t)) ->
  gets BD (upd S a (Some (Some v))) P (fun _ => []) Q ->
  gets BD S (fun t => if t =? 0 then SSt a v (Sync (P t)) else Sync (P t)) c Q.
Proof.
  intros BD S P a v c Q HB HS HC G r HR. apply (ends_publish BD S (fun _ => m) P r (fun _ => []) c a v Q HB HS HC). apply (G r HR).
Qed.

Lemma gets_reduce : forall op e W S (k : nat -> V -> thr V) c sa (f : nat -> V) Q,
  (forall a b, op a b = op b a) -> (forall a b c, op a (op b c) = op (op a b) c) -> op e e = e ->
  0 < W <= 32 -> (forall t, op (f t) e = f t) -> (forall z, (0 <= z < 32)%Z -> S (sa, z) <> None) ->
  (forall t a, t < 32 * W -> In a (c t) -> fst a <> sa) ->
  (forall S', (forall a, fst a <> sa -> S' a = S a) -> (forall z, (0 <= z < 32)%Z -> S' (sa, z) <> None) ->
     gets (32 * W) S' (fun t => k t (fold_right op e (map f (seq 0 (32 * W))))) (fun _ => [(sa, 0%Z)]) Q) ->
  gets (32 * W) S (fun t => blockReduce sa op (32 * W) t (f t) e (k t)) c Q.
Proof.
  intros op e W S k c sa f Q Hc Ha He HW HF HS HC G r HR.
  apply (ends_reduce op e Hc Ha He W S (fun _ => m) k r (fun _ => []) c sa f Q HW HF HS HC). intros S' A B. apply (G S' A B r HR).
Qed.

Lemma gets_write : forall BD S (body : nat -> nat -> unit -> (unit -> thr V) -> thr V) at_ y (is : nat -> list nat) c,
  (forall t i u k, t < BD -> In i (is t) -> quietly (body t i u k) (St (out, at_ i) (y i) (k tt))) ->
  (forall t, t < BD -> NoDup (is t)) -> (forall t i j, t < BD -> In i (is t) -> In j (is t) -> at_ i = at_ j -> i = j) ->
  (forall t i, t < BD -> In i (is t) -> m (out, at_ i) <> None) ->
  gets BD S (fun t => each (is t) (body t) tt (fun _ => Done)) c (fun Lf => forall t, t < BD -> wrote at_ y (is t) (Lf t)).
Proof.
  intros BD S body at_ y is c H ND INJ AV r HR.
  destruct (fin_choice lane (mkLane m S Done [] [] [] []) (fun t L => run (lanes S (fun t => each (is t) (body t) tt (fun _ => Done)) r c t) = Some L /\ lp L = Done /\ sw L = [] /\ wrote at_ y (is t) L) BD) as [Lf HL].
  { intros t Ht. destruct (writes at_ y (body t) (is t)) with (s := S) (r := r t) (c := c t) (d := @nil addr) as (L & A & B & C & D); eauto. }
  apply (ends_done BD S _ Lf).
  - intros t Ht. destruct (HL t Ht) as (A & B & C & D). auto.
  - intros t Ht. apply HL, Ht.
Qed.

(* the launch *)
Lemma lines_run : forall (l : launch V) at_ y (is : nat -> nat -> list nat), accepted l ->
  (forall b, b < grid l -> gets (bdim l) (fun a => if shar l a then Some None else None) (code l b) (fun _ => []) (fun Lf => forall t, t < bdim l -> wrote (at_ b) (y b) (is b t) (Lf t))) ->
  (forall b t i b' t' i', b < grid l -> t < bdim l -> In i (is b t) -> b' < grid l -> t' < bdim l -> In i' (is b' t') -> at_ b i = at_ b' i' -> b = b' /\ t = t' /\ i = i') ->
  always l m (fun m' => (forall b t i, b < grid l -> t < bdim l -> In i (is b t) -> m' (out, at_ b i) = Some (Some (y b i))) /\
                        (forall a, (forall b t i, b < grid l -> t < bdim l -> In i (is b t) -> a <> (out, at_ b i)) -> m' a = m a)).
Proof.
  intros l at_ y is ACC H INJ. set (S0 := (fun a => if shar l a then Some None else None) : addr -> cell V) in *.
  destruct (fin_choice (nat -> lane) (fun _ => mkLane m S0 Done [] [] [] []) (fun b Lf => beval (bdim l) S0 (lane0 l m b) Lf /\ forall t, t < bdim l -> wrote (at_ b) (y b) (is b t) (Lf t)) (grid l)) as [Lf HL].
  { intros b Hb. destruct (H b Hb (fun _ => [])) as (Lf & A & B); [intros t a _ []|]. exists Lf. split; [exact A|exact B]. }
  apply (race_free l m Lf); [exact ACC| |].
  - split; [intros b Hb; apply HL, Hb|]. intros b t b' t' a Hb Ht Hb' Ht' N Hin.
    destruct (HL b Hb) as [_ Wb]. destruct (HL b' Hb') as [_ Wb']. destruct (Wb t Ht) as (_ & W1 & _). destruct (Wb' t' Ht') as (R2 & W2 & _).
    destruct (W1 a Hin) as (i & Hi & ->). split.
    + intros X. apply (R2 _ X). reflexivity.
    + intros X. destruct (W2 _ X) as (i' & Hi' & E). apply (f_equal snd) in E. cbn [snd] in E. destruct (INJ b t i b' t' i') as (-> & -> & _); auto.
  - intros m' GM. split.
    + intros b t i Hb Ht Hi. destruct (HL b Hb) as [_ Wb]. destruct (Wb t Ht) as (_ & _ & W3). destruct (W3 i Hi) as [In1 Val].
      destruct (GM (out, at_ b i)) as [(b' & t' & Hb' & Ht' & Hin & E)|[N _]]; [|exfalso; apply (N b t Hb Ht In1)].
      destruct (HL b' Hb') as [_ Wb']. destruct (Wb' t' Ht') as (_ & W2 & _). destruct (W2 _ Hin) as (i' & Hi' & E'). apply (f_equal snd) in E'. cbn [snd] in E'.
      destruct (INJ b t i b' t' i') as (-> & -> & _); auto. rewrite E. exact Val.
    + intros a N. destruct (GM a) as [(b & t & Hb & Ht & Hin & E)|[_ E]]; [|exact E]. destruct (HL b Hb) as [_ Wb]. destruct (Wb t Ht) as (_ & W2 & _).
      destruct (W2 a Hin) as (i & Hi & Ea). exfalso. apply (N b t i); auto.
Qed.
End Lines.

(* ---- the loops of a block share out the elements ---- *)
Lemma strided_in : forall bd n, 0 < bd -> forall fuel s i, n <= s + fuel -> (In i (strided fuel s bd n) <-> i < n /\ exists j, i = s + j * bd).
Proof.
  intros bd n HB. induction fuel as [|fuel IH]; intros s i Hf; cbn [strided].
  - split; [intros []|]. intros [Hi [j ->]]. lia.
  - destruct (Nat.ltb_spec s n) as [Hs|Hs].
    + split.
      * intros [<-|Hin]; [split; [exact Hs|exists 0; lia]|]. apply IH in Hin as [Hi [j ->]]; [|lia]. split; [exact Hi|]. exists (Datatypes.S j). cbn [Nat.mul]. lia.
      * intros [Hi [j E]]. destruct j as [|j]; [left; lia|]. right. apply IH; [lia|]. split; [exact Hi|]. exists j. cbn [Nat.mul] in E. lia.
    + split; [intros []|]. intros [Hi [j ->]]. lia.
Qed.

Lemma strided_ge : forall bd n fuel s i, In i (strided fuel s bd n) -> s <= i.
Proof.
  intros bd n. induction fuel as [|fuel IH]; intros s i Hin; cbn [strided] in Hin; [destruct Hin|]. destruct (s <? n); [|destruct Hin].
  destruct Hin as [<-|Hin]; [lia|]. apply IH in Hin. lia.
Qed.

Lemma strided_nodup : forall bd n, 0 < bd -> forall fuel s, NoDup (strided fuel s bd n).
Proof.
  intros bd n HB. induction fuel as [|fuel IH]; intros s; cbn [strided]; [constructor|]. destruct (s <? n); [|constructor]. constructor; [|apply IH].
  intros X. apply strided_ge in X. lia.
Qed.

Lemma nodup_flat : forall (f : nat -> list nat) l, NoDup l -> (forall t, In t l -> NoDup (f t)) -> (forall t t' i, In t l -> In t' l -> In i (f t) -> In i (f t') -> t = t') -> NoDup (flat_map f l).
Proof.
  intros f. induction l as [|t l IH]; intros ND H D; cbn [flat_map]; [constructor|]. inversion_clear ND.
  assert (G : NoDup (flat_map f l)). { apply IH; auto; intros; [apply H; right; assumption|apply (D t0 t' i); try right; assumption]. }
  assert (N : forall i, In i (f t) -> ~ In i (flat_map f l)).
  { intros i Hi X. apply in_flat_map in X as (t' & Ht' & Hi'). apply H0. rewrite (D t t' i); auto; [left; reflexivity|right; exact Ht']. }
  assert (F : NoDup (f t)) by (apply H; left; reflexivity). clear - G N F. induction (f t) as [|i l' IH]; [exact G|]. cbn [app]. inversion_clear F. constructor.
  - intros X. apply in_app_or in X as [X|X]; [contradiction|apply (N i); [left; reflexivity|exact X]].
  - apply IH; auto. intros j Hj. apply N. right. exact Hj.
Qed.

(* the parts of [lo, lo + len) *)
Lemma shares : forall (f : nat -> list nat) T lo len, (forall t, t < T -> NoDup (f t)) ->
  (forall t t' i, t < T -> t' < T -> In i (f t) -> In i (f t') -> t = t') -> (forall i, lo <= i < lo + len <-> exists t, t < T /\ In i (f t)) ->
  Permutation (flat_map f (seq 0 T)) (seq lo len).
Proof.
  intros f T lo len ND D C. apply NoDup_Permutation; [|apply seq_NoDup|].
  - apply nodup_flat; [apply seq_NoDup| |]; [intros t Ht|intros t t' i Ht Ht']; apply in_seq in Ht; try apply in_seq in Ht'; [apply ND; lia|apply D; lia].
  - intros i. rewrite in_flat_map, in_seq, C. split; intros (t & Ht & Hi); exists t; (split; [|exact Hi]); [apply in_seq in Ht; lia|apply in_seq; lia].
Qed.

Lemma mod_step : forall t j bd, t < bd -> (t + j * bd) mod bd = t.
Proof. intros. rewrite Nat.mod_add by lia. apply Nat.mod_small. assumption. Qed.

Lemma strided_mod : forall n bd t i, 0 < bd -> t < bd -> (In i (strided n t bd n) <-> i < n /\ i mod bd = t).
Proof.
  intros n bd t i HB Ht. rewrite strided_in by lia. split.
  - intros [Hi [j ->]]. split; [exact Hi|apply mod_step, Ht].
  - intros [Hi E]. split; [exact Hi|]. exists (i / bd). pose proof (Nat.div_mod i bd). lia.
Qed.

Lemma strided_shares : forall n bd, 0 < bd -> Permutation (flat_map (fun t => strided n t bd n) (seq 0 bd)) (seq 0 n).
Proof.
  intros n bd HB. apply shares.
  - intros t Ht. apply strided_nodup, HB.
  - intros t t' i Ht Ht' H H'. apply strided_mod in H as [_ H]; auto. apply strided_mod in H' as [_ H']; auto. lia.
  - intros i. split.
    + intros Hi. exists (i mod bd). split; [apply Nat.mod_upper_bound; lia|]. apply strided_mod; [exact HB|apply Nat.mod_upper_bound; lia|]. split; [lia|reflexivity].
    + intros (t & Ht & Hi). apply strided_mod in Hi as [Hi _]; auto. lia.
Qed.

(* reducing the shares of the threads is reducing everything *)
Section Total.
Context {V : Type}.
Variable op : V -> V -> V.
Variable e : V.
Hypothesis Hc : forall a b, op a b = op b a.
Hypothesis Ha : forall a b c, op a (op b c) = op (op a b) c.
Hypothesis He : op e e = e.

Lemma left_fold : forall (x : nat -> V) l, fold_left (fun acc i => op acc (x i)) l e = fold_right op e (map x l).
Proof.
  intros x l. rewrite <- (fold_perm op e Hc Ha (rev (map x l)) (map x l)); [|apply Permutation_sym, Permutation_rev]. rewrite <- map_rev.
  rewrite <- fold_left_rev_right. induction (rev l) as [|i l' IH]; [reflexivity|]. cbn [map fold_right]. rewrite IH. apply Hc.
Qed.

Lemma left_absorb : forall (x : nat -> V) l, op (fold_left (fun acc i => op acc (x i)) l e) e = fold_left (fun acc i => op acc (x i)) l e.
Proof. intros x l. rewrite left_fold. apply (fold_e op e Ha He). Qed.

Lemma total_shares : forall (x : nat -> V) (f : nat -> list nat) T l, Permutation (flat_map f (seq 0 T)) l ->
  fold_right op e (map (fun t => fold_left (fun acc i => op acc (x i)) (f t) e) (seq 0 T)) = fold_right op e (map x l).
Proof.
  intros x f T l P. rewrite (map_ext _ (fun t => fold_right op e (map x (f t)))) by (intros t; apply left_fold).
  rewrite <- (fold_flat op e Hc Ha He _ (fun t => map x (f t))). rewrite <- (fold_perm op e Hc Ha _ _ (Permutation_map x P)). f_equal.
  clear. induction (seq 0 T) as [|t ts IH]; [reflexivity|]. cbn [flat_map]. rewrite map_app, IH. reflexivity.
Qed.

Lemma one_share : forall v T, 0 < T -> op v e = v -> fold_right op e (map (fun t => if t =? 0 then op e v else e) (seq 0 T)) = v.
Proof.
  intros v T HT Hv. destruct T as [|T]; [lia|]. cbn [seq map fold_right Nat.eqb]. rewrite (map_ext_in _ (fun _ => e)).
  - rewrite (fold_pads op e He). rewrite (Hc e v), Hv. exact Hv.
  - intros t Ht. apply in_seq in Ht. destruct (Nat.eqb_spec t 0); [lia|reflexivity].
Qed.
End Total.
