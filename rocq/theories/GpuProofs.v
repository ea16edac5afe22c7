(* Race-free kernels do the same under every schedule. *)
From Coq Require Import List Arith ZArith Bool Lia.
From Verif Require Import GpuModel GpuSpec.
Import ListNotations.

Lemma addr_eqb_true : forall a b, addr_eqb a b = true <-> a = b.
Proof.
  intros [p i] [q j]. unfold addr_eqb. cbn [fst snd].
  rewrite andb_true_iff, Nat.eqb_eq, Z.eqb_eq. split.
  - intros [-> ->]. reflexivity.
  - intros E. injection E as -> ->. auto.
Qed.

Lemma addr_dec : forall a b : addr, {a = b} + {a <> b}.
Proof.
  intros a b. destruct (addr_eqb a b) eqn:E.
  - left. apply addr_eqb_true, E.
  - right. intros H. apply addr_eqb_true in H. congruence.
Qed.

Lemma upd_same : forall A (m : addr -> A) a x, upd m a x a = x.
Proof.
  intros. unfold upd. replace (addr_eqb a a) with true; [reflexivity|].
  symmetry. apply addr_eqb_true. reflexivity.
Qed.

Lemma upd_other : forall A (m : addr -> A) a b x, a <> b -> upd m a x b = m b.
Proof.
  intros. unfold upd. destruct (addr_eqb a b) eqn:E; [|reflexivity].
  apply addr_eqb_true in E. contradiction.
Qed.

Section Meta.
Context {V : Type}.
Notation thr := (thr V).
Notation cell := (cell V).

(* A thread with its own view of global and shared memory, and what it has
   read and written: of global memory since the launch, of shared memory since
   the last barrier. *)
Record lane := mkLane {
  lg : addr -> cell;
  ls : addr -> cell;
  lp : thr;
  gr : list addr;
  gw : list addr;
  sr : list addr;
  sw : list addr
}.

(* The thread alone up to its next barrier or shuffle. *)
Fixpoint solo (P : thr) (g s : addr -> cell) (gr gw sr sw : list addr) : option lane :=
  match P with
  | Ld a k => match g a with
              | Some (Some v) => solo (k v) g s (a :: gr) gw sr sw
              | _ => None
              end
  | St a v k => match g a with
                | Some _ => solo k (upd g a (Some (Some v))) s gr (a :: gw) sr sw
                | None => None
                end
  | SLd a k => match s a with
               | Some (Some v) => solo (k v) g s gr gw (a :: sr) sw
               | _ => None
               end
  | SSt a v k => match s a with
                 | Some _ => solo k g (upd s a (Some (Some v))) gr gw sr (a :: sw)
                 | None => None
                 end
  | Trap => None
  | _ => Some (mkLane g s P gr gw sr sw)
  end.

Definition run (L : lane) : option lane :=
  solo (lp L) (lg L) (ls L) (gr L) (gw L) (sr L) (sw L).

Definition withp (L : lane) (P : thr) : lane :=
  mkLane (lg L) (ls L) P (gr L) (gw L) (sr L) (sw L).

(* the lanes of warp w in a block of BD threads *)
Definition inw (BD w t : nat) : Prop := t / 32 = w /\ t < BD.

Inductive weval (BD w : nat) : (nat -> lane) -> (nat -> lane) -> Prop :=
  | we_stop : forall L L',
      (forall t, inw BD w t -> run (L t) = Some (L' t) /\ quiet (lp (L' t))) ->
      weval BD w L L'
  | we_shfl : forall L L1 L2 L3,
      32 * w + 32 <= BD ->
      (forall t, inw BD w t -> run (L t) = Some (L1 t) /\ shuffling (lp (L1 t))) ->
      (forall t, inw BD w t -> L2 t = withp (L1 t) (shuffled (fun t => lp (L1 t)) t)) ->
      weval BD w L2 L3 ->
      weval BD w L L3.

Definition sfree (BD : nat) (L : nat -> lane) : Prop :=
  forall t t' a, t < BD -> t' < BD -> t <> t' ->
    In a (sw (L t)) -> ~ In a (sr (L t')) /\ ~ In a (sw (L t')).

Definition merged (BD : nat) (S : addr -> cell) (L : nat -> lane) (S' : addr -> cell) : Prop :=
  forall a, (exists t, t < BD /\ In a (sw (L t)) /\ S' a = ls (L t) a) \/
            ((forall t, t < BD -> ~ In a (sw (L t))) /\ S' a = S a).

Definition release (S' : addr -> cell) (L : lane) : lane :=
  mkLane (lg L) S' (released (lp L)) (gr L) (gw L) [] [].

Inductive beval (BD : nat) : (addr -> cell) -> (nat -> lane) -> (nat -> lane) -> Prop :=
  | be_done : forall S L L',
      (forall w, 32 * w < BD -> weval BD w L L') ->
      sfree BD L' ->
      (forall t, t < BD -> lp (L' t) = Done) ->
      beval BD S L L'
  | be_sync : forall S L L1 S' L2 L3,
      (forall w, 32 * w < BD -> weval BD w L L1) ->
      sfree BD L1 ->
      (exists t, t < BD /\ waiting (lp (L1 t))) ->
      merged BD S L1 S' ->
      (forall t, t < BD -> L2 t = release S' (L1 t)) ->
      beval BD S' L2 L3 ->
      beval BD S L L3.

Definition gfree (G BD : nat) (L : nat -> nat -> lane) : Prop :=
  forall b t b' t' a, b < G -> t < BD -> b' < G -> t' < BD -> (b, t) <> (b', t') ->
    In a (gw (L b t)) -> ~ In a (gr (L b' t')) /\ ~ In a (gw (L b' t')).

Definition gmerged (G BD : nat) (m : addr -> cell) (L : nat -> nat -> lane) (m' : addr -> cell) : Prop :=
  forall a, (exists b t, b < G /\ t < BD /\ In a (gw (L b t)) /\ m' a = lg (L b t) a) \/
            ((forall b t, b < G -> t < BD -> ~ In a (gw (L b t))) /\ m' a = m a).

(* logs only grow *)
Definition grows (L L' : lane) : Prop :=
  incl (gr L) (gr L') /\ incl (gw L) (gw L').

Definition sgrows (L L' : lane) : Prop :=
  incl (sr L) (sr L') /\ incl (sw L) (sw L').

Lemma solo_grows : forall P g s a b c d L, solo P g s a b c d = Some L ->
  incl a (gr L) /\ incl b (gw L) /\ incl c (sr L) /\ incl d (sw L).
Proof.
  induction P as [|x k IH|x v k IH|x k IH|x v k IH|k IH|v n k IH|]; intros g s a b c d L E; cbn [solo] in E;
    try (injection E as <-; cbn; repeat split; apply incl_refl); try discriminate.
  - destruct (g x) as [[v|]|]; try discriminate. apply IH in E as (A & B & C & D).
    repeat split; auto. intros y Hy. apply A. right. exact Hy.
  - destruct (g x) as [o|]; try discriminate. apply IH in E as (A & B & C & D).
    repeat split; auto. intros y Hy. apply B. right. exact Hy.
  - destruct (s x) as [[v|]|]; try discriminate. apply IH in E as (A & B & C & D).
    repeat split; auto. intros y Hy. apply C. right. exact Hy.
  - destruct (s x) as [o|]; try discriminate. apply IH in E as (A & B & C & D).
    repeat split; auto. intros y Hy. apply D. right. exact Hy.
Qed.

Lemma run_grows : forall L L', run L = Some L' -> grows L L' /\ sgrows L L'.
Proof.
  intros L L' E. apply solo_grows in E as (A & B & C & D). unfold grows, sgrows. auto.
Qed.

Lemma weval_grows : forall BD w L L', weval BD w L L' ->
  forall t, inw BD w t -> grows (L t) (L' t) /\ sgrows (L t) (L' t).
Proof.
  intros BD w L L' H. induction H as [L L' H|L L1 L2 L3 HB H1 H2 H3 IH]; intros t Ht.
  - destruct (H t Ht) as [E _]. apply run_grows, E.
  - destruct (H1 t Ht) as [E _]. apply run_grows in E as [[A B] [C D]].
    destruct (IH t Ht) as [[A' B'] [C' D']]. rewrite (H2 t Ht) in A', B', C', D'. cbn in *.
    unfold grows, sgrows. repeat split; eapply incl_tran; eauto.
Qed.

Lemma weval_quiet : forall BD w L L', weval BD w L L' ->
  forall t, inw BD w t -> quiet (lp (L' t)).
Proof.
  intros BD w L L' H. induction H as [L L' H|L L1 L2 L3 HB H1 H2 H3 IH]; intros t Ht.
  - apply H, Ht.
  - apply IH, Ht.
Qed.

Lemma inw_own : forall BD t, t < BD -> inw BD (t / 32) t.
Proof. intros BD t H. split; auto. Qed.

Lemma warp_exists : forall BD t, t < BD -> 32 * (t / 32) < BD.
Proof. intros BD t H. pose proof (Nat.mul_div_le t 32). lia. Qed.

Lemma beval_grows : forall BD S L L', beval BD S L L' ->
  forall t, t < BD -> grows (L t) (L' t).
Proof.
  intros BD S L L' H. induction H as [S L L' H1 H2 H3|S L L1 S' L2 L3 H1 H2 H3 H4 H5 H6 IH]; intros t Ht.
  - apply (weval_grows _ _ _ _ (H1 _ (warp_exists _ _ Ht)) t (inw_own _ _ Ht)).
  - destruct (weval_grows _ _ _ _ (H1 _ (warp_exists _ _ Ht)) t (inw_own _ _ Ht)) as [[A B] _].
    destruct (IH t Ht) as [A' B']. rewrite (H5 t Ht) in A', B'. cbn in *.
    split; eapply incl_tran; eauto.
Qed.

(* the accesses of the current interval *)
Lemma beval_interval : forall BD S L L', beval BD S L L' ->
  exists L1, (forall w, 32 * w < BD -> weval BD w L L1) /\ sfree BD L1 /\
             (forall t, t < BD -> sgrows (L t) (L1 t)).
Proof.
  intros BD S L L' H. destruct H as [S L L' H1 H2 H3|S L L1 S' L2 L3 H1 H2 H3 H4 H5 H6];
    [exists L'|exists L1]; (split; [|split]); auto; intros t Ht;
    apply (weval_grows _ _ _ _ (H1 _ (warp_exists _ _ Ht)) t (inw_own _ _ Ht)).
Qed.

(* evaluation depends on the lanes of the block only, up to run *)
Lemma weval_same : forall BD w L L' M, weval BD w L L' ->
  (forall t, inw BD w t -> run (M t) = run (L t)) -> weval BD w M L'.
Proof.
  intros BD w L L' M H E. destruct H as [L L' H|L L1 L2 L3 HB H1 H2 H3].
  - apply we_stop. intros t Ht. rewrite (E t Ht). apply H, Ht.
  - eapply we_shfl; [exact HB| |exact H2|exact H3]. intros t Ht. rewrite (E t Ht). apply H1, Ht.
Qed.

Lemma beval_same : forall BD S L L' M, beval BD S L L' ->
  (forall t, t < BD -> run (M t) = run (L t)) -> beval BD S M L'.
Proof.
  intros BD S L L' M H E. destruct H as [S L L' H1 H2 H3|S L L1 S' L2 L3 H1 H2 H3 H4 H5 H6].
  - apply be_done; auto. intros w Hw. eapply weval_same; [apply H1, Hw|]. intros t [_ Ht]. apply E, Ht.
  - eapply be_sync; eauto. intros w Hw. eapply weval_same; [apply H1, Hw|]. intros t [_ Ht]. apply E, Ht.
Qed.

Lemma run_stopped : forall L, quiet (lp L) \/ shuffling (lp L) -> run L = Some L.
Proof.
  intros [g s P a b c d] H. unfold run. cbn in *. destruct P; cbn in *; try tauto; reflexivity.
Qed.

(* a warp of which one lane has stopped at a shuffle shuffles *)
Lemma weval_shuffles : forall BD w L L' t, weval BD w L L' ->
  inw BD w t -> shuffling (lp (L t)) ->
  exists L1 L2, 32 * w + 32 <= BD /\
    (forall t, inw BD w t -> run (L t) = Some (L1 t) /\ shuffling (lp (L1 t))) /\
    (forall t, inw BD w t -> L2 t = withp (L1 t) (shuffled (fun t => lp (L1 t)) t)) /\
    weval BD w L2 L'.
Proof.
  intros BD w L L' t H Ht Hs. destruct H as [L L' H|L L1 L2 L3 HB H1 H2 H3].
  - destruct (H t Ht) as [E Q]. rewrite run_stopped in E by (right; exact Hs).
    injection E as E. rewrite <- E in Q. destruct (lp (L t)); cbn in *; tauto.
  - exists L1, L2. auto.
Qed.

Lemma weval_stopped : forall BD w L L', weval BD w L L' ->
  (forall t, inw BD w t -> quiet (lp (L t))) ->
  (exists t, inw BD w t) ->
  forall t, inw BD w t -> L' t = L t.
Proof.
  intros BD w L L' H Q [t0 Ht0] t Ht. destruct H as [L L' H|L L1 L2 L3 HB H1 H2 H3].
  - destruct (H t Ht) as [E _]. rewrite run_stopped in E by (left; apply Q, Ht).
    injection E as E. auto.
  - destruct (H1 t0 Ht0) as [E S]. rewrite run_stopped in E by (left; apply Q, Ht0).
    injection E as E. rewrite <- E in S. specialize (Q t0 Ht0). destruct (lp (L t0)); cbn in *; tauto.
Qed.

Lemma weval_swap : forall BD w L L' M, weval BD w L L' ->
  (forall t, inw BD w t -> M t = L t) -> weval BD w M L'.
Proof.
  intros BD w L L' M H E. apply (weval_same _ _ _ _ _ H). intros t Ht. rewrite (E t Ht). reflexivity.
Qed.

Lemma beval_replace : forall BD S L L' M, beval BD S L L' ->
  (forall w L1, 32 * w < BD -> weval BD w L L1 -> weval BD w M L1) -> beval BD S M L'.
Proof.
  intros BD S L L' M H E. destruct H as [S L L' H1 H2 H3|S L L1 S' L2 L3 H1 H2 H3 H4 H5 H6].
  - apply be_done; auto.
  - eapply be_sync; eauto.
Qed.

Lemma weval_run : forall BD w L L' t, weval BD w L L' -> inw BD w t ->
  exists L1, run (L t) = Some L1 /\ grows L1 (L' t) /\ sgrows L1 (L' t).
Proof.
  intros BD w L L' t H Ht. destruct H as [L L' H|L L1 L2 L3 HB H1 H2 H3].
  - destruct (H t Ht) as [E _]. exists (L' t). split; [exact E|].
    split; split; apply incl_refl.
  - destruct (H1 t Ht) as [E _]. exists (L1 t). split; [exact E|].
    destruct (weval_grows _ _ _ _ H3 t Ht) as [A B]. rewrite (H2 t Ht) in A, B. exact (conj A B).
Qed.

Lemma interval_of : forall BD S L L', beval BD S L L' ->
  exists L1, sfree BD L1 /\
    (forall t, t < BD -> sgrows (L t) (L1 t) /\
       exists M, run (L t) = Some M /\ grows M (L' t) /\ sgrows M (L1 t)).
Proof.
  intros BD S L L' H. destruct H as [S L L' H1 H2 H3|S L L1 S' L2 L3 H1 H2 H3 H4 H5 H6].
  - exists L'. split; [exact H2|]. intros t Ht.
    pose proof (H1 _ (warp_exists _ _ Ht)) as W.
    split; [apply (weval_grows _ _ _ _ W t (inw_own _ _ Ht))|].
    destruct (weval_run _ _ _ _ t W (inw_own _ _ Ht)) as (M & E & A & B). exists M. auto.
  - exists L1. split; [exact H2|]. intros t Ht.
    pose proof (H1 _ (warp_exists _ _ Ht)) as W.
    split; [apply (weval_grows _ _ _ _ W t (inw_own _ _ Ht))|].
    destruct (weval_run _ _ _ _ t W (inw_own _ _ Ht)) as (M & E & A & B). exists M.
    split; [exact E|]. split; [|exact B].
    destruct (beval_grows _ _ _ _ H6 t Ht) as [C D]. rewrite (H5 t Ht) in C, D. cbn in C, D.
    destruct A. split; eapply incl_tran; eauto.
Qed.

(* ---- one step of one lane ---- *)
Definition adv (L : lane) : option lane :=
  match lp L with
  | Ld a k => match lg L a with
              | Some (Some v) => Some (mkLane (lg L) (ls L) (k v) (a :: gr L) (gw L) (sr L) (sw L))
              | _ => None
              end
  | St a v k => match lg L a with
                | Some _ => Some (mkLane (upd (lg L) a (Some (Some v))) (ls L) k (gr L) (a :: gw L) (sr L) (sw L))
                | None => None
                end
  | SLd a k => match ls L a with
               | Some (Some v) => Some (mkLane (lg L) (ls L) (k v) (gr L) (gw L) (a :: sr L) (sw L))
               | _ => None
               end
  | SSt a v k => match ls L a with
                 | Some _ => Some (mkLane (lg L) (upd (ls L) a (Some (Some v))) k (gr L) (gw L) (sr L) (a :: sw L))
                 | None => None
                 end
  | _ => None
  end.

Lemma run_adv : forall L L', adv L = Some L' -> run L = run L'.
Proof.
  intros [g s P a b c d] L' E. unfold adv, run in *. cbn in *.
  destruct P; try discriminate; cbn [solo].
  - destruct (g a0) as [[v|]|]; try discriminate. injection E as <-. reflexivity.
  - destruct (g a0) as [o|]; try discriminate. injection E as <-. reflexivity.
  - destruct (s a0) as [[v|]|]; try discriminate. injection E as <-. reflexivity.
  - destruct (s a0) as [o|]; try discriminate. injection E as <-. reflexivity.
Qed.

Definition moving (p : thr) : Prop :=
  match p with Ld _ _ | St _ _ _ | SLd _ _ | SSt _ _ _ | Trap => True | _ => False end.

Lemma run_moves : forall L M, run L = Some M -> moving (lp L) -> exists L', adv L = Some L'.
Proof.
  intros [g s P a b c d] M E Q. unfold adv, run in *. cbn in *.
  destruct P; try contradiction; cbn [solo] in E.
  - destruct (g a0) as [[v|]|]; try discriminate. eauto.
  - destruct (g a0) as [o|]; try discriminate. eauto.
  - destruct (s a0) as [[v|]|]; try discriminate. eauto.
  - destruct (s a0) as [o|]; try discriminate. eauto.
  - discriminate.
Qed.

Variable l : launch V.
Variable m0 : addr -> cell.
Notation G := (grid l).
Notation BD := (bdim l).
Variable Lf : nat -> nat -> lane.
Hypothesis FREE : gfree G BD Lf.

Record inv (s : state V) (L : nat -> nat -> lane) (S : nat -> addr -> cell) : Prop := mkInv {
  i_pr : forall b t, b < G -> t < BD -> pr s b t = lp (L b t);
  i_ev : forall b, b < G -> beval BD (S b) (L b) (Lf b);
  i_lg : forall b t a, b < G -> t < BD -> ~ In a (gw (L b t)) -> lg (L b t) a = m0 a;
  i_ls : forall b t a, b < G -> t < BD -> ~ In a (sw (L b t)) -> ls (L b t) a = S b a;
  i_mem : gmerged G BD m0 L (mem s);
  i_shm : forall b, b < G -> merged BD (S b) (L b) (shm s b)
}.

Lemma pair_dec : forall b t b' t' : nat, {(b, t) = (b', t')} + {(b, t) <> (b', t')}.
Proof. intros. decide equality; apply Nat.eq_dec. Qed.

Lemma in_dec_addr : forall (a : addr) xs, {In a xs} + {~ In a xs}.
Proof. intros. apply in_dec, addr_dec. Qed.

Lemma mem_view : forall s L S b t a, inv s L S -> b < G -> t < BD ->
  In a (gr (Lf b t)) \/ In a (gw (Lf b t)) -> mem s a = lg (L b t) a.
Proof.
  intros s L S b t a I Hb Ht Ha.
  destruct (i_mem _ _ _ I a) as [(b' & t' & Hb' & Ht' & Hw & E)|[Hn E]].
  - destruct (pair_dec b t b' t') as [Eq|Ne].
    + injection Eq as -> ->. exact E.
    + exfalso. assert (Hw' : In a (gw (Lf b' t'))).
      { apply (beval_grows _ _ _ _ (i_ev _ _ _ I b' Hb') t' Ht'), Hw. }
      assert (Ne' : (b', t') <> (b, t)) by congruence.
      destruct (FREE b' t' b t a Hb' Ht' Hb Ht Ne' Hw'). tauto.
  - rewrite E. symmetry. apply (i_lg _ _ _ I); auto.
Qed.

Lemma shm_view : forall s L S b t a L1, inv s L S -> b < G -> t < BD ->
  sfree BD L1 -> (forall t, t < BD -> sgrows (L b t) (L1 t)) ->
  In a (sr (L1 t)) \/ In a (sw (L1 t)) -> shm s b a = ls (L b t) a.
Proof.
  intros s L S b t a L1 I Hb Ht F Gr Ha.
  destruct (i_shm _ _ _ I b Hb a) as [(t' & Ht' & Hw & E)|[Hn E]].
  - destruct (Nat.eq_dec t t') as [->|Ne]; [exact E|].
    exfalso. assert (Hw' : In a (sw (L1 t'))) by (apply (Gr t' Ht'), Hw).
    destruct (F t' t a Ht' Ht (fun e => Ne (eq_sym e)) Hw'). tauto.
  - rewrite E. symmetry. apply (i_ls _ _ _ I); auto.
Qed.

(* what a moving lane finds is what memory holds *)
Lemma moving_ok : forall s L S b t, inv s L S -> b < G -> t < BD -> moving (lp (L b t)) ->
  exists L', adv (L b t) = Some L' /\
    (forall a k, lp (L b t) = Ld a k -> mem s a = lg (L b t) a) /\
    (forall a v k, lp (L b t) = St a v k -> mem s a = lg (L b t) a) /\
    (forall a k, lp (L b t) = SLd a k -> shm s b a = ls (L b t) a) /\
    (forall a v k, lp (L b t) = SSt a v k -> shm s b a = ls (L b t) a).
Proof.
  intros s L S b t I Hb Ht Mv.
  destruct (interval_of _ _ _ _ (i_ev _ _ _ I b Hb)) as (L1 & F & H).
  destruct (H t Ht) as [_ (M & E & Gm & Sm)].
  destruct (run_moves _ _ E Mv) as [L' A]. exists L'. split; [exact A|].
  rewrite (run_adv _ _ A) in E. apply run_grows in E as [Gl Sl].
  assert (HG : forall a, In a (gr L') \/ In a (gw L') -> mem s a = lg (L b t) a).
  { intros a [Ha|Ha]; apply (mem_view _ _ _ _ _ _ I Hb Ht); [left|right].
    - apply Gm, Gl, Ha.
    - apply Gm, Gl, Ha. }
  assert (HS : forall a, In a (sr L') \/ In a (sw L') -> shm s b a = ls (L b t) a).
  { intros a Ha. apply (shm_view _ _ _ _ _ _ L1 I Hb Ht F).
    - intros t' Ht'. apply (H t' Ht').
    - destruct Ha as [Ha|Ha]; [left|right]; apply Sm, Sl, Ha. }
  unfold adv in A.
  repeat split; intros a; intros; match goal with e : lp _ = _ |- _ => rewrite e in A end.
  - apply HG. destruct (lg (L b t) a) as [[v|]|]; try discriminate. injection A as <-. left. left. reflexivity.
  - apply HG. destruct (lg (L b t) a) as [o|]; try discriminate. injection A as <-. right. left. reflexivity.
  - apply HS. destruct (ls (L b t) a) as [[v|]|]; try discriminate. injection A as <-. left. left. reflexivity.
  - apply HS. destruct (ls (L b t) a) as [o|]; try discriminate. injection A as <-. right. left. reflexivity.
Qed.

Definition setl (L : nat -> nat -> lane) (b t : nat) (x : lane) : nat -> nat -> lane :=
  fun b' t' => if (b =? b')%nat && (t =? t')%nat then x else L b' t'.

Lemma setl_same : forall L b t x, setl L b t x b t = x.
Proof. intros. unfold setl. rewrite !Nat.eqb_refl. reflexivity. Qed.

Lemma setl_other : forall L b t x b' t', (b, t) <> (b', t') -> setl L b t x b' t' = L b' t'.
Proof.
  intros. unfold setl. destruct (Nat.eqb_spec b b'), (Nat.eqb_spec t t'); cbn; auto. congruence.
Qed.

Lemma updt_same : forall (f : nat -> nat -> thr) b t x, updt f b t x b t = x.
Proof. intros. unfold updt. rewrite !Nat.eqb_refl. reflexivity. Qed.

Lemma updt_other : forall (f : nat -> nat -> thr) b t x b' t', (b, t) <> (b', t') -> updt f b t x b' t' = f b' t'.
Proof.
  intros. unfold updt. destruct (Nat.eqb_spec b b'), (Nat.eqb_spec t t'); cbn; auto. congruence.
Qed.

Lemma ev_setl : forall s L S b t L', inv s L S -> b < G -> t < BD -> adv (L b t) = Some L' ->
  forall b', b' < G -> beval BD (S b') (setl L b t L' b') (Lf b').
Proof.
  intros s L S b t L' I Hb Ht A b' Hb'. apply (beval_same _ _ _ _ _ (i_ev _ _ _ I b' Hb')).
  intros t' Ht'. destruct (pair_dec b t b' t') as [Eq|Ne].
  - injection Eq as <- <-. rewrite setl_same. symmetry. apply run_adv, A.
  - rewrite setl_other by exact Ne. reflexivity.
Qed.

(* global state of others when one lane moves *)
Lemma gmerged_read : forall L b t L' m, gmerged G BD m0 L m ->
  lg L' = lg (L b t) -> gw L' = gw (L b t) -> gmerged G BD m0 (setl L b t L') m.
Proof.
  intros L b t L' m H E1 E2 a. destruct (H a) as [(b' & t' & Hb' & Ht' & Hw & E)|[Hn E]].
  - left. exists b', t'. repeat split; auto; destruct (pair_dec b t b' t') as [Eq|Ne];
      try (rewrite setl_other by exact Ne; auto); injection Eq as <- <-; rewrite setl_same;
      [rewrite E2|rewrite E1]; auto.
  - right. split; [|exact E]. intros b' t' Hb' Ht'. destruct (pair_dec b t b' t') as [Eq|Ne].
    + injection Eq as <- <-. rewrite setl_same, E2. auto.
    + rewrite setl_other by exact Ne. auto.
Qed.

Lemma merged_read : forall S L b t L' b' m, merged BD S (L b') m ->
  ls L' = ls (L b t) -> sw L' = sw (L b t) -> merged BD S (setl L b t L' b') m.
Proof.
  intros S L b t L' b' m H E1 E2 a. destruct (H a) as [(t' & Ht' & Hw & E)|[Hn E]].
  - left. exists t'. repeat split; auto; destruct (pair_dec b t b' t') as [Eq|Ne];
      try (rewrite setl_other by exact Ne; auto); injection Eq as <- <-; rewrite setl_same;
      [rewrite E2|rewrite E1]; auto.
  - right. split; [|exact E]. intros t' Ht'. destruct (pair_dec b t b' t') as [Eq|Ne].
    + injection Eq as <- <-. rewrite setl_same, E2. auto.
    + rewrite setl_other by exact Ne. auto.
Qed.

Lemma shuffled_ext : forall (f g : nat -> thr) t,
  (forall t', t' / 32 = t / 32 -> f t' = g t') -> shuffled f t = shuffled g t.
Proof.
  intros f g t H. unfold shuffled. rewrite (H t eq_refl). destruct (g t); auto.
  rewrite (H (src t d)); [reflexivity|].
  unfold src. destruct (Nat.ltb_spec (t mod 32 + d) 32); [|reflexivity].
  rewrite (Nat.div_mod t 32) at 1 by lia.
  replace (32 * (t / 32) + t mod 32 + d) with ((t mod 32 + d) + (t / 32) * 32) by lia.
  rewrite Nat.div_add by lia. rewrite Nat.div_small by lia. reflexivity.
Qed.

Lemma lane_first : forall w, (32 * w) / 32 = w.
Proof. intros. rewrite Nat.mul_comm, Nat.div_mul; lia. Qed.

Lemma lane_fits : forall n w t, 32 * w + 32 <= n -> t / 32 = w -> t < n.
Proof.
  intros n w t H E. pose proof (Nat.div_mod t 32). pose proof (Nat.mod_upper_bound t 32). lia.
Qed.

Theorem inv_step : forall s s' L S, inv s L S -> step l s s' -> exists L' S', inv s' L' S'.
Proof.
  intros s s' L S I St. destruct St as [s b t a v k Hb Ht Hp Hm|s b t a v k Hb Ht Hp Hm
    |s b t a v k Hb Ht Hp Hm|s b t a v k Hb Ht Hp Hm|s b w Hb Hw Hs|s b Hb Hq Hx].
  - (* load *)
    pose proof (i_pr _ _ _ I b t Hb Ht) as P. rewrite Hp in P. symmetry in P.
    destruct (moving_ok _ _ _ _ _ I Hb Ht) as (L' & A & HL & _); [rewrite P; exact Logic.I|].
    specialize (HL _ _ P). pose proof A as A'. unfold adv in A'. rewrite P, <- HL, Hm in A'.
    injection A' as A'. exists (setl L b t L'), S. constructor; cbn.
    + intros b' t' Hb' Ht'. destruct (pair_dec b t b' t') as [Eq|Ne].
      * injection Eq as <- <-. rewrite setl_same, updt_same. subst L'. reflexivity.
      * rewrite setl_other, updt_other by exact Ne. apply (i_pr _ _ _ I); auto.
    + apply (ev_setl _ _ _ _ _ _ I Hb Ht A).
    + intros b' t' x Hb' Ht'. destruct (pair_dec b t b' t') as [Eq|Ne].
      * injection Eq as <- <-. rewrite setl_same. subst L'. cbn. apply (i_lg _ _ _ I); auto.
      * rewrite setl_other by exact Ne. apply (i_lg _ _ _ I); auto.
    + intros b' t' x Hb' Ht'. destruct (pair_dec b t b' t') as [Eq|Ne].
      * injection Eq as <- <-. rewrite setl_same. subst L'. cbn. apply (i_ls _ _ _ I); auto.
      * rewrite setl_other by exact Ne. apply (i_ls _ _ _ I); auto.
    + apply gmerged_read; [apply (i_mem _ _ _ I)|subst L'; reflexivity|subst L'; reflexivity].
    + intros b' Hb'. apply merged_read; [apply (i_shm _ _ _ I); auto|subst L'; reflexivity|subst L'; reflexivity].
  - (* store *)
    pose proof (i_pr _ _ _ I b t Hb Ht) as P. rewrite Hp in P. symmetry in P.
    destruct (moving_ok _ _ _ _ _ I Hb Ht) as (L' & A & _ & HL & _); [rewrite P; exact Logic.I|].
    specialize (HL _ _ _ P). pose proof A as A'. unfold adv in A'. rewrite P in A'.
    destruct (lg (L b t) a) as [o|] eqn:Eo; [|discriminate].
    injection A' as A'. exists (setl L b t L'), S. constructor; cbn.
    + intros b' t' Hb' Ht'. destruct (pair_dec b t b' t') as [Eq|Ne].
      * injection Eq as <- <-. rewrite setl_same, updt_same. subst L'. reflexivity.
      * rewrite setl_other, updt_other by exact Ne. apply (i_pr _ _ _ I); auto.
    + apply (ev_setl _ _ _ _ _ _ I Hb Ht A).
    + intros b' t' x Hb' Ht'. destruct (pair_dec b t b' t') as [Eq|Ne].
      * injection Eq as <- <-. rewrite setl_same. subst L'. cbn. intros Hn.
        rewrite upd_other by tauto. apply (i_lg _ _ _ I); auto.
      * rewrite setl_other by exact Ne. apply (i_lg _ _ _ I); auto.
    + intros b' t' x Hb' Ht'. destruct (pair_dec b t b' t') as [Eq|Ne].
      * injection Eq as <- <-. rewrite setl_same. subst L'. cbn. apply (i_ls _ _ _ I); auto.
      * rewrite setl_other by exact Ne. apply (i_ls _ _ _ I); auto.
    + intros x. destruct (addr_dec a x) as [<-|Nx].
      * left. exists b, t. rewrite setl_same, upd_same. subst L'. cbn. rewrite upd_same. auto.
      * rewrite upd_other by exact Nx.
        destruct (i_mem _ _ _ I x) as [(b' & t' & Hb' & Ht' & Hw & E)|[Hn E]].
        -- left. exists b', t'. destruct (pair_dec b t b' t') as [Eq|Ne].
           ++ injection Eq as <- <-. rewrite setl_same. subst L'. cbn. rewrite upd_other by exact Nx. auto.
           ++ rewrite setl_other by exact Ne. auto.
        -- right. split; [|exact E]. intros b' t' Hb' Ht'. destruct (pair_dec b t b' t') as [Eq|Ne].
           ++ injection Eq as <- <-. rewrite setl_same. subst L'. cbn.
              intros [e|e]; [contradiction|]. apply (Hn b t Hb Ht e).
           ++ rewrite setl_other by exact Ne. auto.
    + intros b' Hb'. apply merged_read; [apply (i_shm _ _ _ I); auto|subst L'; reflexivity|subst L'; reflexivity].
  - (* shared load *)
    pose proof (i_pr _ _ _ I b t Hb Ht) as P. rewrite Hp in P. symmetry in P.
    destruct (moving_ok _ _ _ _ _ I Hb Ht) as (L' & A & _ & _ & HL & _); [rewrite P; exact Logic.I|].
    specialize (HL _ _ P). pose proof A as A'. unfold adv in A'. rewrite P, <- HL, Hm in A'.
    injection A' as A'. exists (setl L b t L'), S. constructor; cbn.
    + intros b' t' Hb' Ht'. destruct (pair_dec b t b' t') as [Eq|Ne].
      * injection Eq as <- <-. rewrite setl_same, updt_same. subst L'. reflexivity.
      * rewrite setl_other, updt_other by exact Ne. apply (i_pr _ _ _ I); auto.
    + apply (ev_setl _ _ _ _ _ _ I Hb Ht A).
    + intros b' t' x Hb' Ht'. destruct (pair_dec b t b' t') as [Eq|Ne].
      * injection Eq as <- <-. rewrite setl_same. subst L'. cbn. apply (i_lg _ _ _ I); auto.
      * rewrite setl_other by exact Ne. apply (i_lg _ _ _ I); auto.
    + intros b' t' x Hb' Ht'. destruct (pair_dec b t b' t') as [Eq|Ne].
      * injection Eq as <- <-. rewrite setl_same. subst L'. cbn. apply (i_ls _ _ _ I); auto.
      * rewrite setl_other by exact Ne. apply (i_ls _ _ _ I); auto.
    + apply gmerged_read; [apply (i_mem _ _ _ I)|subst L'; reflexivity|subst L'; reflexivity].
    + intros b' Hb'. apply merged_read; [apply (i_shm _ _ _ I); auto|subst L'; reflexivity|subst L'; reflexivity].
  - (* shared store *)
    pose proof (i_pr _ _ _ I b t Hb Ht) as P. rewrite Hp in P. symmetry in P.
    destruct (moving_ok _ _ _ _ _ I Hb Ht) as (L' & A & _ & _ & _ & HL); [rewrite P; exact Logic.I|].
    specialize (HL _ _ _ P). pose proof A as A'. unfold adv in A'. rewrite P in A'.
    destruct (ls (L b t) a) as [o|] eqn:Eo; [|discriminate].
    injection A' as A'. exists (setl L b t L'), S. constructor; cbn.
    + intros b' t' Hb' Ht'. destruct (pair_dec b t b' t') as [Eq|Ne].
      * injection Eq as <- <-. rewrite setl_same, updt_same. subst L'. reflexivity.
      * rewrite setl_other, updt_other by exact Ne. apply (i_pr _ _ _ I); auto.
    + apply (ev_setl _ _ _ _ _ _ I Hb Ht A).
    + intros b' t' x Hb' Ht'. destruct (pair_dec b t b' t') as [Eq|Ne].
      * injection Eq as <- <-. rewrite setl_same. subst L'. cbn. apply (i_lg _ _ _ I); auto.
      * rewrite setl_other by exact Ne. apply (i_lg _ _ _ I); auto.
    + intros b' t' x Hb' Ht'. destruct (pair_dec b t b' t') as [Eq|Ne].
      * injection Eq as <- <-. rewrite setl_same. subst L'. cbn. intros Hn.
        rewrite upd_other by tauto. apply (i_ls _ _ _ I); auto.
      * rewrite setl_other by exact Ne. apply (i_ls _ _ _ I); auto.
    + apply gmerged_read; [apply (i_mem _ _ _ I)|subst L'; reflexivity|subst L'; reflexivity].
    + intros b' Hb' x. unfold upds. destruct (Nat.eqb_spec b b') as [<-|Nb].
      * destruct (addr_dec a x) as [<-|Nx].
        -- left. exists t. rewrite setl_same, upd_same. subst L'. cbn. rewrite upd_same. auto.
        -- rewrite upd_other by exact Nx.
           destruct (i_shm _ _ _ I b Hb x) as [(t' & Ht' & Hw & E)|[Hn E]].
           ++ left. exists t'. destruct (pair_dec b t b t') as [Eq|Ne].
              ** injection Eq as <-. rewrite setl_same. subst L'. cbn. rewrite upd_other by exact Nx. auto.
              ** rewrite setl_other by exact Ne. auto.
           ++ right. split; [|exact E]. intros t' Ht'. destruct (pair_dec b t b t') as [Eq|Ne].
              ** injection Eq as <-. rewrite setl_same. subst L'. cbn.
                 intros [e|e]; [contradiction|]. apply (Hn t Ht e).
              ** rewrite setl_other by exact Ne. auto.
      * destruct (i_shm _ _ _ I b' Hb' x) as [(t' & Ht' & Hw & E)|[Hn E]].
        -- left. exists t'. rewrite setl_other by congruence. auto.
        -- right. split; [|exact E]. intros t' Ht'. rewrite setl_other by congruence. auto.
  - (* shuffle *)
    set (L' := fun b' t => if (b =? b')%nat && (t / 32 =? w)%nat
                 then withp (L b t) (shuffled (fun t => lp (L b t)) t) else L b' t).
    assert (Same : forall b' t', lg (L' b' t') = lg (L b' t') /\ ls (L' b' t') = ls (L b' t') /\
              gw (L' b' t') = gw (L b' t') /\ sw (L' b' t') = sw (L b' t')).
    { intros b' t'. unfold L'. destruct (Nat.eqb_spec b b') as [<-|Nb]; cbn [andb]; [|auto].
      destruct (Nat.eqb_spec (t' / 32) w); cbn [andb withp lg ls gw sw]; auto. }
    exists L', S. constructor; cbn [mem shm pr].
    + intros b' t' Hb' Ht'. unfold L'. destruct (Nat.eqb_spec b b') as [<-|Nb]; cbn [andb].
      * destruct (Nat.eqb_spec (t' / 32) w) as [Ew|]; cbn [andb]; [|apply (i_pr _ _ _ I); auto].
        cbn [withp lp]. apply shuffled_ext. intros t'' E. apply (i_pr _ _ _ I); auto.
        apply (lane_fits _ w); [exact Hw|congruence].
      * apply (i_pr _ _ _ I); auto.
    + intros b' Hb'. destruct (Nat.eq_dec b b') as [<-|Nb].
      * apply (beval_replace _ _ _ _ _ (i_ev _ _ _ I b Hb)). intros w' M Hw' W.
        destruct (Nat.eq_dec w w') as [<-|Nw].
        -- assert (F : inw BD w (32 * w)) by (split; [apply lane_first|lia]).
           destruct (weval_shuffles _ _ _ _ (32 * w) W F) as (L1 & L2 & _ & R1 & R2 & W').
           { rewrite <- (i_pr _ _ _ I) by (auto; lia). apply Hs, lane_first. }
           apply (weval_swap _ _ _ _ _ W'). intros t Ht. rewrite (R2 t Ht).
           assert (Eq : forall t, inw BD w t -> L1 t = L b t).
           { intros t0 Ht0. destruct (R1 t0 Ht0) as [E _]. rewrite run_stopped in E.
             - congruence.
             - right. rewrite <- (i_pr _ _ _ I); auto; [apply Hs|]; apply Ht0. }
           unfold L'. rewrite Nat.eqb_refl. destruct Ht as [Ht1 Ht2]. rewrite (proj2 (Nat.eqb_eq _ _) Ht1). cbn [andb].
           rewrite (Eq t (conj Ht1 Ht2)). f_equal. apply shuffled_ext. intros t' E.
           rewrite (Eq t'); [reflexivity|]. split; [congruence|]. apply (lane_fits _ w); [exact Hw|congruence].
        -- apply (weval_swap _ _ _ _ _ W). intros t [Ht1 Ht2]. unfold L'. rewrite Nat.eqb_refl.
           destruct (Nat.eqb_spec (t / 32) w); [congruence|]. reflexivity.
      * apply (beval_same _ _ _ _ _ (i_ev _ _ _ I b' Hb')). intros t Ht. unfold L'.
        destruct (Nat.eqb_spec b b'); [contradiction|]. reflexivity.
    + intros b' t' x Hb' Ht'. destruct (Same b' t') as (E1 & _ & E2 & _). rewrite E1, E2. apply (i_lg _ _ _ I); auto.
    + intros b' t' x Hb' Ht'. destruct (Same b' t') as (_ & E1 & _ & E2). rewrite E1, E2. apply (i_ls _ _ _ I); auto.
    + intros x. destruct (i_mem _ _ _ I x) as [(b' & t' & Hb' & Ht' & Hx & E)|[Hn E]].
      * left. exists b', t'. destruct (Same b' t') as (E1 & _ & E2 & _). rewrite E1, E2. auto.
      * right. split; [|exact E]. intros b' t' Hb' Ht'. destruct (Same b' t') as (_ & _ & E2 & _). rewrite E2. auto.
    + intros b' Hb' x. destruct (i_shm _ _ _ I b' Hb' x) as [(t' & Ht' & Hx & E)|[Hn E]].
      * left. exists t'. destruct (Same b' t') as (_ & E1 & _ & E2). rewrite E1, E2. auto.
      * right. split; [|exact E]. intros t' Ht'. destruct (Same b' t') as (_ & _ & _ & E2). rewrite E2. auto.
  - (* barrier *)
    assert (Q : forall t, t < BD -> quiet (lp (L b t))).
    { intros t Ht. rewrite <- (i_pr _ _ _ I); auto. }
    pose proof (i_ev _ _ _ I b Hb) as Ev. remember (Lf b) as LL eqn:ELL. remember (S b) as SS eqn:ESS.
    remember (L b) as LB eqn:ELB.
    destruct Ev as [SS LB LL H1 H2 H3|SS LB L1 S' L2 LL H1 H2 H3 H4 H5 H6].
    + exfalso. destruct Hx as (t & Ht & Hx). rewrite (i_pr _ _ _ I) in Hx by auto. rewrite <- ELB in Hx.
      rewrite <- (weval_stopped _ _ _ _ (H1 _ (warp_exists _ _ Ht))) in Hx.
      * rewrite (H3 t Ht) in Hx. exact Hx.
      * intros t' [_ Ht']. auto.
      * exists t. apply inw_own, Ht.
      * apply inw_own, Ht.
    + assert (Eq : forall t, t < BD -> L1 t = LB t).
      { intros t Ht. apply (weval_stopped _ _ _ _ (H1 _ (warp_exists _ _ Ht))).
        - intros t' [_ Ht']. auto.
        - exists t. apply inw_own, Ht.
        - apply inw_own, Ht. }
      set (L' := fun b' t => if (b =? b')%nat then L2 t else L b' t).
      set (S2 := fun b' => if (b =? b')%nat then S' else S b').
      assert (Own : L' b = L2) by (unfold L'; rewrite Nat.eqb_refl; reflexivity).
      assert (Oth : forall b', b <> b' -> L' b' = L b').
      { intros b' N. unfold L'. destruct (Nat.eqb_spec b b'); [contradiction|reflexivity]. }
      assert (OwnS : S2 b = S') by (unfold S2; rewrite Nat.eqb_refl; reflexivity).
      assert (OthS : forall b', b <> b' -> S2 b' = S b').
      { intros b' N. unfold S2. destruct (Nat.eqb_spec b b'); [contradiction|reflexivity]. }
      exists L', S2. constructor; cbn.
      * intros b' t' Hb' Ht'. destruct (Nat.eqb_spec b b') as [<-|Nb].
        -- rewrite Own, (H5 t' Ht'), (Eq t' Ht'). cbn. rewrite (i_pr _ _ _ I), <- ELB by auto. reflexivity.
        -- rewrite Oth by exact Nb. apply (i_pr _ _ _ I); auto.
      * intros b' Hb'. destruct (Nat.eq_dec b b') as [<-|Nb].
        -- rewrite Own, OwnS, <- ELL. exact H6.
        -- rewrite Oth, OthS by exact Nb. apply (i_ev _ _ _ I); auto.
      * intros b' t' x Hb' Ht'. destruct (Nat.eq_dec b b') as [<-|Nb].
        -- rewrite Own, (H5 t' Ht'), (Eq t' Ht'). cbn. rewrite ELB. apply (i_lg _ _ _ I); auto.
        -- rewrite Oth by exact Nb. apply (i_lg _ _ _ I); auto.
      * intros b' t' x Hb' Ht'. destruct (Nat.eq_dec b b') as [<-|Nb].
        -- rewrite Own, OwnS, (H5 t' Ht'). cbn. reflexivity.
        -- rewrite Oth, OthS by exact Nb. apply (i_ls _ _ _ I); auto.
      * intros x. destruct (i_mem _ _ _ I x) as [(b' & t' & Hb' & Ht' & Hw & E)|[Hn E]].
        -- left. exists b', t'. destruct (Nat.eq_dec b b') as [<-|Nb].
           ++ rewrite Own, (H5 t' Ht'), (Eq t' Ht'), ELB. cbn. auto.
           ++ rewrite Oth by exact Nb. auto.
        -- right. split; [|exact E]. intros b' t' Hb' Ht'. destruct (Nat.eq_dec b b') as [<-|Nb].
           ++ rewrite Own, (H5 t' Ht'), (Eq t' Ht'), ELB. cbn. auto.
           ++ rewrite Oth by exact Nb. auto.
      * intros b' Hb'. destruct (Nat.eq_dec b b') as [<-|Nb].
        -- rewrite Own, OwnS. intros x. right. split.
           { intros t Ht. rewrite (H5 t Ht). cbn. tauto. }
           destruct (i_shm _ _ _ I b Hb x) as [(t & Ht & Hw & E)|[Hn E]];
             destruct (H4 x) as [(t' & Ht' & Hw' & E')|[Hn' E']].
           ++ rewrite Eq in Hw', E' by exact Ht'. rewrite <- ELB in Hw, E.
              destruct (Nat.eq_dec t t') as [<-|Nt]; [congruence|].
              exfalso. rewrite <- (Eq t Ht) in Hw. rewrite <- (Eq t' Ht') in Hw'.
              destruct (H2 t t' x Ht Ht' Nt Hw). tauto.
           ++ exfalso. apply (Hn' t Ht). rewrite Eq, ELB by exact Ht. exact Hw.
           ++ exfalso. apply (Hn t' Ht'). rewrite Eq, ELB in Hw' by exact Ht'. exact Hw'.
           ++ rewrite E, E', ESS. reflexivity.
        -- rewrite Oth, OthS by exact Nb. apply (i_shm _ _ _ I); auto.
Qed.

Lemma inv_not_bad : forall s L S, inv s L S -> ~ bad l s.
Proof.
  intros s L S I (b & t & Hb & Ht & H). rewrite (i_pr _ _ _ I) in H by auto.
  destruct (lp (L b t)) as [|a k|a v k|a k|a v k|k|v d k|] eqn:P; try contradiction;
    (destruct (moving_ok _ _ _ _ _ I Hb Ht) as (L' & A & H1 & H2 & H3 & H4); [rewrite P; exact Logic.I|]);
    unfold adv in A; rewrite P in A.
  - rewrite (H1 _ _ P) in H. destruct (lg (L b t) a) as [[v|]|]; try discriminate. apply (H v), eq_refl.
  - rewrite (H2 _ _ _ P) in H. rewrite H in A. discriminate.
  - rewrite (H3 _ _ P) in H. destruct (ls (L b t) a) as [[v|]|]; try discriminate. apply (H v), eq_refl.
  - rewrite (H4 _ _ _ P) in H. rewrite H in A. discriminate.
  - discriminate.
Qed.

Lemma find_below : forall (P : nat -> Prop), (forall i, P i \/ ~ P i) ->
  forall n, (exists i, i < n /\ P i) \/ (forall i, i < n -> ~ P i).
Proof.
  intros P D. induction n as [|n IH].
  - right. intros. lia.
  - destruct IH as [(i & Hi & H)|H].
    + left. exists i. auto.
    + destruct (D n) as [Y|N].
      * left. exists n. auto.
      * right. intros i Hi. destruct (Nat.eq_dec i n) as [->|]; auto. apply H. lia.
Qed.

Lemma find_two : forall (P : nat -> nat -> Prop), (forall i j, P i j \/ ~ P i j) ->
  forall n m, (exists i j, i < n /\ j < m /\ P i j) \/ (forall i j, i < n -> j < m -> ~ P i j).
Proof.
  intros P D n m.
  destruct (find_below (fun i => exists j, j < m /\ P i j)) with (n := n) as [(i & Hi & j & Hj & H)|H].
  - intros i. destruct (find_below (P i) (D i) m) as [H|H]; [left; exact H|].
    right. intros (j & Hj & HP). apply (H j Hj HP).
  - left. exists i, j. auto.
  - right. intros i j Hi Hj HP. apply (H i Hi). exists j. auto.
Qed.

Lemma inv_progress : forall s L S, inv s L S -> finished l s \/ exists s', step l s s'.
Proof.
  intros s L S I.
  destruct (find_two (fun b t => moving (lp (L b t)))) with (n := G) (m := BD) as [(b & t & Hb & Ht & M)|NM].
  { intros i j. destruct (lp (L i j)); cbn; tauto. }
  - right. destruct (moving_ok _ _ _ _ _ I Hb Ht M) as (L' & A & H1 & H2 & H3 & H4).
    pose proof (i_pr _ _ _ I b t Hb Ht) as P. unfold adv in A.
    destruct (lp (L b t)) as [|a k|a v k|a k|a v k|k|v d k|]; try discriminate.
    + destruct (lg (L b t) a) as [[v|]|] eqn:E; try discriminate.
      eexists. eapply step_ld; eauto. rewrite (H1 _ _ eq_refl). exact E.
    + destruct (lg (L b t) a) as [o|] eqn:E; try discriminate.
      eexists. eapply step_st; eauto. rewrite (H2 _ _ _ eq_refl), E. discriminate.
    + destruct (ls (L b t) a) as [[v|]|] eqn:E; try discriminate.
      eexists. eapply step_sld; eauto. rewrite (H3 _ _ eq_refl). exact E.
    + destruct (ls (L b t) a) as [o|] eqn:E; try discriminate.
      eexists. eapply step_sst; eauto. rewrite (H4 _ _ _ eq_refl), E. discriminate.
  - destruct (find_two (fun b t => shuffling (lp (L b t)))) with (n := G) (m := BD) as [(b & t & Hb & Ht & M)|NS].
    { intros i j. destruct (lp (L i j)); cbn; tauto. }
    + right. assert (W : exists M, weval BD (t / 32) (L b) M).
      { pose proof (i_ev _ _ _ I b Hb) as Ev.
        destruct Ev as [SS LB LL H1 H2 H3|SS LB L1 S' L2 LL H1 H2 H3 H4 H5 H6].
        - eexists. apply H1, warp_exists, Ht.
        - eexists. apply H1, warp_exists, Ht. }
      destruct W as [M' W].
      destruct (weval_shuffles _ _ _ _ t W (inw_own _ _ Ht) M) as (L1 & L2 & HB & R1 & _ & _).
      eexists. apply (step_shfl l s b (t / 32) Hb HB). intros t' E.
      assert (Ht' : t' < BD) by (apply (lane_fits _ (t / 32)); auto).
      rewrite (i_pr _ _ _ I) by auto. destruct (R1 t' (conj E Ht')) as [R Sh].
      assert (St : quiet (lp (L b t')) \/ shuffling (lp (L b t'))).
      { specialize (NM b t' Hb Ht'). destruct (lp (L b t')); cbn in *; tauto. }
      rewrite run_stopped in R by exact St. injection R as R. rewrite R. exact Sh.
    + destruct (find_two (fun b t => waiting (lp (L b t)))) with (n := G) (m := BD) as [(b & t & Hb & Ht & M)|NW].
      { intros i j. destruct (lp (L i j)); cbn; tauto. }
      * right. eexists. apply (step_sync l s b Hb).
        -- intros t' Ht'. rewrite (i_pr _ _ _ I) by auto. specialize (NM b t' Hb Ht'). specialize (NS b t' Hb Ht').
           destruct (lp (L b t')); cbn in *; tauto.
        -- exists t. rewrite (i_pr _ _ _ I) by auto. auto.
      * left. intros b t Hb Ht. rewrite (i_pr _ _ _ I) by auto.
        specialize (NM b t Hb Ht). specialize (NS b t Hb Ht). specialize (NW b t Hb Ht).
        destruct (lp (L b t)); cbn in *; tauto.
Qed.

Lemma inv_finished : forall s L S, inv s L S -> finished l s -> gmerged G BD m0 Lf (mem s).
Proof.
  intros s L S I F.
  assert (E : forall b t, b < G -> t < BD -> Lf b t = L b t).
  { intros b t Hb Ht.
    assert (Q : forall t, t < BD -> lp (L b t) = Done).
    { intros t' Ht'. rewrite <- (i_pr _ _ _ I) by auto. apply F; auto. }
    pose proof (i_ev _ _ _ I b Hb) as Ev. remember (L b) as LB eqn:ELB. remember (Lf b) as LL eqn:ELL.
    assert (St : forall M, (forall w, 32 * w < BD -> weval BD w LB M) -> forall t, t < BD -> M t = LB t).
    { intros M H t' Ht'. apply (weval_stopped _ _ _ _ (H _ (warp_exists _ _ Ht'))).
      - intros t'' [_ Ht'']. rewrite (Q t'' Ht''). exact Logic.I.
      - exists t'. apply inw_own, Ht'.
      - apply inw_own, Ht'. }
    destruct Ev as [SS LB LL H1 H2 H3|SS LB L1 S' L2 LL H1 H2 H3 H4 H5 H6].
    - apply St; auto.
    - exfalso. destruct H3 as (t' & Ht' & H3). rewrite (St L1 H1 t' Ht'), (Q t' Ht') in H3. exact H3. }
  intros x. destruct (i_mem _ _ _ I x) as [(b & t & Hb & Ht & Hw & Ex)|[Hn Ex]].
  - left. exists b, t. rewrite E by auto. auto.
  - right. split; [|exact Ex]. intros b t Hb Ht. rewrite E by auto. auto.
Qed.
End Meta.

(* ---- every launch ends ---- *)
Section Ends.
Context {V : Type}.

Inductive child : thr V -> thr V -> Prop :=
  | child_ld : forall a k v, child (k v) (Ld a k)
  | child_st : forall a v k, child k (St a v k)
  | child_sld : forall a k v, child (k v) (SLd a k)
  | child_sst : forall a v k, child k (SSt a v k)
  | child_sync : forall k, child k (Sync k)
  | child_shfl : forall v d k v', child (k v') (Shfl v d k).

Lemma child_acc : forall p, Acc child p.
Proof.
  induction p as [|a k IH|a v k IH|a k IH|a v k IH|k IH|v d k IH|]; constructor; intros q C; inversion C; subst; auto.
Qed.

Definition fam (n : nat) (f' f : nat -> thr V) : Prop :=
  (forall i, i < n -> f' i = f i \/ child (f' i) (f i)) /\ exists i, i < n /\ child (f' i) (f i).

Lemma fam_acc : forall n f, Acc (fam n) f.
Proof.
  induction n as [|n IH]; intros f.
  { constructor. intros f' [_ (i & Hi & _)]. lia. }
  assert (H : forall p, Acc child p -> forall f, Acc (fam n) f -> f n = p -> Acc (fam (S n)) f).
  { intros p Ap. induction Ap as [p _ IHp]. intros g Ag. induction Ag as [g _ IHg]. intros E.
    constructor. intros f' [Hall Hex]. destruct (Hall n (Nat.lt_succ_diag_r n)) as [En|Cn].
    - destruct Hex as (i & Hi & C). destruct (Nat.eq_dec i n) as [->|Ni].
      + apply (IHp (f' n)); [rewrite <- E; exact C|apply IH|reflexivity].
      + apply IHg.
        * split; [intros j Hj; apply Hall; lia|]. exists i. split; [lia|exact C].
        * congruence.
    - apply (IHp (f' n)); [rewrite <- E; exact Cn|apply IH|reflexivity]. }
  apply (H (f n)); [apply child_acc|apply IH|reflexivity].
Qed.

Definition flat (l : launch V) (s : state V) (i : nat) : thr V := pr s (i / bdim l) (i mod bdim l).

Lemma step_fam : forall (l : launch V) s s', 0 < bdim l -> step l s s' ->
  fam (grid l * bdim l) (flat l s') (flat l s).
Proof.
  intros l s s' HB H.
  assert (One : forall b t p q, b < grid l -> t < bdim l -> pr s b t = q -> child p q ->
    pr s' = updt (pr s) b t p -> fam (grid l * bdim l) (flat l s') (flat l s)).
  { intros b t p q Hb Ht E C U. split.
    - intros i Hi. unfold flat. rewrite U. unfold updt.
      destruct (Nat.eqb_spec b (i / bdim l)), (Nat.eqb_spec t (i mod bdim l)); cbn; auto.
      right. rewrite <- e, <- e0, E. exact C.
    - exists (b * bdim l + t). split; [nia|]. unfold flat.
      rewrite (Nat.add_comm _ t), Nat.div_add, Nat.mod_add, Nat.div_small, Nat.mod_small by lia. cbn [Nat.add].
      rewrite U. unfold updt. rewrite !Nat.eqb_refl, E. cbn. exact C. }
  destruct H as [s b t a v k Hb Ht Hp Hm|s b t a v k Hb Ht Hp Hm
    |s b t a v k Hb Ht Hp Hm|s b t a v k Hb Ht Hp Hm|s b w Hb Hw Hs|s b Hb Hq Hx].
  - eapply (One b t); eauto; constructor.
  - eapply (One b t); eauto; constructor.
  - eapply (One b t); eauto; constructor.
  - eapply (One b t); eauto; constructor.
  - assert (C : forall t, t / 32 = w -> child (shuffled (pr s b) t) (pr s b t)).
    { intros t Et. pose proof (Hs t Et) as S1. unfold shuffled.
      destruct (pr s b t) as [|a k|a v k|a k|a v k|k|v d k|]; try contradiction.
      assert (S2 : shuffling (pr s b (src t d))).
      { apply Hs. unfold src. destruct (Nat.ltb_spec (t mod 32 + d) 32) as [Hd|Hd]; [|exact Et].
        rewrite (Nat.div_mod t 32) at 1 by lia.
        replace (32 * (t / 32) + t mod 32 + d) with ((t mod 32 + d) + (t / 32) * 32) by lia.
        rewrite Nat.div_add by lia. rewrite Nat.div_small by lia. exact Et. }
      destruct (pr s b (src t d)) as [|a' k'|a' v' k'|a' k'|a' v' k'|k'|v' d' k'|]; try contradiction.
      constructor. }
    split.
    + intros i Hi. unfold flat. cbn [pr]. destruct (Nat.eqb_spec b (i / bdim l)) as [E|]; cbn [andb]; auto.
      destruct (Nat.eqb_spec ((i mod bdim l) / 32) w) as [Ew|]; cbn [andb]; auto.
      right. rewrite <- E. apply C, Ew.
    + exists (b * bdim l + 32 * w). split; [nia|]. unfold flat.
      rewrite (Nat.add_comm _ (32 * w)), Nat.div_add, Nat.mod_add, Nat.div_small, Nat.mod_small by lia. cbn [Nat.add pr].
      rewrite Nat.eqb_refl, lane_first, Nat.eqb_refl. cbn. apply C, lane_first.
  - destruct Hx as (t0 & Ht0 & Hx). split.
    + intros i Hi. unfold flat. cbn [pr]. destruct (Nat.eqb_spec b (i / bdim l)) as [<-|]; auto.
      destruct (pr s b (i mod bdim l)); cbn; auto. right. constructor.
    + exists (b * bdim l + t0). split; [nia|]. unfold flat.
      rewrite (Nat.add_comm _ t0), Nat.div_add, Nat.mod_add, Nat.div_small, Nat.mod_small by lia. cbn [Nat.add pr].
      rewrite Nat.eqb_refl. destruct (pr s b t0); try contradiction. constructor.
Qed.

Theorem launch_ends : forall (l : launch V) s, 0 < bdim l -> Acc (fun s' s => step l s s') s.
Proof.
  intros l s HB.
  assert (H : forall f, Acc (fam (grid l * bdim l)) f -> forall s, flat l s = f -> Acc (fun s' s => step l s s') s).
  { intros f A. induction A as [f _ IH]. intros s0 E. constructor. intros s' St.
    apply (IH (flat l s')); [|reflexivity]. rewrite <- E. apply step_fam; auto. }
  apply (H (flat l s)); [apply fam_acc|reflexivity].
Qed.

(* ---- the theorem ---- *)
Definition lane0 (l : launch V) (m : addr -> cell V) (b t : nat) : lane :=
  mkLane m (fun a => if shar l a then Some None else None) (code l b t) [] [] [] [].

Definition keval (l : launch V) (m : addr -> cell V) (Lf : nat -> nat -> lane) : Prop :=
  (forall b, b < grid l ->
     beval (bdim l) (fun a => if shar l a then Some None else None) (lane0 l m b) (Lf b)) /\
  gfree (grid l) (bdim l) Lf.

Theorem race_free : forall (l : launch V) m Lf (Q : (addr -> cell V) -> Prop),
  accepted l -> keval l m Lf ->
  (forall m', gmerged (grid l) (bdim l) m Lf m' -> Q m') ->
  always l m Q.
Proof.
  intros l m Lf Q Acc' [Ev Fr] HQ. split; [exact Acc'|]. split; [apply launch_ends, Acc'|].
  assert (I : forall s, reach l (start l m) s -> exists L S, inv l m Lf s L S).
  { intros s H. induction H as [|s s' H IH St].
    - exists (lane0 l m), (fun _ a => if shar l a then Some None else None). constructor; cbn; auto.
      + intros a. right. cbn. auto.
      + intros b Hb a. right. cbn. auto.
    - destruct IH as (L & S & I). apply (inv_step l m Lf Fr _ _ _ _ I St). }
  intros s Hs. destruct (I s Hs) as (L & S & Is). split; [|split].
  - apply (inv_not_bad l m Lf Fr _ _ _ Is).
  - apply (inv_progress l m Lf Fr _ _ _ Is).
  - intros F. apply HQ, (inv_finished l m Lf _ _ _ Is F).
Qed.
End Ends.
