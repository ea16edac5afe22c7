(* Kernels whose threads do not wait and do not load what any thread stores;
   they may store to the same element. *)
From Coq Require Import List Arith ZArith Bool Lia.
From Verif Require Import GpuModel GpuSpec GpuProofs CudaModel GpuLemmas.
Import ListNotations.

Lemma NoDup_app_both : forall A (a b : list A), NoDup a -> NoDup b -> (forall x, In x a -> ~ In x b) -> NoDup (a ++ b).
Proof.
  induction a as [|x a IH]; intros b Na Nb H; cbn [app]; auto. inversion Na as [|? ? N1 N2]; subst. constructor.
  - intros Hx. apply in_app_or in Hx as [Hx|Hx]; [contradiction|]. apply (H x); [left; reflexivity|exact Hx].
  - apply IH; auto. intros y Hy. apply H. right. exact Hy.
Qed.

Lemma NoDup_map_in : forall A B (f : A -> B) xs, (forall i j, In i xs -> In j xs -> f i = f j -> i = j) ->
  NoDup xs -> NoDup (map f xs).
Proof.
  induction xs as [|x xs IH]; intros H N; cbn [map]; [constructor|]. inversion N as [|? ? N1 N2]; subst. constructor.
  - intros Hx. apply in_map_iff in Hx as (y & E & Hy). apply N1.
    rewrite (H x y); auto; [left; reflexivity|right; exact Hy].
  - apply IH; auto. intros i j Hi Hj. apply H; right; assumption.
Qed.

Section Order.
Context {V : Type}.

(* The loads and the stores of such a thread. *)
Fixpoint plan (p : thr V) (m : addr -> cell V) : option (list addr * list (addr * V)) :=
  match p with
  | Done => Some ([], [])
  | Ld a k => match m a with
              | Some (Some v) => match plan (k v) m with Some (R, W) => Some (a :: R, W) | None => None end
              | _ => None
              end
  | St a v k => match m a with
                | Some _ => match plan k m with Some (R, W) => Some (R, (a, v) :: W) | None => None end
                | None => None
                end
  | _ => None
  end.

Lemma plan_ld : forall a k m v R W, m a = Some (Some v) -> plan (k v) m = Some (R, W) ->
  plan (Ld a k) m = Some (a :: R, W).
Proof. intros a k m v R W E1 E2. cbn [plan]. rewrite E1, E2. reflexivity. Qed.

Lemma plan_st : forall a v k m R W, m a <> None -> plan k m = Some (R, W) ->
  plan (St a v k) m = Some (R, (a, v) :: W).
Proof. intros a v k m R W E1 E2. cbn [plan]. rewrite E2. destruct (m a); [reflexivity|contradiction]. Qed.

Variable l : launch V.
Variable m : addr -> cell V.
Variable Rd : nat -> nat -> list addr.
Variable Wr : nat -> nat -> list (addr * V).
Hypothesis ACC : accepted l.
Hypothesis PLAN : forall b t, b < grid l -> t < bdim l -> plan (code l b t) m = Some (Rd b t, Wr b t).
Hypothesis APART : forall b t b' t' a v, b < grid l -> t < bdim l -> b' < grid l -> t' < bdim l ->
  In a (Rd b t) -> ~ In (a, v) (Wr b' t').

(* what has been stored so far *)
Definition settled (mm : addr -> cell V) (Dn : nat -> nat -> list (addr * V)) : Prop :=
  forall a, (exists b t v, b < grid l /\ t < bdim l /\ In (a, v) (Dn b t) /\ mm a = Some (Some v)) \/
            ((forall b t v, b < grid l -> t < bdim l -> ~ In (a, v) (Dn b t)) /\ mm a = m a).

Definition part (s : state V) (Dn : nat -> nat -> list (addr * V)) : Prop :=
  (forall b t, b < grid l -> t < bdim l ->
     exists R W, plan (pr s b t) m = Some (R, W) /\ Wr b t = Dn b t ++ W /\ incl R (Rd b t)) /\
  settled (mem s) Dn.

Lemma part_start : part (start l m) (fun _ _ => []).
Proof.
  split.
  - intros b t Hb Ht. exists (Rd b t), (Wr b t). cbn [pr start]. rewrite (PLAN b t Hb Ht).
    split; [reflexivity|]. split; [reflexivity|apply incl_refl].
  - intros a. right. split; auto.
Qed.

Lemma part_read : forall s Dn b t a, part s Dn -> b < grid l -> t < bdim l -> In a (Rd b t) -> mem s a = m a.
Proof.
  intros s Dn b t a [H1 H2] Hb Ht Ha. destruct (H2 a) as [(b' & t' & v & Hb' & Ht' & Hin & _)|[_ E]]; [|exact E].
  exfalso. apply (APART b t b' t' a v Hb Ht Hb' Ht' Ha). destruct (H1 b' t' Hb' Ht') as (R & W & _ & E & _).
  rewrite E. apply in_or_app. auto.
Qed.

Lemma part_alloc : forall s Dn a, part s Dn -> m a <> None -> mem s a <> None.
Proof. intros s Dn a [_ H] N. destruct (H a) as [(? & ? & v & _ & _ & _ & ->)|[_ ->]]; [discriminate|exact N]. Qed.

Lemma part_step : forall s s' Dn, part s Dn -> step l s s' -> exists Dn', part s' Dn'.
Proof.
  intros s s' Dn HP St. pose proof HP as [H1 H2].
  assert (Other : forall b t q b' t', (b, t) <> (b', t') -> updt (pr s) b t q b' t' = pr s b' t').
  { intros. apply updt_other. assumption. }
  destruct St as [s b t a v k Hb Ht Hp Hm|s b t a v k Hb Ht Hp Hm
    |s b t a v k Hb Ht Hp Hm|s b t a v k Hb Ht Hp Hm|s b w Hb Hw Hs|s b Hb Hq Hx].
  - destruct (H1 b t Hb Ht) as (R & W & E & EW & HI). rewrite Hp in E. cbn [plan] in E.
    destruct (m a) as [[v'|]|] eqn:Em; try discriminate.
    destruct (plan (k v') m) as [[R' W']|] eqn:Ek; try discriminate. injection E as <- <-.
    assert (v = v').
    { rewrite (part_read s Dn b t a HP Hb Ht) in Hm by (apply HI; left; reflexivity). congruence. }
    subst v'. exists Dn. split; [|exact H2]. intros b' t' Hb' Ht'. cbn [pr].
    destruct (pair_dec b t b' t') as [e|N]; [|rewrite (Other _ _ _ _ _ N); auto].
    injection e as <- <-. rewrite updt_same. exists R', W'. split; [exact Ek|]. split; [exact EW|].
    intros x Hx. apply HI. right. exact Hx.
  - destruct (H1 b t Hb Ht) as (R & W & E & EW & HI). rewrite Hp in E. cbn [plan] in E.
    destruct (m a) as [o|] eqn:Em; try discriminate.
    destruct (plan k m) as [[R' W']|] eqn:Ek; try discriminate. injection E as <- <-.
    exists (fun b' t' => if (b =? b') && (t =? t') then Dn b t ++ [(a, v)] else Dn b' t').
    assert (Sub : forall b' t' x, In x (Dn b' t') ->
              In x (if (b =? b') && (t =? t') then Dn b t ++ [(a, v)] else Dn b' t')).
    { intros b' t' x Hx. destruct (Nat.eqb_spec b b'), (Nat.eqb_spec t t'); cbn [andb]; auto. subst.
      apply in_or_app. auto. }
    split.
    + intros b' t' Hb' Ht'. cbn [pr]. destruct (pair_dec b t b' t') as [e|N].
      * injection e as <- <-. rewrite updt_same, !Nat.eqb_refl. cbn [andb]. exists R', W'.
        split; [exact Ek|]. split; [rewrite EW, <- app_assoc; reflexivity|exact HI].
      * rewrite (Other _ _ _ _ _ N).
        replace ((b =? b') && (t =? t')) with false; [auto|].
        destruct (Nat.eqb_spec b b'), (Nat.eqb_spec t t'); cbn [andb]; congruence.
    + intros x. cbn [mem]. destruct (addr_dec a x) as [<-|N].
      * left. exists b, t, v. rewrite !Nat.eqb_refl, upd_same. cbn [andb].
        split; [exact Hb|]. split; [exact Ht|]. split; [|reflexivity]. apply in_or_app. right. left. reflexivity.
      * rewrite upd_other by exact N. destruct (H2 x) as [(b' & t' & v' & Hb' & Ht' & Hin & Ex)|[Hno Ex]].
        -- left. exists b', t', v'. auto.
        -- right. split; [|exact Ex]. intros b' t' v' Hb' Ht' Hin.
           destruct (Nat.eqb_spec b b'), (Nat.eqb_spec t t'); cbn [andb] in Hin; try (eapply Hno; eassumption).
           apply in_app_or in Hin as [Hin|[e'|[]]]; [eapply (Hno b t); eassumption|].
           injection e' as e' _. contradiction.
  - destruct (H1 b t Hb Ht) as (R & W & E & _). rewrite Hp in E. discriminate.
  - destruct (H1 b t Hb Ht) as (R & W & E & _). rewrite Hp in E. discriminate.
  - pose proof (Hs (32 * w) (lane_first w)) as X.
    assert (Ht : 32 * w < bdim l) by lia.
    destruct (H1 b (32 * w) Hb Ht) as (R & W & E & _). destruct (pr s b (32 * w)); try contradiction. discriminate.
  - destruct Hx as (t & Ht & X). destruct (H1 b t Hb Ht) as (R & W & E & _).
    destruct (pr s b t); try contradiction. discriminate.
Qed.

Lemma part_reach : forall s, reach l (start l m) s -> exists Dn, part s Dn.
Proof.
  intros s R. induction R as [|s s' R [Dn IH] St].
  - eexists. apply part_start.
  - eapply part_step; eauto.
Qed.

Theorem any_order : always l m (fun m' => settled m' Wr).
Proof.
  split; [exact ACC|]. split; [apply launch_ends; destruct ACC as (_ & _ & A); lia|].
  intros s R. destruct (part_reach s R) as [Dn HP]. pose proof HP as [H1 H2]. split; [|split].
  - intros (b & t & Hb & Ht & X). destruct (H1 b t Hb Ht) as (R' & W & E & _ & HI).
    destruct (pr s b t) as [|a k|a v k|a k|a v k|k|v n k|] eqn:Ep; try discriminate; try contradiction.
    + cbn [plan] in E. destruct (m a) as [[v|]|] eqn:Em; try discriminate.
      destruct (plan (k v) m) as [[R1 W1]|]; try discriminate. injection E as <- <-.
      apply (X v). rewrite (part_read s Dn b t a HP Hb Ht) by (apply HI; left; reflexivity). exact Em.
    + cbn [plan] in E. apply (part_alloc s Dn a HP); [|exact X]. destruct (m a); discriminate.
  - destruct (find_two (fun b t => b < grid l /\ t < bdim l /\ pr s b t <> Done)) with (n := grid l) (m := bdim l)
      as [(b & t & _ & _ & Hb & Ht & N)|Hn].
    + intros b t. destruct (lt_dec b (grid l)); [|right; tauto]. destruct (lt_dec t (bdim l)); [|right; tauto].
      destruct (pr s b t); try (left; split; [assumption|]; split; [assumption|]; discriminate). right. tauto.
    + right. destruct (H1 b t Hb Ht) as (R' & W & E & _ & HI).
      destruct (pr s b t) as [|a k|a v k|a k|a v k|k|v n k|] eqn:Ep; try discriminate; try contradiction.
      * cbn [plan] in E. destruct (m a) as [[v|]|] eqn:Em; try discriminate.
        destruct (plan (k v) m) as [[R1 W1]|]; try discriminate. injection E as <- <-.
        eexists. eapply step_ld; eauto. rewrite (part_read s Dn b t a HP Hb Ht) by (apply HI; left; reflexivity). exact Em.
      * cbn [plan] in E. eexists. eapply step_st; eauto. apply (part_alloc s Dn a HP). destruct (m a); discriminate.
    + left. intros b t Hb Ht. destruct (pr s b t) eqn:Ep; auto; exfalso; apply (Hn b t Hb Ht);
        (split; [exact Hb|]; split; [exact Ht|]; congruence).
  - intros F a. destruct (H2 a) as [(b & t & v & Hb & Ht & Hin & Ex)|[Hno Ex]].
    + left. exists b, t, v. split; [exact Hb|]. split; [exact Ht|]. split; [|exact Ex].
      destruct (H1 b t Hb Ht) as (R' & W & _ & E & _). rewrite E. apply in_or_app. auto.
    + right. split; [|exact Ex]. intros b t v Hb Ht Hin. apply (Hno b t v Hb Ht).
      destruct (H1 b t Hb Ht) as (R' & W & E1 & E & _). rewrite (F b t Hb Ht) in E1. cbn [plan] in E1.
      injection E1 as <- <-. rewrite app_nil_r in E. rewrite <- E. exact Hin.
Qed.

(* ---- one schedule: the threads one after the other ---- *)
Definition stored (mm : addr -> cell V) (W : list (addr * V)) : addr -> cell V :=
  fold_left (fun mm p => upd mm (fst p) (Some (Some (snd p)))) W mm.

Lemma stored_ext : forall W f g, (forall a, f a = g a) -> forall a, stored f W a = stored g W a.
Proof.
  induction W as [|[x v] W IH]; intros f g H a; cbn [stored fold_left fst snd]; auto.
  apply IH. intros y. unfold upd. destruct (addr_eqb x y); auto.
Qed.

Lemma stored_cons : forall x v W mm a, stored mm ((x, v) :: W) a = stored (upd mm x (Some (Some v))) W a.
Proof. reflexivity. Qed.

Lemma stored_other : forall W mm a, (forall v, ~ In (a, v) W) -> stored mm W a = mm a.
Proof.
  induction W as [|[x v] W IH]; intros mm a N; [reflexivity|]. rewrite stored_cons, IH.
  - apply upd_other. intros ->. apply (N v). left. reflexivity.
  - intros v' H. apply (N v'). right. exact H.
Qed.

Lemma stored_in : forall W mm a v, NoDup (map fst W) -> In (a, v) W -> stored mm W a = Some (Some v).
Proof.
  induction W as [|[x u] W IH]; intros mm a v N H; [contradiction|]. inversion N as [|? ? N1 N2]; subst.
  rewrite stored_cons. destruct H as [e|H].
  - injection e as -> ->. rewrite stored_other; [apply upd_same|].
    intros v' Hin. apply N1. apply (in_map fst) in Hin. exact Hin.
  - apply IH; auto.
Qed.

Lemma thread_runs : forall p s b t R W, b < grid l -> t < bdim l -> pr s b t = p -> plan p m = Some (R, W) ->
  (forall a, In a R -> mem s a = m a) -> (forall a v, In a R -> ~ In (a, v) W) ->
  (forall a, m a <> None -> mem s a <> None) ->
  exists s', reach l s s' /\ (forall a, mem s' a = stored (mem s) W a) /\ pr s' b t = Done /\
    forall b' t', (b, t) <> (b', t') -> pr s' b' t' = pr s b' t'.
Proof.
  induction p as [|x k IH|x v k IH|x k IH|x v k IH|k IH|v n k IH|]; intros s b t R W Hb Ht Hp E HR HA HL;
    cbn [plan] in E; try discriminate.
  - injection E as <- <-. exists s. split; [constructor|]. repeat split; auto.
  - destruct (m x) as [[v|]|] eqn:Em; try discriminate.
    destruct (plan (k v) m) as [[R1 W1]|] eqn:Ek; try discriminate. injection E as <- <-.
    assert (Hm : mem s x = Some (Some v)) by (rewrite HR by (left; reflexivity); exact Em).
    destruct (IH v (mkState (mem s) (shm s) (updt (pr s) b t (k v))) b t R1 W1 Hb Ht) as (s' & A & B & C & D); auto.
    + cbn [pr]. apply updt_same.
    + intros a Ha. apply HR. right. exact Ha.
    + intros a u Ha. apply HA. right. exact Ha.
    + exists s'. split; [|split; [exact B|split; [exact C|]]].
      * eapply reach_trans; [|exact A]. eapply reach_step; [constructor|]. eapply step_ld; eauto.
      * intros b' t' N. rewrite D by exact N. cbn [pr]. apply updt_other. exact N.
  - destruct (m x) as [o|] eqn:Em; try discriminate.
    destruct (plan k m) as [[R1 W1]|] eqn:Ek; try discriminate. injection E as <- <-.
    assert (Hm : mem s x <> None) by (apply HL; rewrite Em; discriminate).
    destruct (IH (mkState (upd (mem s) x (Some (Some v))) (shm s) (updt (pr s) b t k)) b t R1 W1 Hb Ht)
      as (s' & A & B & C & D); auto.
    + cbn [pr]. apply updt_same.
    + intros a Ha. cbn [mem]. rewrite upd_other; [apply HR; exact Ha|].
      intros ->. apply (HA a v Ha). left. reflexivity.
    + intros a u Ha Hin. apply (HA a u Ha). right. exact Hin.
    + intros a N. cbn [mem]. destruct (addr_dec x a) as [->|N']; [rewrite upd_same; discriminate|].
      rewrite upd_other by exact N'. apply HL, N.
    + exists s'. split; [|split; [exact B|split; [exact C|]]].
      * eapply reach_trans; [|exact A]. eapply reach_step; [constructor|]. eapply step_st; eauto.
      * intros b' t' N. rewrite D by exact N. cbn [pr]. apply updt_other. exact N.
Qed.

Definition afterwards (ord : list (nat * nat)) (mm : addr -> cell V) : addr -> cell V :=
  fold_left (fun mm p => stored mm (Wr (fst p) (snd p))) ord mm.

Lemma afterwards_ext : forall ord f g, (forall a, f a = g a) -> forall a, afterwards ord f a = afterwards ord g a.
Proof.
  induction ord as [|p ord IH]; intros f g H a; cbn [afterwards fold_left]; auto.
  apply IH. apply stored_ext, H.
Qed.

Lemma threads_run : forall ord s, NoDup ord -> (forall p, In p ord -> fst p < grid l /\ snd p < bdim l /\ pr s (fst p) (snd p) = code l (fst p) (snd p)) ->
  (forall b t a, b < grid l -> t < bdim l -> In a (Rd b t) -> mem s a = m a) ->
  (forall a, m a <> None -> mem s a <> None) ->
  exists s', reach l s s' /\ (forall a, mem s' a = afterwards ord (mem s) a) /\
    (forall p, In p ord -> pr s' (fst p) (snd p) = Done) /\
    forall b t, ~ In (b, t) ord -> pr s' b t = pr s b t.
Proof.
  induction ord as [|[b t] ord IH]; intros s N H1 H2 H3.
  - exists s. split; [constructor|]. repeat split; auto. intros p [].
  - inversion N as [|? ? N1 N2]; subst.
    destruct (H1 (b, t)) as (Hb & Ht & Hp); [left; reflexivity|]. cbn [fst snd] in *.
    destruct (thread_runs _ s b t (Rd b t) (Wr b t) Hb Ht eq_refl) as (s1 & A & B & C & D).
    + rewrite Hp. apply PLAN; assumption.
    + intros a Ha. apply (H2 b t a Hb Ht Ha).
    + intros a v Ha. apply (APART b t b t a v); auto.
    + exact H3.
    + destruct (IH s1 N2) as (s2 & A2 & B2 & C2 & D2).
      * intros p Hin. destruct (H1 p) as (X & Y & Z0); [right; exact Hin|]. split; [exact X|]. split; [exact Y|].
        rewrite D; [exact Z0|]. intros e. apply N1. rewrite e. destruct p. exact Hin.
      * intros b' t' a Hb' Ht' Ha. rewrite B, stored_other; [apply (H2 b' t' a); auto|].
        intros v. apply (APART b' t' b t a v); auto.
      * intros a Na. rewrite B. clear - H3 Na. apply H3 in Na. revert Na. generalize (mem s). clear H3.
        induction (Wr b t) as [|[x v] W IHW]; intros mm Na; [exact Na|]. rewrite stored_cons. apply IHW.
        unfold upd. destruct (addr_eqb x a); [discriminate|exact Na].
      * exists s2. split; [eapply reach_trans; eauto|]. split; [|split].
        -- intros a. rewrite B2. change (afterwards ((b, t) :: ord) (mem s) a) with (afterwards ord (stored (mem s) (Wr b t)) a).
           apply afterwards_ext, B.
        -- intros p [<-|Hin]; [|apply C2, Hin]. cbn [fst snd]. rewrite D2 by exact N1. exact C.
        -- intros b' t' Nin. rewrite D2 by (intros H; apply Nin; right; exact H). apply D.
           intros e. apply Nin. left. exact e.
Qed.

Lemma afterwards_snoc : forall ord b t mm a, afterwards (ord ++ [(b, t)]) mm a = stored (afterwards ord mm) (Wr b t) a.
Proof. intros. unfold afterwards. rewrite fold_left_app. reflexivity. Qed.

(* In some schedule thread (b, t) is the last. *)
Theorem last_thread : forall b t, b < grid l -> t < bdim l -> NoDup (map fst (Wr b t)) ->
  sometimes l m (fun m' => forall a v, In (a, v) (Wr b t) -> m' a = Some (Some v)).
Proof.
  intros b t Hb Ht N.
  set (ord := list_prod (seq 0 (grid l)) (seq 0 (bdim l))).
  assert (Nd : NoDup ord).
  { unfold ord. generalize (seq_NoDup (grid l) 0). generalize (seq 0 (grid l)) as xs. induction xs as [|x xs IH]; intros Nx; [constructor|].
    inversion Nx as [|? ? N1 N2]; subst. cbn [list_prod]. apply NoDup_app_both; auto.
    - apply NoDup_map_in; [|apply seq_NoDup]. intros i j _ _ e. injection e as e. exact e.
    - intros [p q] Hp Hq. apply in_map_iff in Hp as (z & e & _). injection e as <- <-.
      apply in_prod_iff in Hq as [Hq _]. contradiction. }
  assert (In0 : forall p, In p ord <-> fst p < grid l /\ snd p < bdim l).
  { intros [p q]. unfold ord. rewrite in_prod_iff, !in_seq. cbn [fst snd]. lia. }
  set (other := filter (fun p => negb ((fst p =? b) && (snd p =? t))) ord).
  assert (Nin : ~ In (b, t) other).
  { unfold other. rewrite filter_In. cbn [fst snd]. rewrite !Nat.eqb_refl. intros [_ X]. discriminate. }
  destruct (threads_run (other ++ [(b, t)]) (start l m)) as (s & A & B & C & D).
  - apply NoDup_app_both.
    + apply NoDup_filter, Nd.
    + constructor; [intros []|constructor].
    + intros p Hp [<-|[]]. contradiction.
  - intros p Hp. apply in_app_or in Hp as [Hp|[<-|[]]]; [|cbn [fst snd]; auto].
    apply filter_In in Hp as [Hp _]. apply In0 in Hp as [X Y]. auto.
  - auto.
  - auto.
  - exists s. split; [exact A|]. split.
    + intros b' t' Hb' Ht'. apply (C (b', t')). apply in_or_app. destruct (pair_dec b t b' t') as [e|Ne].
      * right. left. exact e.
      * left. apply filter_In. split; [apply In0; auto|]. cbn [fst snd].
        destruct (Nat.eqb_spec b' b), (Nat.eqb_spec t' t); cbn; congruence.
    + intros a v Hin. rewrite B, afterwards_snoc. apply stored_in; assumption.
Qed.
End Order.
