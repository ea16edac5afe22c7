(** C49: which implementation an operator call runs. *)
From Coq Require Import List Bool Arith Lia.
From Verif Require Import TensorModel TensorLemmas BcastModel BufModel DispatchModel.
Import ListNotations.

(** [k] is the device and element type of the call: those of its first options,
    tensor or tensor list argument. *)
Inductive call_key : list arg -> key -> Prop :=
| ck_options : forall k rest, call_key (AOptions k :: rest) k
| ck_tensor : forall k rest, call_key (ATensor (Some k) :: rest) k
| ck_tensors : forall k l rest, call_key (ATensors (Some k :: l) :: rest) k
| ck_other : forall rest k, call_key rest k -> call_key (Other :: rest) k.
(** The registration covers the key. *)
Definition covers {F} (r : registration F) (k : key) : Prop := In (kdev k) (rdevices r) /\ In (kdt k) (rdtypes r).
(** The last of the registrations that covers [k] registered [fn]. *)
Definition last_registered {F} (rs : list (registration F)) (k : key) (fn : F) : Prop :=
  exists before r after, rs = before ++ r :: after /\ covers r k /\ rfn r = fn /\ forall r', In r' after -> ~ covers r' k.

(** Different keys have different places in the table, all inside it. *)
Theorem dispatch_no_collision : forall k1 k2, keyToIndex k1 < numKeys /\ (keyToIndex k1 = keyToIndex k2 -> k1 = k2).
Proof. intros [[] []] [[] []]; cbn; split; (lia || (intro E; (reflexivity || discriminate E))). Qed.

Lemma rd_wr {A} (l : list A) : forall i j v l', wr l i v = Some l' -> rd l' j = if j =? i then Some v else rd l j.
Proof.
  induction l as [|x l IH]; intros [|i] j v l'; cbn; try discriminate.
  - intro E. injection E as <-. destruct j; auto.
  - destruct (wr l i v) as [r|] eqn:E; [|discriminate]. intro Q. injection Q as <-. destruct j as [|j]; auto. apply (IH _ j _ _ E).
Qed.
Lemma wr_some {A} (l : list A) : forall i v, i < length l -> exists l', wr l i v = Some l' /\ length l' = length l.
Proof.
  induction l as [|x l IH]; intros [|i] v H; cbn in *; try lia.
  - eexists. split; [reflexivity|]. auto.
  - destruct (IH i v ltac:(lia)) as (r & E & L). rewrite E. eexists. split; [reflexivity|]. cbn. auto.
Qed.
Lemma index_eqb k1 k2 : (keyToIndex k1 =? keyToIndex k2) = true <-> k1 = k2.
Proof. rewrite Nat.eqb_eq. split; [apply (dispatch_no_collision k1 k2)|congruence]. Qed.
Definition dev_eq (a b : device) : {a = b} + {a <> b}. Proof. decide equality. Defined.
Definition dt_eq (a b : dtype) : {a = b} + {a <> b}. Proof. decide equality. Defined.
Lemma register_dtypes {F} (fn : F) d dtypes : forall table, length table = numKeys -> exists table',
  loop dtypes table (fun table t => registerImpl table (mkKey d t) fn) = Some table' /\ length table' = numKeys
  /\ forall k, lookup table' k = if (if dev_eq (kdev k) d then if in_dec dt_eq (kdt k) dtypes then true else false else false) then Some (Some fn) else lookup table k.
Proof.
  induction dtypes as [|t ts IH]; intros table L; cbn [loop].
  - exists table. split; auto. split; auto. intro k. destruct (dev_eq _ _); auto.
  - unfold registerImpl at 1. destruct (wr_some table (keyToIndex (mkKey d t)) (Some fn)) as (t1 & E & L1); [rewrite L; apply (dispatch_no_collision (mkKey d t) (mkKey d t))|].
    rewrite E. cbn [obind]. destruct (IH t1) as (t2 & E2 & L2 & H2); [congruence|]. exists t2. split; auto. split; auto. intro k. rewrite H2. unfold lookup at 1. rewrite (rd_wr _ _ _ _ _ E).
    destruct (dev_eq (kdev k) d) as [Ed|Nd].
    + destruct (in_dec dt_eq (kdt k) ts) as [I|I]; destruct (in_dec dt_eq (kdt k) (t :: ts)) as [J|J]; auto.
      * exfalso. apply J. right; auto.
      * destruct J as [J|J]; [|contradiction]. assert (K : k = mkKey d t) by (destruct k; cbn in *; congruence). rewrite K, Nat.eqb_refl. auto.
      * destruct (Nat.eqb_spec (keyToIndex k) (keyToIndex (mkKey d t))) as [K|]; auto. apply (dispatch_no_collision k (mkKey d t)) in K. subst k. exfalso. apply J. left; auto.
    + destruct (Nat.eqb_spec (keyToIndex k) (keyToIndex (mkKey d t))) as [K|]; auto. apply (dispatch_no_collision k (mkKey d t)) in K. subst k. cbn in Nd. congruence.
Qed.
Lemma register_op {F} (fn : F) dtypes devices : forall table, length table = numKeys -> exists table',
  registerOp table devices dtypes fn = Some table' /\ length table' = numKeys
  /\ forall k, lookup table' k = if (if in_dec dev_eq (kdev k) devices then if in_dec dt_eq (kdt k) dtypes then true else false else false) then Some (Some fn) else lookup table k.
Proof.
  unfold registerOp. induction devices as [|d ds IH]; intros table L; cbn [loop].
  - exists table. split; auto. 
  - destruct (register_dtypes fn d dtypes table L) as (t1 & E & L1 & H1). rewrite E. cbn [obind]. destruct (IH t1 L1) as (t2 & E2 & L2 & H2). exists t2. split; auto. split; auto.
    intro k. rewrite H2, H1. destruct (in_dec dev_eq (kdev k) ds) as [I|I]; destruct (in_dec dev_eq (kdev k) (d :: ds)) as [J|J]; destruct (dev_eq (kdev k) d) as [Ed|Nd]; destruct (in_dec dt_eq (kdt k) dtypes); auto;
      exfalso; cbn in J; intuition congruence.
Qed.
Lemma register_all {F} (rs : list (registration F)) : forall table, length table = numKeys -> exists table',
  loop rs table (fun table r => registerOp table (rdevices r) (rdtypes r) (rfn r)) = Some table' /\ length table' = numKeys
  /\ (forall k fn, last_registered rs k fn -> lookup table' k = Some (Some fn))
  /\ (forall k, (forall r, In r rs -> ~ covers r k) -> lookup table' k = lookup table k).
Proof.
  induction rs as [|r rs IH]; intros table L; cbn [loop].
  - exists table. split; auto. split; auto. split; auto. intros k fn (b & r & a & E & _). destruct b; discriminate.
  - destruct (register_op (rfn r) (rdtypes r) (rdevices r) table L) as (t1 & E & L1 & H1). rewrite E. cbn [obind]. destruct (IH t1 L1) as (t2 & E2 & L2 & H2 & H3). exists t2. split; auto. split; auto. split.
    + intros k fn (b & r' & a & Er & Hc & Hf & Ha). destruct b as [|r0 b].
      * injection Er as <- <-. rewrite H3 by auto. rewrite H1. destruct Hc as [C1 C2]. destruct (in_dec dev_eq _ _); [|contradiction]. destruct (in_dec dt_eq _ _); [|contradiction]. congruence.
      * injection Er as <- ->. apply H2. exists b, r', a. auto.
    + intros k Hk. rewrite H3 by (intros r' Hr; apply Hk; right; auto). rewrite H1. destruct (in_dec dev_eq _ _) as [I|]; auto. destruct (in_dec dt_eq _ _) as [J|]; auto.
      exfalso. apply (Hk r); [left; auto|]. split; auto.
Qed.

(** After every sequence of registrations: the call runs the function registered
    last for its device and type, and fails if there is none; nothing else. *)
Theorem dispatch_exact : forall F (rs : list (registration F)), exists table, registerAll rs = Some table /\
  forall args k, call_key args k ->
    (forall fn, callOp table args = Ok fn <-> last_registered rs k fn)
    /\ (callOp table args = Fail <-> forall r, In r rs -> ~ covers r k).
Proof.
  intros F rs. destruct (register_all rs emptyTable (repeat_length _ _)) as (t & E & L & H1 & H2). exists t. split; auto. intros args k Hk.
  assert (HK : keyFromArgs args = Ok k) by (induction Hk; cbn; auto). unfold callOp. rewrite HK.
  assert (Dec : (exists fn, last_registered rs k fn) \/ forall r, In r rs -> ~ covers r k).
  { clear. induction rs as [|r rs IH]; [right; intros r []|]. destruct IH as [[fn (b & r' & a & E & H)]|H].
    - left. exists fn, (r :: b), r', a. subst rs. auto.
    - assert (D : covers r k \/ ~ covers r k).
      { unfold covers. destruct (in_dec dev_eq (kdev k) (rdevices r)), (in_dec dt_eq (kdt k) (rdtypes r)); tauto. }
      destruct D as [D|D]; [left; exists (rfn r), [], r, rs; auto|right; intros r' [<-|Hr]; auto]. }
  assert (LE : lookup emptyTable k = Some (@None F)).
  { unfold lookup, emptyTable, rd. destruct k as [[] []]; reflexivity. }
  destruct Dec as [[fn0 D]|D].
  - rewrite (H1 k fn0 D). split.
    + intro fn. split; [intro Q; injection Q as <-; auto|]. intro Q. pose proof (H1 k fn0 D) as A. rewrite (H1 k fn Q) in A. congruence.
    + split; [discriminate|]. intro Q. destruct D as (b & r & a & -> & Hc & _). exfalso. apply (Q r); [apply in_app_iff; right; left; auto|auto].
  - rewrite (H2 k D), LE. split; [|tauto]. intro fn. split; [discriminate|]. intros (b & r & a & -> & Hc & _). exfalso. apply (D r); [apply in_app_iff; right; left; auto|auto].
Qed.

(** The key is that of the first tensor, whatever follows it; there is none when
    there is no such argument, or the list is empty or starts with no tensor. *)
Theorem dispatch_key : forall args k, keyFromArgs args = Ok k <-> call_key args k.
Proof.
  intros args k. split.
  - induction args as [|[k0|[k0|]|[|[k0|] l]|] rest IH]; cbn; intro E; try discriminate; try (injection E as <-; constructor). constructor. auto.
  - induction 1; cbn; auto.
Qed.
Theorem dispatch_bad_list : forall F (table : list (option F)) n l rest, callOp table (repeat Other n ++ ATensors [] :: rest) = Fail /\ callOp table (repeat Other n ++ ATensors (None :: l) :: rest) = Fail.
Proof. intros F table n l rest. unfold callOp. induction n as [|n IH]; cbn; auto. Qed.
(** A registration for all types and a device serves every type on it and none on
    the other device. *)
Theorem dispatch_all_types : forall F (fn : F) d, exists table, registerAll [mkReg [d] allDtypes fn] = Some table /\
  forall args k, call_key args k -> callOp table args = if dev_eq (kdev k) d then Ok fn else Fail.
Proof.
  intros F fn d. destruct (dispatch_exact F [mkReg [d] allDtypes fn]) as (t & E & H). exists t. split; auto. intros args k Hk. destruct (H args k Hk) as [H1 H2].
  destruct (dev_eq (kdev k) d) as [D|D].
  - apply H1. exists [], (mkReg [d] allDtypes fn), []. split; auto. split; [split; cbn; auto; destruct (kdt k); cbn; tauto|]. split; auto.
  - apply H2. intros r [<-|[]] [[C|[]] _]. cbn in C. congruence.
Qed.

(** Two registrations for the float types, then one over it for CPU float only. *)
Example dispatch_case :
  exists t, registerAll [mkReg [CPU] [Float32] 1; mkReg [CUDA] [Float32; Float16] 2; mkReg [CPU] [Float32; Int64] 3] = Some t
  /\ callOp t [Other; ATensor (Some (mkKey CPU Float32)); ATensor (Some (mkKey CUDA Bool))] = Ok 3
  /\ callOp t [ATensors [Some (mkKey CUDA Float16); None]] = Ok 2
  /\ callOp t [AOptions (mkKey CPU Bool)] = Fail.
Proof. eexists. split; [vm_compute; reflexivity|]. vm_compute. auto. Qed.

Print Assumptions dispatch_no_collision.
Print Assumptions dispatch_exact.
Print Assumptions dispatch_key.
Print Assumptions dispatch_bad_list.
Print Assumptions dispatch_all_types.
