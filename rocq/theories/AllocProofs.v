(** Proofs about the allocator model. *)
From Coq Require Import ZArith List Bool Arith Lia Permutation.
From Verif Require Import AllocModel AllocSpec.
Import ListNotations.
Local Open Scope Z_scope.

Ltac splits := repeat match goal with |- _ /\ _ => split end.

(** * Heap updates *)
Lemma upd_eq h i v : upd h i v i = v.
Proof. unfold upd. rewrite Nat.eqb_refl. reflexivity. Qed.
Lemma upd_neq h i v j : j <> i -> upd h i v j = h j.
Proof. intro N. unfold upd. destruct (Nat.eqb_spec j i); congruence. Qed.

(** * Chains of blocks *)
Definition hdo (l : list nat) (nx : option nat) : option nat :=
  match l with [] => nx | i :: _ => Some i end.
Fixpoint lasto (l : list nat) (pv : option nat) : option nat :=
  match l with [] => pv | i :: r => lasto r (Some i) end.

Fixpoint chain (h : nat -> option block) (sm : bool) (pv : option nat) (p : Z)
         (l : list nat) (nx : option nat) (e : Z) : Prop :=
  match l with
  | [] => p = e
  | i :: r => exists b, h i = Some b /\ bptr b = p /\ 0 < bsize b /\ (512 | bsize b)
       /\ bprev b = pv /\ bnext b = hdo r nx /\ bsmall b = sm
       /\ chain h sm (Some i) (p + bsize b) r nx e
  end.

Lemma hdo_app a c nx : hdo (a ++ c) nx = hdo a (hdo c nx).
Proof. destruct a; reflexivity. Qed.
Lemma lasto_app a c pv : lasto (a ++ c) pv = lasto c (lasto a pv).
Proof. revert pv; induction a as [|x a IH]; intro pv; simpl; auto. Qed.

Lemma chain_app h sm a : forall pv p c nx e,
  chain h sm pv p (a ++ c) nx e <->
  exists q, chain h sm pv p a (hdo c nx) q /\ chain h sm (lasto a pv) q c nx e.
Proof.
  induction a as [|i a IH]; intros pv p c nx e; simpl.
  - split; [intro H; exists p; auto | intros [q [-> H]]; auto].
  - split.
    + intros (b & H1 & H2 & H3 & H4 & H5 & H6 & H7 & H8).
      apply IH in H8. destruct H8 as [q [Ha Hc]].
      exists q. split; auto. exists b. rewrite hdo_app in H6. splits; auto.
    + intros [q [(b & H1 & H2 & H3 & H4 & H5 & H6 & H7 & H8) Hc]].
      exists b. rewrite hdo_app. splits; auto. apply IH. exists q; auto.
Qed.

Lemma chain_frame h h' sm l : forall pv p nx e,
  (forall i, In i l -> h' i = h i) ->
  chain h sm pv p l nx e -> chain h' sm pv p l nx e.
Proof.
  induction l as [|i l IH]; intros pv p nx e Hf; simpl; auto.
  intros (b & H1 & H2 & H3 & H4 & H5 & H6 & H7 & H8).
  exists b. rewrite Hf by (left; auto). splits; auto.
  apply IH; auto. intros j Hj. apply Hf. right; auto.
Qed.

Lemma chain_in h sm l : forall pv p nx e i,
  chain h sm pv p l nx e -> In i l ->
  exists b, h i = Some b /\ p <= bptr b /\ 0 < bsize b /\ (512 | bsize b)
       /\ bptr b + bsize b <= e /\ (512 | bptr b - p) /\ bsmall b = sm.
Proof.
  induction l as [|j l IH]; intros pv p nx e i Hc Hi; simpl in *; [tauto|].
  destruct Hc as (b & H1 & H2 & H3 & H4 & H5 & H6 & H7 & H8).
  assert (Hle : forall l pv p, chain h sm pv p l nx e -> p <= e).
  { clear. induction l as [|k l IH]; simpl; intros pv p H; [lia|].
    destruct H as (b & H1 & H2 & H3 & H4 & H5 & H6 & H7 & H8). apply IH in H8. lia. }
  destruct Hi as [-> | Hi].
  - exists b. apply Hle in H8. splits; auto; try lia.
    exists 0; lia.
  - destruct (IH _ _ _ _ _ H8 Hi) as (c & C1 & C2 & C3 & C4 & C5 & C6 & C7).
    exists c. splits; auto; try lia.
    replace (bptr c - p) with ((bptr c - (p + bsize b)) + bsize b) by lia.
    apply Z.divide_add_r; auto.
Qed.

Lemma chain_le h sm l : forall pv p nx e, chain h sm pv p l nx e -> p <= e.
Proof.
  induction l as [|k l IH]; simpl; intros pv p nx e H; [lia|].
  destruct H as (b & H1 & H2 & H3 & H4 & H5 & H6 & H7 & H8). apply IH in H8. lia.
Qed.

(** Two different blocks of one chain do not overlap. *)
Lemma chain_disj h sm l : forall pv p nx e i j b c,
  chain h sm pv p l nx e -> NoDup l -> In i l -> In j l -> i <> j ->
  h i = Some b -> h j = Some c ->
  bptr b + bsize b <= bptr c \/ bptr c + bsize c <= bptr b.
Proof.
  induction l as [|k l IH]; intros pv p nx e i j b c Hc Hnd Hi Hj Hij Hb Hcc; simpl in *; [tauto|].
  destruct Hc as (d & H1 & H2 & H3 & H4 & H5 & H6 & H7 & H8).
  inversion Hnd as [|? ? Hk Hnd']; subst.
  destruct Hi as [-> | Hi]; destruct Hj as [-> | Hj]; try congruence.
  - destruct (chain_in _ _ _ _ _ _ _ _ H8 Hj) as (c' & C1 & C2 & _).
    rewrite H1 in Hb; injection Hb as <-. rewrite Hcc in C1; injection C1 as <-. lia.
  - destruct (chain_in _ _ _ _ _ _ _ _ H8 Hi) as (c' & C1 & C2 & _).
    rewrite H1 in Hcc; injection Hcc as <-. rewrite Hb in C1; injection C1 as <-. lia.
  - exact (IH _ _ _ _ i j b c H8 Hnd' Hi Hj Hij Hb Hcc).
Qed.

(** Changing the forward link of the last block of a chain. *)
Lemma lasto_in a pv j : lasto a pv = Some j -> pv = Some j /\ a = [] \/ In j a.
Proof.
  revert pv; induction a as [|i a IH]; intro pv; simpl; auto.
  intro H. destruct (IH _ H) as [[E ->] | Hin]; auto.
  injection E as ->; auto.
Qed.

Definition set_next (b : block) (n : option nat) : block :=
  mkB (bsize b) (bsmall b) (bptr b) (balloc b) (bprev b) n.
Definition set_prev (b : block) (n : option nat) : block :=
  mkB (bsize b) (bsmall b) (bptr b) (balloc b) n (bnext b).

Lemma chain_relink_next h sm a : forall pv p nx nx' q,
  NoDup a -> (forall j, pv = Some j -> ~ In j a) ->
  chain h sm pv p a nx q ->
  match lasto a None with
  | None => chain h sm pv p a nx' q
  | Some j => exists c, h j = Some c /\ In j a /\
              chain (upd h j (Some (set_next c nx'))) sm pv p a nx' q
  end.
Proof.
  induction a as [|i a IH]; intros pv p nx nx' q Hnd Hpv; simpl; auto.
  intros (b & H1 & H2 & H3 & H4 & H5 & H6 & H7 & H8).
  inversion Hnd as [|? ? Hi Hnd']; subst.
  destruct a as [|k a].
  - simpl in *. exists b. splits; auto.
    exists (set_next b nx'). rewrite upd_eq. simpl. splits; auto.
  - assert (Hi' : forall j, Some i = Some j -> ~ In j (k :: a)).
    { intros j E; injection E as <-; auto. }
    specialize (IH (Some i) (bptr b + bsize b) nx nx' q Hnd' Hi' H8).
    change (lasto (k :: a) (Some i)) with (lasto (k :: a) None).
    destruct (lasto (k :: a) None) as [j|] eqn:E.
    + destruct IH as (c & C1 & C2 & C3).
      exists c. splits; auto.
      exists b. rewrite upd_neq by (intro; subst; auto).
      splits; auto.
    + exists b. splits; auto.
Qed.

(** Changing the backward link of the first block of a chain. *)
Lemma chain_relink_prev h sm k c pv pv' p nx q :
  ~ In k c ->
  chain h sm pv p (k :: c) nx q ->
  exists b, h k = Some b /\
            chain (upd h k (Some (set_prev b pv'))) sm pv' p (k :: c) nx q.
Proof.
  intros Hk (b & H1 & H2 & H3 & H4 & H5 & H6 & H7 & H8).
  exists b. split; auto. exists (set_prev b pv'). rewrite upd_eq. simpl.
  splits; auto.
  eapply chain_frame; [|exact H8]. intros j Hj. apply upd_neq. intro; subst; auto.
Qed.

(** * Coalescing *)
Definition pf (h : nat -> option block) (x : option nat) (i : nat) : Prop :=
  exists b, h i = Some b /\ balloc b = false /\ x <> Some i.

Fixpoint coal (h : nat -> option block) (x : option nat) (l : list nat) : Prop :=
  match l with
  | [] => True
  | i :: r => (forall j, hdo r None = Some j -> ~ (pf h x i /\ pf h x j)) /\ coal h x r
  end.

Lemma lasto_some a i : exists j, lasto a (Some i) = Some j.
Proof. revert i; induction a as [|k a IH]; intro i; simpl; eauto. Qed.
Lemma lasto_cons_irrel k a pv pv' : lasto (k :: a) pv = lasto (k :: a) pv'.
Proof. reflexivity. Qed.

Lemma coal_app h x a c :
  coal h x (a ++ c) <->
  coal h x a /\ coal h x c /\
  (forall i j, lasto a None = Some i -> hdo c None = Some j -> ~ (pf h x i /\ pf h x j)).
Proof.
  induction a as [|k a IH]; simpl.
  - split; [intro H; splits; auto; discriminate | tauto].
  - rewrite IH. split.
    + intros [Hk [Ha [Hc Hl]]]. split; [split; [|exact Ha]|split; auto].
      * intros j Hj. apply Hk. rewrite hdo_app. destruct a; simpl in *; auto; discriminate.
      * intros i j Hi Hj. destruct a as [|m a].
        -- simpl in Hi. injection Hi as <-. apply Hk. simpl. exact Hj.
        -- apply Hl; auto.
    + intros [[Hk Ha] [Hc Hl]]. split; [|split; [|split]]; auto.
      * intros j Hj. rewrite hdo_app in Hj. destruct a as [|m a].
        -- simpl in Hj. apply Hl; auto.
        -- simpl in Hj. apply Hk. exact Hj.
      * intros i j Hi Hj. destruct a as [|m a]; [discriminate|]. apply Hl; auto.
Qed.

Lemma coal_frame h h' x x' l :
  (forall i, In i l -> pf h' x' i -> pf h x i) -> coal h x l -> coal h' x' l.
Proof.
  induction l as [|i l IH]; intros Hf; simpl; auto.
  intros [H1 H2]. split.
  - intros j Hj [P1 P2]. apply (H1 j Hj). split; apply Hf; auto.
    + left; auto.
    + right. destruct l; simpl in Hj; [discriminate|]. injection Hj as ->. left; auto.
  - apply IH; auto. intros k Hk. apply Hf. right; auto.
Qed.

(** * The invariant *)
Record seg := mkSeg { sp : Z; ssz : Z; ssm : bool; sids : list nat }.
Definition region (g : seg) : Z * Z := (sp g, ssz g).
Definition allids (segs : list seg) : list nat := flat_map sids segs.

Definition seg_ok (h : nat -> option block) (x : option nat) (g : seg) : Prop :=
  0 < sp g /\ 0 < ssz g < 18446744073709551616 /\ sids g <> []
  /\ chain h (ssm g) None (sp g) (sids g) None (sp g + ssz g)
  /\ coal h x (sids g).

Definition sumZ (l : list Z) : Z := fold_right Z.add 0 l.

Fixpoint pdisj (l : list (Z * Z)) : Prop :=
  match l with
  | [] => True
  | r :: t => (forall r', In r' t -> disj r r' = true) /\ pdisj t
  end.

(** The two size classes of regions (getAllocationSize). *)
Definition cls (sm : bool) (z : Z) : Prop := if sm then z = 2097152 else 10485760 <= z.

Record Core (s : st) (segs : list seg) (x y : option nat) : Prop := mkCore {
  c_seg : forall g, In g segs -> seg_ok (heap s) y g;
  c_nd : NoDup (allids segs);
  c_dom : forall i b, heap s i = Some b -> In i (allids segs);
  c_held : held s = map region segs;
  c_disj : pdisj (held s);
  c_nxt : forall i b, heap s i = Some b -> (i < nxt s)%nat;
  c_pnd : forall sm, NoDup (pool_of s sm);
  c_pool : forall sm i, In i (pool_of s sm) <->
      exists b, heap s i = Some b /\ bsmall b = sm /\ balloc b = false /\ x <> Some i;
  c_total : total s = sumZ (map ssz segs);
  c_cls : forall g, In g segs -> cls (ssm g) (ssz g) }.

Lemma allids_app a c : allids (a ++ c) = allids a ++ allids c.
Proof. unfold allids. apply flat_map_app. Qed.

Lemma in_allids segs i : In i (allids segs) ->
  exists l1 g l2 a c, segs = l1 ++ g :: l2 /\ sids g = a ++ i :: c.
Proof.
  intro H. apply in_flat_map in H. destruct H as [g [Hg Hi]].
  apply in_split in Hg. destruct Hg as [l1 [l2 ->]].
  apply in_split in Hi. destruct Hi as [a [c E]].
  exists l1, g, l2, a, c. auto.
Qed.

Lemma NoDup_app_inv {A} (a c : list A) :
  NoDup (a ++ c) -> NoDup a /\ NoDup c /\ (forall x, In x a -> In x c -> False).
Proof.
  induction a as [|x a IH]; simpl; intro H.
  - splits; auto. constructor.
  - inversion H as [|? ? Hx Hnd]; subst. destruct (IH Hnd) as (Ha & Hc & Hd).
    splits; auto.
    + constructor; auto. intro Hin; apply Hx; apply in_or_app; auto.
    + intros y [-> | Hy] Hyc; [apply Hx; apply in_or_app; auto | eapply Hd; eauto].
Qed.
Lemma NoDup_app_intro {A} (a c : list A) :
  NoDup a -> NoDup c -> (forall x, In x a -> In x c -> False) -> NoDup (a ++ c).
Proof.
  induction a as [|x a IH]; simpl; intros Ha Hc Hd; auto.
  inversion Ha as [|? ? Hx Ha']; subst. constructor.
  - intro Hin. apply in_app_or in Hin. destruct Hin; eauto.
  - apply IH; auto. intros y Hy Hyc; eapply Hd; eauto.
Qed.

Lemma disj_sym r1 r2 : disj r1 r2 = disj r2 r1.
Proof. unfold disj. apply orb_comm. Qed.
Lemma pdisj_in l r r' : pdisj l -> In r l -> In r' l -> r <> r' -> disj r r' = true.
Proof.
  induction l as [|t l IH]; simpl; intros Hp Hr Hr' Hn; [tauto|].
  destruct Hp as [Ht Hp]. destruct Hr as [-> | Hr]; destruct Hr' as [-> | Hr']; try congruence; auto.
  rewrite disj_sym; auto.
Qed.
Lemma pdisj_app l1 l2 : pdisj (l1 ++ l2) <->
  pdisj l1 /\ pdisj l2 /\ (forall r r', In r l1 -> In r' l2 -> disj r r' = true).
Proof.
  induction l1 as [|r l1 IH]; simpl.
  - split; [intro; splits; auto; tauto | tauto].
  - rewrite IH. split.
    + intros [H1 [H2 [H3 H4]]]. splits; auto.
      * intros r' Hr'. apply H1. apply in_or_app; auto.
      * intros t r' [-> | Ht] Hr'; auto. apply H1. apply in_or_app; auto.
    + intros [[H1 H2] [H3 H4]]. splits; auto.
      intros r' Hr'. apply in_app_or in Hr'. destruct Hr'; auto.
Qed.

(** Every block lies in the region of its segment. *)
Lemma core_block s segs x y i b : Core s segs x y -> heap s i = Some b ->
  exists g, In g segs /\ In i (sids g) /\ seg_ok (heap s) y g
    /\ sp g <= bptr b /\ bptr b + bsize b <= sp g + ssz g /\ 0 < bsize b
    /\ (512 | bsize b) /\ (512 | bptr b - sp g) /\ bsmall b = ssm g.
Proof.
  intros C Hb. pose proof (c_dom _ _ _ _ C _ _ Hb) as Hin.
  apply in_flat_map in Hin. destruct Hin as [g [Hg Hi]].
  pose proof (c_seg _ _ _ _ C _ Hg) as Hok.
  exists g. splits; auto; try apply Hok.
  all: destruct Hok as (? & ? & ? & Hch & ?);
       destruct (chain_in _ _ _ _ _ _ _ _ Hch Hi) as (c & C1 & C2 & C3 & C4 & C5 & C6 & C7);
       rewrite Hb in C1; injection C1 as <-; auto.
Qed.

Lemma seg_ids_nd segs g : NoDup (allids segs) -> In g segs -> NoDup (sids g).
Proof.
  intros Hnd Hg. apply in_split in Hg. destruct Hg as [l1 [l2 ->]].
  rewrite allids_app in Hnd. apply NoDup_app_inv in Hnd. destruct Hnd as (_ & Hnd & _).
  simpl in Hnd. apply NoDup_app_inv in Hnd. tauto.
Qed.

(** Two different blocks never overlap. *)
Lemma core_blocks_disj s segs x y i j b c : Core s segs x y -> heap s i = Some b -> heap s j = Some c ->
  i <> j -> bptr b + bsize b <= bptr c \/ bptr c + bsize c <= bptr b.
Proof.
  intros C Hb Hc Hn.
  destruct (core_block _ _ _ _ _ _ C Hb) as (g & Hg & Hig & Hok & G1 & G2 & G3 & G4 & G5 & G6).
  destruct (core_block _ _ _ _ _ _ C Hc) as (g' & Hg' & Hjg & Hok' & F1 & F2 & F3 & F4 & F5 & F6).
  assert (Hcase : g = g' \/ disj (region g) (region g') = true).
  { apply in_split in Hg. destruct Hg as [l1 [l2 E]].
    pose proof (c_disj _ _ _ _ C) as Hd. rewrite (c_held _ _ _ _ C), E in Hd.
    rewrite E in Hg'. rewrite map_app in Hd. simpl in Hd. apply pdisj_app in Hd.
    destruct Hd as (_ & [Hd1 _] & Hd2).
    apply in_app_or in Hg'. destruct Hg' as [Hg' | [Hg' | Hg']]; auto.
    - right. rewrite disj_sym. apply Hd2; [apply in_map; auto | left; auto].
    - right. apply Hd1. apply in_map; auto. }
  destruct Hcase as [<- | Hd].
  - destruct Hok as (_ & _ & _ & Hch & _).
    exact (chain_disj _ _ _ _ _ _ _ i j b c Hch (seg_ids_nd _ _ (c_nd _ _ _ _ C) Hg) Hig Hjg Hn Hb Hc).
  - unfold disj, region in Hd. simpl in Hd. apply orb_true_iff in Hd.
    destruct Hd as [Hd | Hd]; apply Z.leb_le in Hd; lia.
Qed.
