(** Proofs about StreamModel: what has not been worked on yet, in the order of
    the script. *)
From Coq Require Import List Bool Arith Lia FunctionalExtensionality.
From Verif Require Import CollModel StreamModel StreamSpec.
Import ListNotations.

(** Single pieces of work, in the order of the script. *)
Inductive el (V : Type) := EK (k : kernel V) | ER (e : nat) | EW (e : nat) | NW (e : nat) | NC (c : coll) | NR (e : nat) | EH (a : nat).
Arguments EK {V}. Arguments ER {V}. Arguments EW {V}. Arguments NW {V}. Arguments NC {V}. Arguments NR {V}. Arguments EH {V}.

Definition evs (n : nat) : list nat := map (fun i => 2 * i + 1) (seq 0 n).
Definition els1 {V} (n : nat) (x : hcmd V) : list (el V) :=
  match x with
  | HKernel k => [EK k]
  | HColl c => [ER (2 * n); NW (2 * n); NC c; NR (2 * n + 1)]
  | HWait w => [EW (2 * w + 1)]
  | HRead a => [EH a]
  end.
Definition nc {V} (x : hcmd V) : nat := match x with HColl _ => 1 | _ => 0 end.
Fixpoint els {V} (n : nat) (p : list (hcmd V)) : list (el V) := match p with [] => [] | x :: p => els1 n x ++ els (nc x + n) p end.
Definition onC {V} (x : el V) : list (item V) := match x with EK k => [SKernel k] | ER e => [SRecord e] | EW e => [SWait e] | _ => [] end.
Definition onN {V} (x : el V) : list (item V) := match x with NW e => [SWait e] | NC c => [SColl c] | NR e => [SRecord e] | _ => [] end.
Definition compq {V} (l : list (el V)) : list (item V) := flat_map onC l.
Definition commq {V} (l : list (el V)) : list (item V) := flat_map onN l.
Definition rec1 {V} (x : el V) : list nat := match x with ER e | NR e => [e] | _ => [] end.
Definition recs {V} (l : list (el V)) : list nat := flat_map rec1 l.
Definition act1 {V} (x : el V) : list (hcmd V) := match x with EK k => [HKernel k] | EH a => [HRead a] | NC c => [HColl c] | _ => [] end.
Definition acts {V} (l : list (el V)) : list (hcmd V) := flat_map act1 l.
Definition gate {V} (x : el V) (fired : list nat) : Prop := match x with NW e | EW e => In e fired | _ => True end.
Definition clash {V} (x : el V) (c : coll) : Prop := match x with EK k => touches (HKernel k) c | EH a => touches (@HRead V a) c | _ => False end.

(** The order that streams and events keep. *)
Record ordered {V} (L : list (el V)) (fired : list nat) : Prop := mkO {
  o_nodup : NoDup (recs L);
  o_fresh : forall e, In e (recs L) -> ~ In e fired;
  o_nw : forall a e b, L = a ++ NW e :: b -> In e fired \/ In (ER e) a;
  o_ew : forall a e b, L = a ++ EW e :: b -> In e fired \/ In (NR e) a;
  o_nc : forall a c b, L = a ++ NC c :: b -> compq a = [] \/ exists a1 e, a = a1 ++ [ER e; NW e];
  o_wait : forall a c a' x b, L = a ++ NC c :: a' ++ x :: b -> clash x c -> exists u e z, a' = u ++ NR e :: z /\ In (EW e) z
}.

Lemma destruct_last {A} (l : list A) : l = [] \/ exists l1 x, l = l1 ++ [x].
Proof. destruct (rev l) as [|x r] eqn:E; [left|right]; apply (f_equal (@rev A)) in E; rewrite rev_involutive in E; cbn in E; subst; eauto. Qed.
Lemma split_app {A} (a b p q : list A) y : a ++ b = p ++ y :: q ->
  (exists p2, p = a ++ p2 /\ b = p2 ++ y :: q) \/ (exists q1, a = p ++ y :: q1 /\ q = q1 ++ b).
Proof.
  revert p; induction a as [|z a IH]; intros [|w p] E; cbn in E.
  - left. exists []. auto.
  - left. exists (w :: p). auto.
  - right. injection E as -> <-. exists a. auto.
  - injection E as <- E. destruct (IH _ E) as [(p2 & -> & ->)|(q1 & -> & ->)]; [left|right]; eexists; split; reflexivity.
Qed.
Section Lists.
Context {V : Type}.
Implicit Types (a b p q L : list (el V)) (x y : el V).

Lemma compq_app a b : compq (a ++ b) = compq a ++ compq b. Proof. apply flat_map_app. Qed.
Lemma commq_app a b : commq (a ++ b) = commq a ++ commq b. Proof. apply flat_map_app. Qed.
Lemma recs_app a b : recs (a ++ b) = recs a ++ recs b. Proof. apply flat_map_app. Qed.
Lemma acts_app a b : acts (a ++ b) = acts a ++ acts b. Proof. apply flat_map_app. Qed.
Lemma recs_in L x e : In x L -> In e (rec1 x) -> In e (recs L). Proof. intros. apply in_flat_map. eauto. Qed.
Lemma compq_nil_in a x : compq a = [] -> In x a -> onC x = [].
Proof. intros E I. destruct (in_split _ _ I) as (u & v & ->). rewrite compq_app in E. apply app_eq_nil in E. destruct E as [_ E]. cbn in E. apply app_eq_nil in E. tauto. Qed.
Lemma commq_nil_in a x : commq a = [] -> In x a -> onN x = [].
Proof. intros E I. destruct (in_split _ _ I) as (u & v & ->). rewrite commq_app in E. apply app_eq_nil in E. destruct E as [_ E]. cbn in E. apply app_eq_nil in E. tauto. Qed.

(** An element may be taken out when it is first of its stream and its event
    has been reached. *)
Definition ready a x (fired : list nat) : Prop := gate x fired /\ (onC x <> [] -> compq a = []) /\ (onN x <> [] -> commq a = []) /\ (forall h, x = EH h -> compq a = []).

Lemma ordered_remove a x b fired : ordered (a ++ x :: b) fired -> ready a x fired -> ordered (a ++ b) (rec1 x ++ fired).
Proof.
  intros [ND FR OW OE OC OT] (G & RC & RN & RH).
  assert (EQ : recs (a ++ x :: b) = recs a ++ rec1 x ++ recs b) by (rewrite recs_app; reflexivity).
  constructor.
  - rewrite EQ in ND. rewrite recs_app. destruct x; cbn in ND; auto; eapply NoDup_remove_1; exact ND.
  - intros e I J. rewrite recs_app in I. apply in_app_iff in J. destruct J as [J|J].
    + rewrite EQ in ND. destruct x; cbn in J, ND; try contradiction; destruct J as [J|[]]; subst e; apply NoDup_remove_2 in ND; apply ND; exact I.
    + refine (FR e _ J). rewrite EQ. rewrite !in_app_iff in *. tauto.
  - intros p e q E. destruct (split_app _ _ _ _ _ E) as [(p2 & -> & ->)|(q1 & -> & ->)].
    + destruct (OW (a ++ x :: p2) e q) as [I|I]; [rewrite <- app_assoc; reflexivity|left; apply in_app_iff; auto|].
      apply in_app_iff in I. destruct I as [I|[I|I]]; [right|left; subst x; left; reflexivity|right]; apply in_app_iff; auto.
    + destruct (OW p e (q1 ++ x :: b)) as [I|I]; [rewrite <- app_assoc; reflexivity|left; apply in_app_iff; auto|auto].
  - intros p e q E. destruct (split_app _ _ _ _ _ E) as [(p2 & -> & ->)|(q1 & -> & ->)].
    + destruct (OE (a ++ x :: p2) e q) as [I|I]; [rewrite <- app_assoc; reflexivity|left; apply in_app_iff; auto|].
      apply in_app_iff in I. destruct I as [I|[I|I]]; [right|left; subst x; left; reflexivity|right]; apply in_app_iff; auto.
    + destruct (OE p e (q1 ++ x :: b)) as [I|I]; [rewrite <- app_assoc; reflexivity|left; apply in_app_iff; auto|auto].
  - intros p c q E. destruct (split_app _ _ _ _ _ E) as [(p2 & -> & ->)|(q1 & -> & ->)].
    + destruct (OC (a ++ x :: p2) c q) as [I|(a1 & e & I)]; [rewrite <- app_assoc; reflexivity| |].
      * left. rewrite compq_app in *. apply app_eq_nil in I. destruct I as [I J]. cbn in J. apply app_eq_nil in J. destruct J as [_ J]. fold (compq p2) in J. rewrite I, J. reflexivity.
      * assert (NE : ~ In e fired).
        { apply FR. apply (recs_in _ (ER e)); [|left; reflexivity].
          replace (a ++ x :: p2 ++ NC c :: q) with ((a ++ x :: p2) ++ NC c :: q) by (rewrite <- app_assoc; reflexivity). rewrite I, !in_app_iff. cbn. auto. }
        destruct (destruct_last p2) as [->|(p3 & y & ->)].
        -- change (a ++ [x]) with (a ++ [x]) in I. replace (a1 ++ [ER e; NW e]) with ((a1 ++ [ER e]) ++ [NW e]) in I by (rewrite <- app_assoc; reflexivity).
           apply app_inj_tail in I. destruct I as [_ ->]. cbn in G. contradiction.
        -- replace (a ++ x :: p3 ++ [y]) with ((a ++ x :: p3) ++ [y]) in I by (rewrite <- app_assoc; reflexivity).
           replace (a1 ++ [ER e; NW e]) with ((a1 ++ [ER e]) ++ [NW e]) in I by (rewrite <- app_assoc; reflexivity).
           apply app_inj_tail in I. destruct I as [I ->].
           destruct (destruct_last p3) as [->|(p4 & y & ->)].
           ++ apply app_inj_tail in I. destruct I as [-> ->]. left. rewrite compq_app, RC by discriminate. reflexivity.
           ++ replace (a ++ x :: p4 ++ [y]) with ((a ++ x :: p4) ++ [y]) in I by (rewrite <- app_assoc; reflexivity).
              apply app_inj_tail in I. destruct I as [<- ->]. right. exists (a ++ p4), e. rewrite <- !app_assoc. reflexivity.
    + destruct (OC p c (q1 ++ x :: b)) as [I|I]; [rewrite <- app_assoc; reflexivity|auto|auto].
  - intros p c a' y q E CL. destruct (split_app _ _ _ _ _ E) as [(p2 & -> & ->)|(q1 & -> & F)].
    + apply (OT (a ++ x :: p2) c a' y q); [rewrite <- app_assoc; reflexivity|exact CL].
    + symmetry in F. destruct (split_app _ _ _ _ _ F) as [(p3 & -> & ->)|(q2 & -> & ->)].
      * destruct (OT p c (q1 ++ x :: p3) y q) as (u & e & z & I & J); [rewrite <- !app_assoc; cbn; rewrite <- ?app_assoc; reflexivity|exact CL|].
        assert (NE : ~ In e fired).
        { apply FR. apply (recs_in _ (NR e)); [|left; reflexivity]. rewrite <- app_assoc. rewrite in_app_iff. right. cbn. right.
          replace (q1 ++ x :: p3 ++ y :: q) with ((q1 ++ x :: p3) ++ y :: q) by (rewrite <- app_assoc; reflexivity). rewrite I, !in_app_iff. cbn. auto. }
        destruct (split_app _ _ _ _ _ I) as [(u2 & -> & K)|(z1 & -> & ->)].
        -- destruct u2 as [|w u2]; cbn in K; injection K as K1 K2.
           ++ subst x. exfalso. assert (O : commq (p ++ NC c :: q1) = []) by (apply RN; discriminate). rewrite commq_app in O. apply app_eq_nil in O. destruct O as [_ O]. discriminate.
           ++ subst w p3. exists (q1 ++ u2), e, z. rewrite <- app_assoc. auto.
        -- exists u, e, (z1 ++ p3). rewrite <- app_assoc. split; [reflexivity|]. apply in_app_iff in J. destruct J as [J|[J|J]]; try (apply in_app_iff; auto). subst x. cbn in G. contradiction.
      * apply (OT p c a' y (q2 ++ x :: b)); [|exact CL]. rewrite <- !app_assoc. cbn. rewrite <- app_assoc. reflexivity.
Qed.
End Lists.
