(** C104: strings in the store. *)
From Coq Require Import ZArith List Bool Arith Lia.
From Verif Require Import StoreModel StoreSpec StoreProofs StoreProofs2 StrStoreModel StrStoreSpec StrStoreProofs.
Import ListNotations.
Open Scope Z_scope.

(** Strings come back as they were set, whatever bytes they contain. *)
Theorem C104_round_trip : forall k s m m' r m'' r', isString s -> seq_step m (setString k s) r m' -> seq_step m' (OGet k) r' m'' -> getString r' = Some s.
Proof.
  intros k s m m' r m'' r' Hs (_ & E & _) (_ & [[N _]|(v & E' & ->)]); rewrite E in *; [discriminate N|]. injection E' as <-. cbn [getString]. rewrite bytes_back by exact Hs. reflexivity.
Qed.

(** In every execution of several clients, in which a key is only set to strings, a string that is
    read under it has been set by one of the clients before. *)
Theorem C104_strings : forall acts s tr tr1 tr2 k c r x, run init acts = Some (s, tr) -> tr = tr1 ++ ERes c (OGet k) r :: tr2 ->
  (forall c o, In (EInv c o) tr1 -> touches k o -> exists x, isString x /\ o = setString k x) ->
  getString r = Some x -> isString x /\ exists c', In (EInv c' (setString k x)) tr1.
Proof.
  intros acts s tr tr1 tr2 k c r x H Etr T G. destruct r as [|v| | |]; try discriminate G. injection G as <-. destruct (store_linearizable acts s tr H) as (l & El & P & m & Q).
  rewrite Etr in El. destruct (visible_split l _ _ _ _ _ El) as (l1 & l2 & -> & <-). assert (P1 : forall c, exists p, phases c l1 p) by (intros c'; destruct (P c') as [p Hp]; exact (phases_prefix _ _ _ _ Hp)).
  rewrite points_app in Q. destruct (seq_prefix _ _ _ _ Q) as [m1 Q1]. change (l1 ++ XRes c (OGet k) (RValue v) :: l2) with (l1 ++ [XRes c (OGet k) (RValue v)] ++ l2) in P. destruct (P c) as [p Hp]. rewrite app_assoc in Hp. destruct (phases_prefix _ _ _ _ Hp) as [q Hq].
  pose proof (proj2 (answered_points c _ q Hq) (OGet k) (RValue v) ltac:(apply in_or_app; right; left; reflexivity)) as Hpt. rewrite points_app, app_nil_r in Hpt.
  assert (T' : forall o r, In (o, r) (points l1) -> touches k o -> exists v, o = OSet k v). { intros o r Ho Hk. destruct (points_invoked l1 P1 o r Ho) as [c' Hc']. destruct (T c' o Hc' Hk) as (x & _ & ->). eexists. reflexivity. }
  destruct (proj2 (seq_values k (points l1) m1 Q1 T') v Hpt) as [r' Hr]. destruct (points_invoked l1 P1 _ _ Hr) as [c' Hc']. destruct (T c' _ Hc' eq_refl) as (x & Hx & E). unfold setString in E. injection E as ->. rewrite bytes_back by exact Hx. split; [exact Hx|]. exists c'. exact Hc'.
Qed.

(** A string with a null and characters beyond ASCII; one client sets it and another reads
    it. *)
Example back : fromBytes (toBytes [104; 0; -61; -87; -128; 127]) = [104; 0; -61; -87; -128; 127].
Proof. reflexivity. Qed.

Example read_back : exists s tr, let x := [-61; -87; 0] in
  run init [AInvoke 0 (OGet [107]); AInvoke 1 (setString [107] x); AExec 1; ARespond 1; AExec 0; ARespond 0] = Some (s, tr)
  /\ (forall c o, In (EInv c o) tr -> touches [107] o -> exists x, isString x /\ o = setString [107] x) /\ exists tr1 r, tr = tr1 ++ [ERes 0 (OGet [107]) r] /\ getString r = Some x.
Proof.
  do 2 eexists. cbv zeta. split; [vm_compute; reflexivity|]. split.
  - intros c o Hi Hk. cbn [In] in Hi. repeat (destruct Hi as [Hi|Hi]; [try discriminate Hi; injection Hi as <- <-|]); try destruct Hk; try contradiction. exists [-61; -87; 0]. split; [repeat constructor; cbn; discriminate|reflexivity].
  - exists [EInv 0 (OGet [107]); EInv 1 (setString [107] [-61; -87; 0]); ERes 1 (setString [107] [-61; -87; 0]) RDone], (RValue [195; 169; 0]). split; reflexivity.
Qed.
Print Assumptions C104_round_trip.
Print Assumptions C104_strings.
