(** Proofs about strings in the store. *)
From Coq Require Import ZArith List Bool Arith Lia.
From Verif Require Import StoreModel StoreSpec StoreProofs StoreProofs2 StrStoreModel StrStoreSpec.
Import ListNotations.
Open Scope Z_scope.

Lemma bytes_back s : isString s -> fromBytes (toBytes s) = s.
Proof.
  unfold fromBytes, toBytes. rewrite map_map. induction 1 as [|c s H _ IH]; cbn [map]; [reflexivity|]. rewrite IH. f_equal. destruct (Z.ltb_spec (c mod 256) 128) as [L|L].
  - destruct (Z_lt_le_dec c 0) as [N|N]; [replace (c mod 256) with (c + 256) in L by (apply (Z.mod_unique c 256 (-1)); lia); lia|apply Z.mod_small; lia].
  - destruct (Z_lt_le_dec c 0) as [N|N]; [replace (c mod 256) with (c + 256) by (apply (Z.mod_unique c 256 (-1)); lia); lia|rewrite Z.mod_small in L by lia; lia].
Qed.
Lemma answered_points c l p : phases c l p -> match p with PLin o r => In (o, r) (points l) | _ => True end /\ forall o r, In (XRes c o r) l -> In (o, r) (points l).
Proof.
  induction 1 as [|l p e p' _ [I1 I2] S]; [split; [exact I|intros o r []]|]. rewrite points_app.
  assert (K : forall x, In x (points l) -> In x (points l ++ points [e])) by (intros; apply in_or_app; left; assumption).
  assert (R : forall o r, In (XRes c o r) (l ++ [e]) -> e <> XRes c o r -> In (o, r) (points l ++ points [e])) by (intros o r Hi Ne; apply K, I2; apply in_app_or in Hi; destruct Hi as [Hi|[Hi|[]]]; [exact Hi|contradiction]).
  inversion S; subst.
  - split; [exact I|]. intros o' r' Hi. apply R; [exact Hi|discriminate].
  - split; [apply in_or_app; right; left; reflexivity|]. intros o' r' Hi. apply R; [exact Hi|discriminate].
  - split; [exact I|]. intros o' r' Hi. apply in_app_or in Hi. destruct Hi as [Hi|[Hi|[]]]; [apply K, I2; exact Hi|]. injection Hi as <- <-. apply K. exact I1.
  - split; [destruct p'; auto|]. intros o' r' Hi. apply R; [exact Hi|discriminate].
  - split; [destruct p'; auto|]. intros o' r' Hi. apply R; [exact Hi|discriminate].
  - split; [destruct p'; auto|]. intros o' r' Hi. apply R; [exact Hi|]. intros E. injection E as E _ _. contradiction.
Qed.
Lemma visible_answer l c o r : In (ERes c o r) (visible l) -> In (XRes c o r) l.
Proof. induction l as [|[c' o'|c' o' r'|c' o' r'] l IH]; cbn [visible]; [intros []| | |]; intros Hi; [destruct Hi as [Hi|Hi]; [discriminate|]| |destruct Hi as [Hi|Hi]; [injection Hi as -> -> ->; left; reflexivity|]]; right; apply IH; exact Hi. Qed.
Lemma seq_values k l m : seq_run (fun _ => None) l m -> (forall o r, In (o, r) l -> touches k o -> exists v, o = OSet k v) ->
  (forall v, m k = Some v -> exists r, In (OSet k v, r) l) /\ (forall v, In (OGet k, RValue v) l -> exists r, In (OSet k v, r) l).
Proof.
  induction 1 as [m' U|l m1 o r m2 _ IH S]; intros T; [split; [intros v E; rewrite U in E; discriminate|intros v []]|].
  destruct IH as [I1 I2]; [intros o' r' Hi; apply (T o' r'); apply in_or_app; left; exact Hi|].
  assert (K : forall v, (exists r', In (OSet k v, r') l) -> exists r', In (OSet k v, r') (l ++ [(o, r)])) by (intros v [r' Hi]; exists r'; apply in_or_app; left; exact Hi). split.
  - intros v E. assert (D : touches k o \/ ~ touches k o) by (destruct o; cbn; auto; match goal with |- ?a = ?b \/ _ => destruct (list_eq_dec Z.eq_dec a b); auto end). destruct D as [D|D].
    + destruct (T o r ltac:(apply in_or_app; right; left; reflexivity) D) as [v0 ->]. destruct S as (_ & E0 & _). rewrite E0 in E. injection E as ->. exists r. apply in_or_app. right. left. reflexivity.
    + apply K, I1. rewrite <- E. symmetry. destruct o as [k' v'|k'|k' n|ks|ks|k'|]; cbn [touches seq_step] in *.
      * destruct S as (_ & _ & S). apply S. congruence.
      * destruct S as (S & _). apply S.
      * destruct S as (z & t & _ & _ & _ & _ & S). apply S. congruence.
      * destruct S as (S & _). apply S.
      * destruct S as (S & _). apply S.
      * destruct S as (_ & S & _). apply S. congruence.
      * destruct S as (S & _). apply S.
  - intros v Hi. apply in_app_or in Hi. destruct Hi as [Hi|[Hi|[]]]; [apply K, I2; exact Hi|]. injection Hi as -> ->. destruct S as (_ & [[_ S]|(v' & E & S)]); [discriminate S|]. injection S as ->. apply K, I1. exact E.
Qed.
(** * Prefixes *)
Lemma visible_split l : forall a c o r b, visible l = a ++ ERes c o r :: b -> exists l1 l2, l = l1 ++ XRes c o r :: l2 /\ visible l1 = a.
Proof.
  induction l as [|[c' o'|c' o' r'|c' o' r'] l IH]; intros a c o r b E; cbn [visible] in E.
  - destruct a; discriminate E.
  - destruct a as [|x a]; [discriminate E|]. injection E as <- E. destruct (IH a c o r b E) as (l1 & l2 & -> & <-). exists (XInv c' o' :: l1), l2. split; reflexivity.
  - destruct (IH a c o r b E) as (l1 & l2 & -> & <-). exists (XLin c' o' r' :: l1), l2. split; reflexivity.
  - destruct a as [|x a]; [injection E as -> -> -> _; exists [], l; split; reflexivity|]. injection E as <- E. destruct (IH a c o r b E) as (l1 & l2 & -> & <-). exists (XRes c' o' r' :: l1), l2. split; reflexivity.
Qed.
Lemma phases_prefix c l1 l2 p : phases c (l1 ++ l2) p -> exists q, phases c l1 q.
Proof.
  revert p. induction l2 as [|e l2 IH] using rev_ind; intros p H; [rewrite app_nil_r in H; exists p; exact H|]. rewrite app_assoc in H. apply phases_last in H. destruct H as (q & H & _). exact (IH q H).
Qed.
Lemma seq_last m l x m2 : seq_run m (l ++ [x]) m2 -> exists m1, seq_run m l m1.
Proof. intros H. inversion H as [m' U E|l' m1 o r m2' H1 S E]; [destruct l; discriminate|]. apply app_inj_tail in E. destruct E as [-> _]. exists m1. exact H1. Qed.
Lemma seq_prefix m a b m' : seq_run m (a ++ b) m' -> exists m1, seq_run m a m1.
Proof.
  revert m'. induction b as [|x b IH] using rev_ind; intros m' H; [rewrite app_nil_r in H; exists m'; exact H|]. rewrite app_assoc in H. destruct (seq_last _ _ _ _ H) as [m1 H1]. exact (IH m1 H1).
Qed.
