(** C39: the file store. *)
From Coq Require Import ZArith List Bool Arith Lia ZifyBool ZifyNat.
From Verif Require Import StoreModel StoreSpec StoreProofs FileModel FileSpec FileProofs FileProofs2.
Import ListNotations.
Open Scope Z_scope.

Definition ka : key := [97].
(** Processes that only set and get, interleaved in any way, behave like one map;
    a get never returns a mixture. *)
Theorem file_set_get_linearizable_partial : forall acts s tr, (forall p o, In (FCall p o) acts -> (exists k v, o = OSet k v) \/ exists k, o = OGet k) ->
  frun finit acts = Some (s, tr) -> file_linearizable tr.
Proof. exact set_get_linearizable. Qed.
(** Calls that do not overlap behave like a map, as long as get and delete find
    their key and what is added to is a number. *)
Definition ordinary (m : amap) (o : op) : Prop :=
  match o with
  | OGet k | ODelete k => m k <> None
  | OAdd k a => exists z, in64 z = true /\ in64 (z + a) = true /\ ((m k = None \/ m k = Some []) /\ z = 0 \/ exists v, m k = Some v /\ reads_as v z /\ (length v <= 63)%nat /\ ~ In 0 v)
  | OWait _ => False
  | _ => True
  end.
Definition enough (o : op) (ns : list nat) : Prop := (match o with OSet _ v => length v + 6 | OCheck ks => length ks + 3 | _ => 30 end <= length ns)%nat.
Lemma cstring_all : forall v, ~ In 0 v -> cstring v = v.
Proof. induction v as [|b v IH]; intros H; auto. cbn. destruct (Z.eqb_spec b 0); [exfalso; apply H; left; auto|]. f_equal. apply IH. intros HI. apply H. right. auto. Qed.
Lemma digits_length : forall fuel n acc, (length (digits fuel n acc) <= S fuel + length acc)%nat.
Proof. induction fuel as [|f IH]; intros n acc; cbn [digits]; destruct (n <? 10); cbn [length]; try lia. specialize (IH (n / 10) ((48 + n mod 10) :: acc)). cbn [length] in IH. lia. Qed.
Lemma to_string_length : forall z, (length (to_string z) <= 22)%nat.
Proof. intros z. unfold to_string. destruct (z <? 0); [cbn [length]; pose proof (digits_length 20 (- z) [])|pose proof (digits_length 20 z [])]; cbn [length] in *; lia. Qed.
Theorem file_alone_partial : forall s p o ns, quiet s -> ordinary (contents s) o -> enough o ns ->
  exists s' r, callAlone ns s p o = Some (s', r) /\ quiet s' /\ seq_step (contents s) o r (contents s').
Proof.
  intros s p o ns HQ HO HE. unfold enough in HE. destruct o as [k v|k|k a|ks|ks|k|]; cbn [ordinary] in HO.
  - destruct (call_set s p k v ns HQ HE) as (s' & A & B & C). eauto.
  - destruct (contents s k) as [v|] eqn:EV; [|contradiction]. destruct (call_get s p k v ns HQ EV) as (s' & A & B & C); [lia|]. exists s', (RValue v). split; auto. split; auto. cbn. split; auto. right. eauto.
  - destruct HO as (z & Hz & Hza & HV).
    assert (HA : amount (contents s) k = Some z).
    { unfold amount. destruct HV as [[[->| ->] ->]|(v & -> & HR & HL & HN)]; auto. unfold readNumber63. rewrite firstn_all2 by lia. destruct v as [|b v]; [|rewrite cstring_all by auto; apply stoll_complete; auto].
      exfalso. destruct HR as (ws & sg & ds & junk & HX & _ & _ & HNN & _). symmetry in HX. apply app_eq_nil in HX. destruct HX as [_ HX]. apply app_eq_nil in HX. destruct HX as [_ HX]. apply app_eq_nil in HX. destruct HX. contradiction. }
    destruct (call_add s p k a z ns HQ HA Hza) as (s' & A & B & C & D). { pose proof (to_string_length (z + a)). lia. }
    exists s', (RInt (z + a)). split; auto. split; auto. cbn. exists z, (to_string (z + a)). split; [|split; [auto|split; [auto|split; [apply to_string_decimal; auto|auto]]]]. destruct HV as [HV|(v & HV & HR & _)]; [left; auto|right; eauto].
  - destruct (call_check s p ks ns HQ HE) as (s' & b & A & B & C & D). exists s', (RBool b). split; auto. split; auto. cbn. split; auto. exists b. auto.
  - contradiction.
  - destruct (call_delete s p k ns HQ) as (s' & A & B & C & D); [lia|]. exists s', (RBool true). split; auto. split; auto. cbn. split; auto. split; auto. exists true. split; auto. split; auto.
  - destruct (call_num s p ns HQ) as (s' & l & A & B & C & D & E); [lia|]. eexists s', _. split; [exact A|]. split; auto. cbn. split; auto. exists l. auto.
Qed.
(** A get of a key that is not there returns empty after its timeout. *)
Theorem file_get_absent : forall s p k ns, quiet s -> contents s k = None -> (2 <= length ns)%nat ->
  exists s', callAlone ns s p (OGet k) = Some (s', RValue []) /\ quiet s' /\ unchanged (contents s) (contents s').
Proof. exact call_get_absent. Qed.
(** Deleting reports success whether or not the key was there. *)
Theorem file_delete_refuted : forall s p k ns, quiet s -> (5 <= length ns)%nat ->
  exists s', callAlone ns s p (ODelete k) = Some (s', RBool true) /\ quiet s' /\ contents s' k = None /\ changed_only (contents s) (contents s') k.
Proof. exact call_delete. Qed.

Definition steps (p n m : nat) : list faction := repeat (FStep p n) m.
(** Two processes adding one: both get 1 and 1 is stored. *)
Theorem file_lost_increment_refuted :
  option_map (fun x => (snd x, contents (fst x) ka))
    (frun finit ([FCall 0 (OAdd ka 1); FCall 1 (OAdd ka 1)] ++ steps 0 0 4 ++ steps 1 0 4 ++ steps 0 0 4 ++ steps 1 0 4 ++ [FReturn 0; FReturn 1]))
  = Some ([EInv 0 (OAdd ka 1); EInv 1 (OAdd ka 1); ERes 0 (OAdd ka 1) (RInt 1); ERes 1 (OAdd ka 1) (RInt 1)], Some [49]).
Proof. vm_compute. reflexivity. Qed.
(** Two additions of 10 and 4 leave 40. *)
Theorem file_mixed_add_refuted :
  option_map (fun x => (snd x, contents (fst x) ka))
    (frun finit ([FCall 0 (OAdd ka 10); FCall 1 (OAdd ka 4)] ++ steps 0 1 4 ++ steps 1 1 4 ++ steps 0 1 1 ++ steps 1 1 1 ++ steps 0 1 3 ++ steps 1 1 3 ++ [FReturn 0; FReturn 1]))
  = Some ([EInv 0 (OAdd ka 10); EInv 1 (OAdd ka 4); ERes 0 (OAdd ka 10) (RInt 10); ERes 1 (OAdd ka 4) (RInt 4)], Some [52; 48]).
Proof. vm_compute. reflexivity. Qed.
(** A get returns an empty value while the only set writes [7]. *)
Theorem file_empty_get_refuted :
  option_map snd (frun finit ([FCall 0 (OSet ka [7]); FCall 1 (OGet ka)] ++ steps 0 0 1 ++ steps 1 0 7 ++ [FReturn 1] ++ steps 0 0 5 ++ [FReturn 0]))
  = Some [EInv 0 (OSet ka [7]); EInv 1 (OGet ka); ERes 1 (OGet ka) (RValue []); ERes 0 (OSet ka [7]) RDone].
Proof. vm_compute. reflexivity. Qed.
(** A key nobody set is reported present during a deletion. *)
Theorem file_ghost_key_refuted :
  option_map snd (frun finit ([FCall 0 (ODelete ka)] ++ steps 0 0 1 ++ [FCall 1 (OCheck [ka])] ++ steps 1 0 3 ++ [FReturn 1] ++ steps 0 0 3 ++ [FReturn 0]))
  = Some [EInv 0 (ODelete ka); EInv 1 (OCheck [ka]); ERes 1 (OCheck [ka]) (RBool true); ERes 0 (ODelete ka) (RBool true)].
Proof. vm_compute. reflexivity. Qed.
(** With a deletion in between, two sets mix: [1;1] and [2;2] leave [1;2]. *)
Theorem file_mixed_set_refuted :
  option_map (fun x => contents (fst x) ka)
    (frun finit ([FCall 0 (OSet ka [1; 1])] ++ steps 0 0 1 ++ [FCall 1 (ODelete ka)] ++ steps 1 0 4 ++ [FReturn 1; FCall 2 (OSet ka [2; 2])] ++ steps 2 0 4 ++ steps 0 1 3 ++ steps 2 0 3 ++ steps 0 0 2 ++ [FReturn 0; FReturn 2]))
  = Some (Some [1; 2]).
Proof. vm_compute. reflexivity. Qed.
(** Two setters and a reader interleaved. *)
Example file_nonvacuous :
  option_map snd (frun finit ([FCall 0 (OSet ka [1; 2]); FCall 1 (OSet ka [3])] ++ steps 0 0 3 ++ steps 1 0 1 ++ [FCall 2 (OGet ka)] ++ steps 0 0 4 ++ steps 2 0 7 ++ [FReturn 2] ++ steps 1 0 5 ++ [FReturn 0; FReturn 1]))
  = Some [EInv 0 (OSet ka [1; 2]); EInv 1 (OSet ka [3]); EInv 2 (OGet ka); ERes 2 (OGet ka) (RValue [1; 2]); ERes 0 (OSet ka [1; 2]) RDone; ERes 1 (OSet ka [3]) RDone].
Proof. vm_compute. reflexivity. Qed.
(** The second setter is kept out while the first one writes. *)
Example file_excludes : frun finit ([FCall 0 (OSet ka [1; 2]); FCall 1 (OSet ka [3])] ++ steps 0 0 3 ++ steps 1 0 2) = None.
Proof. vm_compute. reflexivity. Qed.
Example file_quiet : quiet finit. Proof. constructor; cbn; auto; [constructor; cbn; discriminate|constructor]. Qed.
Example file_alone_nonvacuous :
  match callAlone (repeat 5%nat 30) finit 3 (OAdd ka 41) with
  | Some (s, r) => match callAlone (repeat 0%nat 30) s 4 (OAdd ka 1) with Some (s', r') => Some (r, r', contents s' ka) | None => None end
  | None => None
  end = Some (RInt 41, RInt 42, Some [52; 50]).
Proof. vm_compute. reflexivity. Qed.

Print Assumptions file_set_get_linearizable_partial.
Print Assumptions file_alone_partial.
Print Assumptions file_get_absent.
Print Assumptions file_delete_refuted.
