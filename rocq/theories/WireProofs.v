From Coq Require Import ZArith List Bool Arith Lia ZifyBool ZifyNat.
From Verif Require Import StoreModel WireModel WireSpec.
From Verif Require SerialProofs.
Import ListNotations.
Open Scope Z_scope.

(** * Sending and receiving in pieces *)
Lemma send_all : forall amounts data w, sendBytes data amounts = Some w -> w = data.
Proof.
  induction amounts as [|a amounts IH]; intros data w H; destruct data as [|b data]; cbn [sendBytes] in H; try discriminate; try (injection H as <-; reflexivity).
  destruct a as [|a]; [discriminate|]. destruct (sendBytes (skipn (S a) (b :: data)) amounts) as [w'|] eqn:E; [|discriminate]. injection H as <-. apply IH in E. rewrite E. apply (firstn_skipn (S a) (b :: data)).
Qed.
Lemma send_enough : forall data amounts, Forall (fun a => (0 < a)%nat) amounts -> (length data <= list_sum amounts)%nat -> sendBytes data amounts = Some data.
Proof.
  intros data amounts H. revert data. induction H as [|a amounts Ha H IH]; intros data HL.
  - destruct data; [reflexivity|cbn in HL; lia].
  - destruct data as [|b data]; [reflexivity|]. cbn [sendBytes]. destruct a as [|a]; [lia|]. rewrite IH.
    + rewrite firstn_skipn. reflexivity.
    + rewrite skipn_length. change (list_sum (S a :: amounts)) with (S a + list_sum amounts)%nat in HL. lia.
Qed.
Definition flatRecv (s : list byte) (n : nat) : option (list byte * list byte) := if (n <=? length s)%nat then Some (firstn n s, skipn n s) else None.
(** Fragmentation does not matter. *)
Definition agrees {A} (x : option (A * list (list byte))) (y : option (A * list byte)) : Prop :=
  match x, y with Some (a, cs), Some (b, s) => a = b /\ s = concat cs /\ pieces cs | None, None => True | _, _ => False end.
Lemma recv_agrees : forall cs n, pieces cs -> agrees (recvBytes cs n) (flatRecv (concat cs) n).
Proof.
  intros cs n H. revert n. induction H as [|c cs Hc H IH]; intros n.
  - destruct n; cbn; auto. repeat split; constructor.
  - unfold flatRecv. cbn [concat]. rewrite app_length. destruct n as [|n]; cbn [recvBytes]; [cbn; repeat split; auto; constructor; auto|].
    destruct c as [|b c]; [contradiction|]. set (c0 := b :: c) in *. destruct (Nat.leb_spec (length c0) (S n)) as [HL|HL].
    + specialize (IH (S n - length c0)%nat). unfold flatRecv in IH. destruct (Nat.leb_spec (S n) (length c0 + length (concat cs))) as [HT|HT].
      * rewrite (proj2 (Nat.leb_le _ _)) in IH by lia. destruct (recvBytes cs (S n - length c0)) as [[b' r']|]; [|destruct IH]. destruct IH as (E1 & E2 & E3). cbn [agrees]. split; [|split; auto].
        -- rewrite E1. rewrite firstn_app, (firstn_all2 c0) by lia. reflexivity.
        -- rewrite <- E2. rewrite skipn_app, (skipn_all2 c0) by lia. reflexivity.
      * rewrite (proj2 (Nat.leb_gt _ _)) in IH by lia. destruct (recvBytes cs (S n - length c0)) as [[b' r']|]; auto.
    + rewrite (proj2 (Nat.leb_le _ _)) by lia. cbn [agrees]. split; [|split].
      * rewrite firstn_app. replace (S n - length c0)%nat with O by lia. cbn [firstn]. rewrite app_nil_r. reflexivity.
      * cbn [concat]. rewrite skipn_app. replace (S n - length c0)%nat with O by lia. reflexivity.
      * constructor; auto. intros E. apply (f_equal (@length _)) in E. rewrite skipn_length in E. cbn [length] in E. lia.
Qed.
Ltac stp H := let E1 := fresh in let E2 := fresh in
  match type of H with agrees ?x ?y => destruct x as [[? ?]|] eqn:E1; destruct y as [[? ?]|] eqn:E2; cbn [agrees] in H; try contradiction; [destruct H as (? & ? & ?); subst|] end.
Lemma word_agrees : forall cs, pieces cs -> agrees (rdWord recvBytes cs) (rdWord flatRecv (concat cs)).
Proof. intros cs H. unfold rdWord. pose proof (recv_agrees cs 8 H) as A. stp A; cbn; auto. Qed.
Lemma string_agrees : forall cs, pieces cs -> agrees (rdString recvBytes cs) (rdString flatRecv (concat cs)).
Proof. intros cs H. unfold rdString. pose proof (word_agrees cs H) as A. stp A; cbn; auto. apply recv_agrees. auto. Qed.
Lemma strings_agree : forall n cs, pieces cs -> agrees (rdStrings recvBytes n cs) (rdStrings flatRecv n (concat cs)).
Proof.
  induction n as [|n IH]; intros cs H; [cbn; auto|]. cbn [rdStrings]. pose proof (string_agrees cs H) as A. stp A; cbn; auto.
  match goal with HP : pieces ?l |- _ => pose proof (IH l HP) as B end. stp B; cbn; auto.
Qed.
Lemma keys_agree : forall cs, pieces cs -> agrees (rdKeys recvBytes cs) (rdKeys flatRecv (concat cs)).
Proof. intros cs H. unfold rdKeys. pose proof (word_agrees cs H) as A. stp A; cbn; auto. apply strings_agree. auto. Qed.
Lemma onSnd_agrees : forall A B (f : A -> B) x y, agrees x y -> agrees (onSnd f x) (onSnd f y).
Proof. intros A B f x y H. stp H; cbn; auto. Qed.
Lemma server_agrees : forall cs, pieces cs -> agrees (serverRead recvBytes cs) (serverRead flatRecv (concat cs)).
Proof.
  intros cs H. unfold serverRead. pose proof (recv_agrees cs 1 H) as A. stp A; cbn; auto. destruct l1 as [|c [|? ?]]; cbn; auto.
  destruct (c =? 0). { pose proof (string_agrees _ H4) as B. stp B; cbn; auto. apply onSnd_agrees, string_agrees. auto. }
  destruct (c =? 1); [apply onSnd_agrees, string_agrees; auto|].
  destruct (c =? 2). { pose proof (string_agrees _ H4) as B. stp B; cbn; auto. apply onSnd_agrees, word_agrees. auto. }
  destruct (c =? 3); [apply onSnd_agrees, keys_agree; auto|]. destruct (c =? 4); [apply onSnd_agrees, keys_agree; auto|]. destruct (c =? 5); [apply onSnd_agrees, string_agrees; auto|].
  destruct (c =? 6); [cbn; auto|]. destruct (c =? 7); [cbn; auto|]. destruct (c =? 8); cbn; auto.
Qed.
Lemma client_agrees : forall q cs, pieces cs -> agrees (clientRead recvBytes q cs) (clientRead flatRecv q (concat cs)).
Proof.
  intros q cs H. destruct q as [[k v|k|k n|ks|ks|k|]| |]; cbn [clientRead]; try (apply onSnd_agrees); try (apply string_agrees; auto); try (apply word_agrees; auto); try (cbn; auto; fail);
    pose proof (recv_agrees cs 1 H) as A; stp A; cbn; auto; destruct l1 as [|c [|? ?]]; cbn; auto; destruct (c =? 1); cbn; auto.
Qed.

(** * Reading back what was written *)
Lemma flat_app : forall a b, flatRecv (a ++ b) (length a) = Some (a, b).
Proof. intros. unfold flatRecv. rewrite app_length. rewrite (proj2 (Nat.leb_le _ _)) by lia. rewrite firstn_app, firstn_all, Nat.sub_diag, skipn_app, skipn_all, Nat.sub_diag. cbn. rewrite app_nil_r. reflexivity. Qed.
Lemma word_app : forall x b, 0 <= x < 2 ^ 64 -> rdWord flatRecv (le64 x ++ b) = Some (x, b).
Proof. intros x b H. unfold rdWord. change 8%nat with (length (le64 x)). rewrite flat_app. unfold from_le, le64. rewrite SerialProofs.from_le64, SerialProofs.u64_small by auto. reflexivity. Qed.
Lemma word_signed : forall x b, - 2 ^ 63 <= x < 2 ^ 63 -> onSnd s64 (rdWord flatRecv (le64 x ++ b)) = Some (x, b).
Proof.
  intros x b H. unfold rdWord. change 8%nat with (length (le64 x)). rewrite flat_app. cbn [onSnd]. do 2 f_equal. unfold from_le, le64, s64. rewrite SerialProofs.from_le64. unfold SerialModel.s64. cbv zeta. unfold SerialModel.u64. rewrite Z.mod_mod by lia.
  destruct (Z.ltb_spec x 0).
  - replace (x mod 2 ^ 64) with (x + 2 ^ 64) by (rewrite <- (Z.mod_small (x + 2 ^ 64) (2 ^ 64)) by lia; rewrite <- (Z_mod_plus_full x 1 (2 ^ 64)); f_equal; lia). destruct (Z.ltb_spec (x + 2 ^ 64) (2 ^ 63)); lia.
  - rewrite Z.mod_small by lia. destruct (Z.ltb_spec x (2 ^ 63)); lia.
Qed.
Lemma string_app : forall s b, sized s -> rdString flatRecv (sendString s ++ b) = Some (s, b).
Proof. intros s b H. unfold rdString, sendString. rewrite <- app_assoc. rewrite word_app by (unfold sized in H; lia). rewrite Nat2Z.id. apply flat_app. Qed.
Lemma strings_app : forall ks b, Forall sized ks -> rdStrings flatRecv (length ks) (flat_map sendString ks ++ b) = Some (ks, b).
Proof. intros ks b H. induction H as [|k ks Hk H IH]; [reflexivity|]. cbn [length rdStrings flat_map]. rewrite <- app_assoc. rewrite string_app by auto. rewrite IH. reflexivity. Qed.
Lemma keys_app : forall ks b, Forall sized ks -> Z.of_nat (length ks) < 2 ^ 64 -> rdKeys flatRecv ((le64 (Z.of_nat (length ks)) ++ flat_map sendString ks) ++ b) = Some (ks, b).
Proof. intros ks b H HL. unfold rdKeys. rewrite <- app_assoc. rewrite word_app by lia. rewrite Nat2Z.id. apply strings_app. auto. Qed.
Lemma flat_one : forall c b, flatRecv (c :: b) 1 = Some ([c], b). Proof. intros. apply (flat_app [c] b). Qed.
Lemma server_reads_back : forall q b, sendable q -> serverRead flatRecv (encode q ++ b) = Some (q, b).
Proof.
  intros q b H. unfold serverRead. destruct q as [[k v|k|k n|ks|ks|k|]| |]; cbn [encode sendable] in *; rewrite <- ?app_assoc; cbn [app]; rewrite flat_one; cbn [Z.eqb Pos.eqb].
  - rewrite string_app by apply H. rewrite string_app by apply H. reflexivity.
  - rewrite string_app by apply H. reflexivity.
  - rewrite string_app by apply H. pose proof (word_signed n b) as HW. unfold onSnd in *. destruct (rdWord flatRecv (le64 n ++ b)) as [[x s]|]; [|discriminate HW; apply H]. specialize (HW (proj2 H)). injection HW as HW ->. rewrite HW. reflexivity.
  - destruct H as [H1 H2]. pose proof (keys_app ks b H1 H2) as HK. rewrite <- app_assoc in HK. exact (f_equal (onSnd (fun ks0 => QOp (OCheck ks0))) HK).
  - destruct H as [H1 H2]. pose proof (keys_app ks b H1 H2) as HK. rewrite <- app_assoc in HK. exact (f_equal (onSnd (fun ks0 => QOp (OWait ks0))) HK).
  - rewrite string_app by apply H. reflexivity.
  - reflexivity.
  - reflexivity.
  - reflexivity.
Qed.
Lemma client_reads_back : forall q r b, answers_to q r -> clientRead flatRecv q (answer q r ++ b) = Some (r, b).
Proof.
  intros q r b H. destruct q as [[k v|k|k n|ks|ks|k|]| |]; cbn [answers_to] in H; try (destruct H as (x & -> & Hx)); try (destruct H as (x & ->)); try subst r; cbn [clientRead answer]; rewrite ?flat_one; cbn [app]; try reflexivity.
  - rewrite string_app by auto. reflexivity.
  - pose proof (word_signed x b Hx) as HW. unfold onSnd in *. destruct (rdWord flatRecv (le64 x ++ b)) as [[y s]|]; [|discriminate HW]. injection HW as HW ->. rewrite HW. reflexivity.
  - rewrite flat_one. destruct x; reflexivity.
  - rewrite flat_one. destruct x; reflexivity.
  - rewrite flat_one. destruct x; reflexivity.
  - pose proof (word_signed x b Hx) as HW. unfold onSnd in *. destruct (rdWord flatRecv (le64 x ++ b)) as [[y s]|]; [|discriminate HW]. injection HW as HW ->. rewrite HW. reflexivity.
Qed.

(** * A broken-off request is not executed *)
Definition extends {A} (x y : option (A * list byte)) (t : list byte) : Prop := match x with Some (a, s) => y = Some (a, s ++ t) | None => True end.
Lemma flat_ext : forall s n t, extends (flatRecv s n) (flatRecv (s ++ t) n) t.
Proof.
  intros s n t. unfold flatRecv. destruct (Nat.leb_spec n (length s)) as [H|H]; cbn; auto. rewrite app_length. rewrite (proj2 (Nat.leb_le _ _)) by lia. rewrite firstn_app, skipn_app. replace (n - length s)%nat with O by lia. cbn. rewrite app_nil_r. reflexivity.
Qed.
Ltac ext H := match type of H with extends ?x ?y ?t => destruct x as [[? ?]|]; cbn [extends] in H; [rewrite H; clear H|exact I] end.
Lemma word_ext : forall s t, extends (rdWord flatRecv s) (rdWord flatRecv (s ++ t)) t.
Proof. intros s t. unfold rdWord. pose proof (flat_ext s 8 t) as H. ext H. reflexivity. Qed.
Lemma string_ext : forall s t, extends (rdString flatRecv s) (rdString flatRecv (s ++ t)) t.
Proof. intros s t. unfold rdString. pose proof (word_ext s t) as H. ext H. apply flat_ext. Qed.
Lemma strings_ext : forall n s t, extends (rdStrings flatRecv n s) (rdStrings flatRecv n (s ++ t)) t.
Proof. induction n as [|n IH]; intros s t; [reflexivity|]. cbn [rdStrings]. pose proof (string_ext s t) as H. ext H. match goal with |- extends (match rdStrings _ _ ?l with _ => _ end) _ _ => pose proof (IH l t) as H2 end. ext H2. reflexivity. Qed.
Lemma keys_ext : forall s t, extends (rdKeys flatRecv s) (rdKeys flatRecv (s ++ t)) t.
Proof. intros s t. unfold rdKeys. pose proof (word_ext s t) as H. ext H. apply strings_ext. Qed.
Lemma onSnd_ext : forall A B (f : A -> B) x y t, extends x y t -> extends (onSnd f x) (onSnd f y) t.
Proof. intros A B f x y t H. ext H. reflexivity. Qed.
Lemma server_ext : forall s t, extends (serverRead flatRecv s) (serverRead flatRecv (s ++ t)) t.
Proof.
  intros s t. unfold serverRead. pose proof (flat_ext s 1 t) as H. ext H. destruct l as [|c [|? ?]]; try exact I.
  destruct (c =? 0). { pose proof (string_ext l0 t) as H. ext H. apply onSnd_ext, string_ext. }
  destruct (c =? 1); [apply onSnd_ext, string_ext|].
  destruct (c =? 2). { pose proof (string_ext l0 t) as H. ext H. apply onSnd_ext, word_ext. }
  destruct (c =? 3); [apply onSnd_ext, keys_ext|]. destruct (c =? 4); [apply onSnd_ext, keys_ext|]. destruct (c =? 5); [apply onSnd_ext, string_ext|].
  destruct (c =? 6); [reflexivity|]. destruct (c =? 7); [reflexivity|]. destruct (c =? 8); [reflexivity|exact I].
Qed.
Lemma server_broken : forall q s t, sendable q -> encode q = s ++ t -> t <> [] -> serverRead flatRecv s = None.
Proof.
  intros q s t H E N. pose proof (server_ext s t) as HX. pose proof (server_reads_back q [] H) as HB. rewrite app_nil_r, E in HB. destruct (serverRead flatRecv s) as [[q' r]|]; auto. cbn in HX. rewrite HB in HX. injection HX as _ HX. symmetry in HX. apply app_eq_nil in HX. destruct HX. contradiction.
Qed.
Lemma serverReads_back : forall qs b cs, Forall sendable qs -> pieces cs -> concat cs = flat_map encode qs ++ b ->
  exists cs', serverReads recvBytes (length qs) cs = Some (qs, cs') /\ concat cs' = b /\ pieces cs'.
Proof.
  intros qs b cs H. revert cs. induction H as [|q qs Hq H IH]; intros cs HP HC; [exists cs; auto|]. cbn [length serverReads flat_map] in *. rewrite <- app_assoc in HC.
  pose proof (server_agrees cs HP) as HA. rewrite HC in HA. rewrite server_reads_back in HA by auto. destruct (serverRead recvBytes cs) as [[q' r']|]; [|destruct HA]. destruct HA as (-> & E & HP'). destruct (IH r' HP') as (cs' & E1 & E2 & E3); auto. exists cs'. rewrite E1. auto.
Qed.
