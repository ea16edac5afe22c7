From Coq Require Import ZArith List Bool Arith Lia ZifyBool ZifyNat.
From Verif Require Import SerialModel SerialSpec.
Import ListNotations.
Open Scope Z_scope.

(** * Words *)
Lemma from_le_digits : forall n y, 0 <= y -> from_le (map (fun k => (y / 256 ^ Z.of_nat k) mod 256) (seq 0 n)) = y mod 256 ^ Z.of_nat n.
Proof.
  induction n as [|n IH]; intros y Hy; [cbn; rewrite Z.mod_1_r; reflexivity|]. cbn [seq map from_le fold_right]. change (256 ^ Z.of_nat 0) with 1. rewrite Z.div_1_r.
  rewrite <- seq_shift, map_map. rewrite (map_ext _ (fun k => (y / 256 / 256 ^ Z.of_nat k) mod 256)).
  2: { intros k. rewrite Z.div_div by (try apply Z.pow_pos_nonneg; lia). f_equal. f_equal. rewrite Nat2Z.inj_succ, Z.pow_succ_r by lia. reflexivity. }
  fold (from_le (map (fun k => (y / 256 / 256 ^ Z.of_nat k) mod 256) (seq 0 n))). rewrite IH by (apply Z.div_pos; lia). rewrite Nat2Z.inj_succ, Z.pow_succ_r by lia.
  rewrite Z.rem_mul_r by (try apply Z.pow_pos_nonneg; lia). reflexivity.
Qed.
Lemma u64_range : forall x, 0 <= u64 x < 2 ^ 64. Proof. intros. apply Z.mod_pos_bound. lia. Qed.
Lemma u64_small : forall x, 0 <= x < 2 ^ 64 -> u64 x = x. Proof. intros. apply Z.mod_small. lia. Qed.
Lemma from_le64 : forall x, from_le (le64 x) = u64 x.
Proof. intros x. unfold le64. rewrite from_le_digits by apply u64_range. change (256 ^ Z.of_nat 8) with (2 ^ 64). apply Z.mod_small. apply u64_range. Qed.
Lemma le64_length : forall x, length (le64 x) = 8%nat. Proof. reflexivity. Qed.
Lemma words_ok : forall sh, Forall (fun d => 0 <= d < 2 ^ 63) sh -> words (length sh) (flat_map le64 sh) = sh.
Proof.
  induction sh as [|d sh IH]; intros HF; [reflexivity|]. inversion HF; subst. cbn [length flat_map words].
  assert (E1 : firstn 8 (le64 d ++ flat_map le64 sh) = le64 d) by reflexivity. assert (E2 : skipn 8 (le64 d ++ flat_map le64 sh) = flat_map le64 sh) by reflexivity.
  rewrite E1, E2, from_le64, IH by auto. f_equal. unfold s64. cbv zeta. rewrite u64_small by (rewrite u64_small; lia). rewrite u64_small by lia. destruct (Z.ltb_spec d (2 ^ 63)); [reflexivity|lia].
Qed.
Lemma flat_le64_length : forall sh, length (flat_map le64 sh) = (8 * length sh)%nat.
Proof. induction sh as [|d sh IH]; [reflexivity|]. cbn [flat_map length]. rewrite app_length, IH, le64_length. lia. Qed.

(** * Reading a known part of a file *)
Lemma firstn_mid : forall A (a b c : list A) k, (length a + length b <= k)%nat -> firstn (length b) (skipn (length a) (firstn k (a ++ b ++ c))) = b.
Proof.
  intros A a b c k Hk. rewrite skipn_firstn_comm. rewrite firstn_firstn. rewrite Nat.min_l by lia. rewrite skipn_app, skipn_all, Nat.sub_diag. cbn. rewrite firstn_app, firstn_all, Nat.sub_diag. cbn. apply app_nil_r.
Qed.
Lemma rd_mid : forall a b c k off, off = Z.of_nat (length a) -> (length a + length b <= k)%nat -> rdBytes (firstn k (a ++ b ++ c)) off (Z.of_nat (length b)) = Some b.
Proof.
  intros a b c k off -> Hk. unfold rdBytes. rewrite firstn_length, !app_length. replace ((0 <=? Z.of_nat (length a)) && (0 <=? Z.of_nat (length b)) && (Z.of_nat (length a) + Z.of_nat (length b) <=? Z.of_nat (Nat.min k (length a + (length b + length c))))) with true by lia.
  rewrite !Nat2Z.id. rewrite firstn_mid by auto. reflexivity.
Qed.
Lemma rdU64_mid : forall a x c k off, off = Z.of_nat (length a) -> (length a + 8 <= k)%nat -> rdU64 (firstn k (a ++ le64 x ++ c)) off = Some (u64 x).
Proof. intros a x c k off E Hk. unfold rdU64. change 8 with (Z.of_nat (length (le64 x))). rewrite rd_mid by auto. rewrite from_le64. reflexivity. Qed.
Definition entryBytes (n : name) (t : tensor) (dofs : Z) : list byte :=
  (le64 (Z.of_nat (length n)) ++ le64 (Z.of_nat (length (tshape t))) ++ le64 (tdtype t) ++ le64 dofs ++ le64 (nbytes t)) ++ n ++ flat_map le64 (tshape t).
Lemma entry_length : forall n t dofs, length (entryBytes n t dofs) = (40 + length n + 8 * length (tshape t))%nat.
Proof. intros. unfold entryBytes. rewrite !app_length, !le64_length, flat_le64_length. lia. Qed.
Lemma readEntry_mid : forall a n t dofs c k, good_tensor t -> 0 <= dofs < 2 ^ 64 -> Z.of_nat k < 2 ^ 63 -> (length a + length (entryBytes n t dofs) <= k)%nat ->
  readEntry (firstn k (a ++ entryBytes n t dofs ++ c)) (Z.of_nat (length a))
  = Some (mkE n (tshape t) (tdtype t) dofs (nbytes t), Z.of_nat (length (a ++ entryBytes n t dofs))).
Proof.
  intros a n t dofs c k (HD & HS & _) Hdo Hk HL. rewrite entry_length in HL. unfold readEntry.
  assert (HN : u64 (Z.of_nat (length n)) = Z.of_nat (length n)) by (apply u64_small; lia). assert (HSh : u64 (Z.of_nat (length (tshape t))) = Z.of_nat (length (tshape t))) by (apply u64_small; lia).
  set (w1 := Z.of_nat (length n)) in *. set (w2 := Z.of_nat (length (tshape t))) in *.
  assert (EF : forall p q, entryBytes n t dofs ++ c = p ++ q -> a ++ entryBytes n t dofs ++ c = (a ++ p) ++ q) by (intros p q E; rewrite E, app_assoc; reflexivity).
  assert (E0 : entryBytes n t dofs ++ c = [] ++ le64 w1 ++ (le64 w2 ++ le64 (tdtype t) ++ le64 dofs ++ le64 (nbytes t) ++ n ++ flat_map le64 (tshape t) ++ c)) by (unfold entryBytes; rewrite !app_assoc; reflexivity).
  assert (E1 : entryBytes n t dofs ++ c = le64 w1 ++ le64 w2 ++ (le64 (tdtype t) ++ le64 dofs ++ le64 (nbytes t) ++ n ++ flat_map le64 (tshape t) ++ c)) by (unfold entryBytes; rewrite !app_assoc; reflexivity).
  assert (E2 : entryBytes n t dofs ++ c = (le64 w1 ++ le64 w2) ++ le64 (tdtype t) ++ (le64 dofs ++ le64 (nbytes t) ++ n ++ flat_map le64 (tshape t) ++ c)) by (unfold entryBytes; rewrite !app_assoc; reflexivity).
  assert (E3 : entryBytes n t dofs ++ c = (le64 w1 ++ le64 w2 ++ le64 (tdtype t)) ++ le64 dofs ++ (le64 (nbytes t) ++ n ++ flat_map le64 (tshape t) ++ c)) by (unfold entryBytes; rewrite !app_assoc; reflexivity).
  assert (E4 : entryBytes n t dofs ++ c = (le64 w1 ++ le64 w2 ++ le64 (tdtype t) ++ le64 dofs) ++ le64 (nbytes t) ++ (n ++ flat_map le64 (tshape t) ++ c)) by (unfold entryBytes; rewrite !app_assoc; reflexivity).
  assert (E5 : entryBytes n t dofs ++ c = (le64 w1 ++ le64 w2 ++ le64 (tdtype t) ++ le64 dofs ++ le64 (nbytes t)) ++ n ++ (flat_map le64 (tshape t) ++ c)) by (unfold entryBytes; rewrite !app_assoc; reflexivity).
  assert (E6 : entryBytes n t dofs ++ c = (le64 w1 ++ le64 w2 ++ le64 (tdtype t) ++ le64 dofs ++ le64 (nbytes t) ++ n) ++ flat_map le64 (tshape t) ++ c) by (unfold entryBytes; rewrite !app_assoc; reflexivity).
  assert (R0 : rdU64 (firstn k (a ++ entryBytes n t dofs ++ c)) (Z.of_nat (length a)) = Some w1).
  { rewrite (EF _ _ E0). rewrite rdU64_mid; [rewrite HN; reflexivity|rewrite app_nil_r; reflexivity|rewrite app_nil_r; lia]. }
  assert (R1 : rdU64 (firstn k (a ++ entryBytes n t dofs ++ c)) (Z.of_nat (length a) + 8) = Some w2).
  { rewrite (EF _ _ E1). rewrite rdU64_mid; [rewrite HSh; reflexivity| |]; rewrite app_length, le64_length; lia. }
  assert (R2 : rdU64 (firstn k (a ++ entryBytes n t dofs ++ c)) (Z.of_nat (length a) + 16) = Some (tdtype t)).
  { rewrite (EF _ _ E2). rewrite rdU64_mid; [rewrite u64_small by lia; reflexivity| |]; rewrite !app_length, !le64_length; lia. }
  assert (R3 : rdU64 (firstn k (a ++ entryBytes n t dofs ++ c)) (Z.of_nat (length a) + 24) = Some dofs).
  { rewrite (EF _ _ E3). rewrite rdU64_mid; [rewrite u64_small by lia; reflexivity| |]; rewrite !app_length, !le64_length; lia. }
  assert (R4 : rdU64 (firstn k (a ++ entryBytes n t dofs ++ c)) (Z.of_nat (length a) + 32) = Some (nbytes t)).
  { rewrite (EF _ _ E4). rewrite rdU64_mid; [rewrite u64_small by apply u64_range; reflexivity| |]; rewrite !app_length, !le64_length; lia. }
  assert (R5 : rdBytes (firstn k (a ++ entryBytes n t dofs ++ c)) (Z.of_nat (length a) + 40) w1 = Some n).
  { rewrite (EF _ _ E5). unfold w1 at 2. apply rd_mid; rewrite !app_length, !le64_length; lia. }
  assert (R6 : rdBytes (firstn k (a ++ entryBytes n t dofs ++ c)) (Z.of_nat (length a) + 40 + w1) (8 * w2) = Some (flat_map le64 (tshape t))).
  { rewrite (EF _ _ E6). replace (8 * w2) with (Z.of_nat (length (flat_map le64 (tshape t)))) by (rewrite flat_le64_length; lia). apply rd_mid; rewrite !app_length, !le64_length, ?flat_le64_length; lia. }
  rewrite R0, R1, R2, R3, R4, R5, R6. unfold w2 at 1. rewrite Nat2Z.id, words_ok by auto. do 2 f_equal. rewrite app_length, entry_length. lia.
Qed.

(** * The loop over a saved file *)
Definition size (mem : memory) (p : name * nat) : nat := length (tdata (mem (snd p))).
Definition dataOf (mem : memory) (ms : states) : list byte := flat_map (fun p => tdata (mem (snd p))) ms.
Lemma good_nbytes : forall t, good_tensor t -> nbytes t = Z.of_nat (length (tdata t)).
Proof. intros t (_ & _ & HL & HB & _). unfold nbytes. rewrite <- HL. apply u64_small. lia. Qed.
Lemma dataOf_length : forall mem ms, length (dataOf mem ms) = list_sum (map (size mem) ms).
Proof. intros mem ms. induction ms as [|p ms IH]; [reflexivity|]. cbn. rewrite app_length. unfold dataOf in IH. rewrite IH. reflexivity. Qed.
Lemma name_eqb_eq : forall a b, name_eqb a b = true <-> a = b.
Proof. intros a b. unfold name_eqb. destruct (list_eq_dec Z.eq_dec a b); split; auto; discriminate. Qed.
Lemma shape_eqb_eq : forall a b, shape_eqb a b = true <-> a = b. Proof. exact name_eqb_eq. Qed.
Lemma setData_same : forall mem id d, setData mem id d id = mkT (tshape (mem id)) (tdtype (mem id)) d. Proof. intros. unfold setData. rewrite Nat.eqb_refl. reflexivity. Qed.
Lemma setData_other : forall mem id d j, j <> id -> setData mem id d j = mem j. Proof. intros. unfold setData. destruct (Nat.eqb_spec j id); auto. contradiction. Qed.
Lemma setData_type : forall mem id d j, same_type (mem j) (setData mem id d j).
Proof. intros. unfold setData. destruct (Nat.eqb_spec j id); subst; split; reflexivity. Qed.

Section Load.
Variables (ms' : states) (strict : bool) (k : nat).
Definition typeb (t t' : tensor) : bool := shape_eqb (tshape t) (tshape t') && (tdtype t =? tdtype t').
Lemma typeb_ok : forall t t', typeb t t' = true <-> same_type t t'.
Proof. intros. unfold typeb, same_type. rewrite andb_true_iff, shape_eqb_eq, Z.eqb_eq. reflexivity. Qed.
(** What each saved tensor does; its data starts at [dofs]. *)
Definition stepSpec (mem : memory) (p : name * nat) (dofs : nat) (st : bool * memory) : bool * memory :=
  match lookup ms' (fst p) with
  | None => (if strict then false else fst st, snd st)
  | Some id => if typeb (mem (snd p)) (snd st id) && (dofs + size mem p <=? k)%nat
               then (fst st, if (size mem p =? 0)%nat then snd st else setData (snd st) id (tdata (mem (snd p)))) else (false, snd st)
  end.
Fixpoint foldSpec (mem : memory) (ms : states) (dofs : nat) (st : bool * memory) : bool * memory :=
  match ms with [] => st | p :: r => foldSpec mem r (dofs + size mem p) (stepSpec mem p dofs st) end.
Lemma apply_saved : forall mem p st full pre post dofs, good_tensor (mem (snd p)) ->
  full = pre ++ tdata (mem (snd p)) ++ post -> dofs = length pre -> Z.of_nat (length full) < 2 ^ 63 -> (k <= length full)%nat ->
  applyEntry (firstn k full) ms' strict (mkE (fst p) (tshape (mem (snd p))) (tdtype (mem (snd p))) (Z.of_nat dofs) (nbytes (mem (snd p)))) st = Some (stepSpec mem p dofs st).
Proof.
  intros mem [n i] [ok m] full pre post dofs HG HF HO HB Hk. unfold applyEntry, stepSpec. cbn [eName eShape eDtype eOffset eSize fst snd] in *. destruct (lookup ms' n) as [id|]; [|reflexivity].
  unfold typeb. destruct (shape_eqb (tshape (mem i)) (tshape (m id))) eqn:ES; cbn [negb andb]; [|reflexivity]. pose proof HG as (HD & _). rewrite Z.mod_small by lia.
  destruct (Z.eqb_spec (tdtype (mem i)) (tdtype (m id))) as [ET|ET]; cbn [negb andb]; [|reflexivity]. apply shape_eqb_eq in ES.
  assert (EN : nbytes (m id) = nbytes (mem i)) by (unfold nbytes; rewrite ES, ET; reflexivity). rewrite EN, Z.eqb_refl. cbn [negb]. rewrite good_nbytes by auto.
  assert (HL : (dofs + length (tdata (mem i)) <= length full)%nat) by (subst full dofs; rewrite !app_length; lia).
  rewrite u64_small by lia. rewrite firstn_length, Nat.min_l by lia. unfold size. cbn [snd].
  destruct (Nat.leb_spec (dofs + length (tdata (mem i))) k) as [HK|HK].
  - destruct (Z.ltb_spec (Z.of_nat k) (Z.of_nat dofs + Z.of_nat (length (tdata (mem i))))); [lia|]. destruct (Nat.eqb_spec (length (tdata (mem i))) 0) as [E0|E0].
    + rewrite E0. reflexivity.
    + rewrite (proj2 (Z.eqb_neq _ 0)) by lia. rewrite HF. rewrite rd_mid by lia. reflexivity.
  - destruct (Z.ltb_spec (Z.of_nat k) (Z.of_nat dofs + Z.of_nat (length (tdata (mem i))))); [reflexivity|lia].
Qed.
Lemma loop_saved : forall mem rest full pre tail pre2 tail2 dofs keys st fuel, Forall (fun p => good_tensor (mem (snd p))) rest ->
  full = pre ++ headers mem rest (Z.of_nat dofs) ++ tail -> full = pre2 ++ dataOf mem rest ++ tail2 -> dofs = length pre2 ->
  Z.of_nat (length full) < 2 ^ 63 -> (k <= length full)%nat -> (length pre + length (headers mem rest (Z.of_nat dofs)) <= k)%nat -> (length rest <= fuel)%nat ->
  loadLoop fuel (firstn k full) ms' strict (Z.of_nat (length rest)) (Z.of_nat (length pre)) keys st = Some (rev (map fst rest) ++ keys, foldSpec mem rest dofs st).
Proof.
  intros mem rest. induction rest as [|[n i] rest IH]; intros full pre tail pre2 tail2 dofs keys st fuel HG HF HF2 HD HB Hk HH HFu.
  - destruct fuel; reflexivity.
  - inversion HG as [|? ? HG1 HG2]; subst x l. cbn [snd] in HG1. destruct fuel as [|fuel]; [cbn in HFu; lia|].
    assert (EH : headers mem ((n, i) :: rest) (Z.of_nat dofs) = entryBytes n (mem i) (Z.of_nat dofs) ++ headers mem rest (Z.of_nat (dofs + size mem (n, i)))).
    { cbn [headers]. unfold entryBytes. rewrite <- !app_assoc. repeat f_equal. rewrite good_nbytes by auto. unfold size. cbn [snd]. rewrite u64_small; [lia|].
      assert (length full = length pre2 + (length (tdata (mem i)) + length (dataOf mem rest)) + length tail2)%nat by (rewrite HF2; unfold dataOf; cbn [flat_map snd]; rewrite !app_length; lia). lia. }
    rewrite EH in HF, HH. rewrite app_length in HH. cbn [loadLoop]. rewrite (proj2 (Z.leb_gt _ 0)) by (cbn [length]; lia).
    assert (HL2 : (dofs + length (tdata (mem i)) <= length full)%nat) by (rewrite HF2; unfold dataOf; cbn [flat_map snd]; rewrite !app_length; lia).
    assert (ER : readEntry (firstn k full) (Z.of_nat (length pre)) = Some (mkE n (tshape (mem i)) (tdtype (mem i)) (Z.of_nat dofs) (nbytes (mem i)), Z.of_nat (length (pre ++ entryBytes n (mem i) (Z.of_nat dofs))))).
    { rewrite HF. rewrite <- app_assoc. apply readEntry_mid; auto; lia. }
    assert (EA : applyEntry (firstn k full) ms' strict (mkE n (tshape (mem i)) (tdtype (mem i)) (Z.of_nat dofs) (nbytes (mem i))) st = Some (stepSpec mem (n, i) dofs st)).
    { apply (apply_saved mem (n, i) st full pre2 (dataOf mem rest ++ tail2) dofs); auto. rewrite HF2. unfold dataOf. cbn [flat_map snd]. rewrite <- app_assoc. reflexivity. }
    rewrite ER, EA.
    cbn [eName]. replace (Z.of_nat (length ((n, i) :: rest)) - 1) with (Z.of_nat (length rest)) by (cbn [length]; lia).
    rewrite (IH full (pre ++ entryBytes n (mem i) (Z.of_nat dofs)) tail (pre2 ++ tdata (mem i)) tail2 (dofs + size mem (n, i))%nat); auto.
    + cbn [map fst rev foldSpec]. rewrite <- app_assoc. reflexivity.
    + rewrite HF. rewrite <- !app_assoc. reflexivity.
    + rewrite HF2. unfold dataOf. cbn [flat_map snd]. rewrite <- !app_assoc. reflexivity.
    + rewrite app_length. unfold size. cbn [snd]. lia.
    + rewrite app_length. lia.
    + cbn in HFu. lia.
Qed.
End Load.
