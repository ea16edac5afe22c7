(** C29, C30: saving and loading modules. *)
From Coq Require Import ZArith List Bool Arith Lia ZifyBool ZifyNat.
From Verif Require Import SerialModel SerialSpec SerialProofs SerialProofs2.
Import ListNotations.
Open Scope Z_scope.

(** * C29 *)
(** Loading a saved file into a module with the same names, shapes and element
    types succeeds, restores every tensor and changes nothing else.  Names of
    the target that share one tensor must have been saved with equal contents. *)
Theorem load_restores : forall mem ms ms' mem2 strict, good_module mem ms -> fits mem ms -> good_module mem2 ms' ->
  (forall n, In n (map fst ms) <-> In n (map fst ms')) ->
  (forall p id, In p ms -> In (fst p, id) ms' -> same_type (mem (snd p)) (mem2 id)) ->
  (forall p q id, In p ms -> In q ms -> In (fst p, id) ms' -> In (fst q, id) ms' -> mem (snd p) = mem (snd q)) ->
  exists mem', load (save mem ms) ms' mem2 strict = Some (true, mem') /\
    (forall p id, In p ms -> In (fst p, id) ms' -> mem' id = mem (snd p)) /\ (forall id, ~ In id (map snd ms') -> mem' id = mem2 id).
Proof.
  intros mem ms ms' mem2 strict HG HF HG2 HN HT HU. destruct (load_saved mem ms ms' mem2 strict (length (save mem ms)) HG HF HG2) as (ok & mem' & H1 & H2 & H3 & H4).
  { rewrite save_length by auto. lia. }
  rewrite firstn_all in H1. assert (HE : forall p, In p ms -> ends_by mem ms p (length (save mem ms))).
  { intros p HI. rewrite save_length by auto. apply in_split in HI. destruct HI as (pre & post & E). exists pre, post. split; auto. subst ms. rewrite map_app, list_sum_app.
    change (list_sum (map (size mem) (p :: post))) with (length (tdata (mem (snd p))) + list_sum (map (size mem) post))%nat. change (map (fun q : name * nat => length (tdata (mem (snd q)))) pre) with (map (size mem) pre). lia. }
  assert (HO : ok = true) by (apply H2; split; [intros p id HI HI'; split; auto|auto]). subst ok. exists mem'. split; [exact H1|]. split.
  - intros p id HI HI'. apply H3; auto. intros q Hq Hq'. apply (HU q p id); auto.
  - intros id HI. apply H4. intros p HI1 HI2 _ _. apply HI. apply (in_map snd) in HI2. auto.
Qed.
(** In particular, reloading a module after any change of its contents. *)
Theorem reload_restores : forall mem ms mem2 strict, good_module mem ms -> fits mem ms -> good_module mem2 ms ->
  (forall id, In id (map snd ms) -> same_type (mem id) (mem2 id)) ->
  exists mem', load (save mem ms) ms mem2 strict = Some (true, mem') /\ forall id, mem' id = if in_dec Nat.eq_dec id (map snd ms) then mem id else mem2 id.
Proof.
  intros mem ms mem2 strict HG HF HG2 HT. pose proof HG as [HN _].
  assert (HF1 : forall p id, In p ms -> In (fst p, id) ms -> id = snd p).
  { intros [n i] id HI HI'. cbn [fst snd] in *. apply (lookup_in _ _ _ HN) in HI. apply (lookup_in _ _ _ HN) in HI'. congruence. }
  destruct (load_restores mem ms ms mem2 strict HG HF HG2) as (mem' & H1 & H2 & H3).
  - tauto.
  - intros p id HI HI'. rewrite (HF1 p id HI HI'). apply HT. apply in_map. auto.
  - intros p q id HI HJ HI' HJ'. rewrite <- (HF1 p id HI HI'), <- (HF1 q id HJ HJ'). reflexivity.
  - exists mem'. split; [exact H1|]. intros id. destruct (in_dec Nat.eq_dec id (map snd ms)) as [HI|HI]; [|auto]. apply in_map_iff in HI. destruct HI as ([n i] & <- & HI). apply (H2 (n, i)); auto.
Qed.

(** * C30 *)
(** A saved file, whole or cut anywhere behind the headers, loaded into any
    module: never outside the file; accepted exactly if every saved tensor the
    module has is whole and of the module's type and, in strict mode, the names
    agree.  Tensors that fit get their contents, all others are unchanged. *)
Theorem load_saved_partial : forall mem ms ms' mem2 strict k, good_module mem ms -> fits mem ms -> good_module mem2 ms' -> (header_bytes mem ms <= k)%nat ->
  exists ok mem', load (firstn k (save mem ms)) ms' mem2 strict = Some (ok, mem') /\
    (ok = true <-> (forall p id, In p ms -> In (fst p, id) ms' -> same_type (mem (snd p)) (mem2 id) /\ ends_by mem ms p k) /\
                   (strict = true -> forall n, In n (map fst ms) <-> In n (map fst ms'))) /\
    (forall p id, In p ms -> In (fst p, id) ms' -> same_type (mem (snd p)) (mem2 id) -> ends_by mem ms p k ->
       (forall q, In q ms -> In (fst q, id) ms' -> mem (snd q) = mem (snd p)) -> mem' id = mem (snd p)) /\
    (forall id, (forall p, In p ms -> In (fst p, id) ms' -> same_type (mem (snd p)) (mem2 id) -> ends_by mem ms p k -> False) -> mem' id = mem2 id).
Proof. exact load_saved. Qed.
(** A file that lost bytes of its data is rejected in strict mode. *)
Theorem load_truncated_partial : forall mem ms ms' mem2 k, good_module mem ms -> fits mem ms -> good_module mem2 ms' ->
  (header_bytes mem ms <= k < length (save mem ms))%nat -> exists mem', load (firstn k (save mem ms)) ms' mem2 true = Some (false, mem').
Proof.
  intros mem ms ms' mem2 k HG HF HG2 Hk. destruct (load_saved mem ms ms' mem2 true k HG HF HG2 ltac:(lia)) as (ok & mem' & H1 & H2 & _). exists mem'. rewrite H1. destruct ok; auto. exfalso. destruct (proj1 H2 eq_refl) as [H3 H4]. specialize (H4 eq_refl).
  destruct (exists_last (l := ms)) as (pre & p & E). { intros ->. rewrite save_length in Hk by auto. cbn in Hk. lia. }
  assert (HI : In p ms) by (rewrite E; apply in_or_app; right; left; reflexivity). assert (HI' : In (fst p) (map fst ms')) by (apply H4; apply in_map; auto).
  apply in_map_iff in HI'. destruct HI' as ([n i] & E1 & HI'). cbn [fst] in E1. subst n. destruct (H3 p i HI HI') as [_ (pre' & post' & E2 & HE)].
  assert (pre' = pre) by (destruct HG as [HN _]; eapply NoDup_split_eq; eauto). subst pre'. rewrite save_length in Hk by auto.
  assert (post' = []). { rewrite E in E2. apply app_inv_head in E2. injection E2 as E2. auto. } subst post'.
  assert (ES : list_sum (map (size mem) ms) = (list_sum (map (size mem) pre) + size mem p)%nat) by (rewrite E, map_app, list_sum_app; cbn; lia).
  change (map (fun q : name * nat => length (tdata (mem (snd q)))) pre) with (map (size mem) pre) in HE. change (size mem p) with (length (tdata (mem (snd p)))) in ES. lia.
Qed.
(** Wrong magic number, wrong version, empty file: rejected, nothing changes. *)
Theorem load_wrong_magic : forall (f : list byte) ms mem strict, Forall is_byte f -> (8 <= length f)%nat -> firstn 8 f <> le64 MAGIC -> load f ms mem strict = Some (false, mem).
Proof. exact load_magic. Qed.
Theorem load_wrong_version : forall (f : list byte) ms mem strict, Forall is_byte f -> (16 <= length f)%nat -> firstn 8 (skipn 8 f) <> le64 VERSION -> load f ms mem strict = Some (false, mem).
Proof. exact load_version. Qed.
Theorem load_empty_file : forall ms mem strict, load [] ms mem strict = Some (false, mem).
Proof. reflexivity. Qed.
(** Any file at all: if nothing outside it is read, then shapes, element types
    and numbers of bytes are kept, tensors not in the module are unchanged, and
    every changed tensor holds a piece of the file. *)
Theorem load_any_file_partial : forall f ms mem strict ok mem', load f ms mem strict = Some (ok, mem') -> (forall id, good_tensor (mem id)) ->
  (forall id, same_type (mem id) (mem' id) /\ length (tdata (mem' id)) = length (tdata (mem id))) /\
  (forall id, ~ In id (map snd ms) -> mem' id = mem id) /\
  (forall id, mem' id = mem id \/ exists a c, f = a ++ tdata (mem' id) ++ c).
Proof.
  intros f ms mem strict ok mem' H HG. destruct (load_sound _ _ _ _ _ _ H) as [(S1 & S2 & S3) _]. split; [|split; auto].
  intros id. destruct (S1 id) as [T1 T2]. split; auto. rewrite <- (nbytes_type _ _ T1) in T2. rewrite (good_nbytes _ (HG id)) in T2. specialize (T2 eq_refl). lia.
Qed.
(** Success in strict mode: every tensor of the module holds a piece of the file. *)
Theorem load_strict_complete : forall f ms mem mem', load f ms mem true = Some (true, mem') -> (forall id, good_tensor (mem id)) -> NoDup (map fst ms) ->
  forall n id, In (n, id) ms -> exists a c, f = a ++ tdata (mem' id) ++ c.
Proof.
  intros f ms mem mem' H HG HN n id HI. destruct (load_sound _ _ _ _ _ _ H) as [_ S]. apply (S eq_refl eq_refl) with (n := n).
  - intros j. rewrite good_nbytes; auto.
  - apply lookup_in; auto.
Qed.

(** ** What is not so *)
(** Every saved file cut inside its headers makes the loader read outside it. *)
Theorem load_cut_headers_refuted : forall mem ms ms' mem2 strict k, good_module mem ms -> fits mem ms -> (0 < k < header_bytes mem ms)%nat -> load (firstn k (save mem ms)) ms' mem2 strict = None.
Proof. exact load_cut. Qed.
Definition tn (b : Z) : tensor := mkT [2] 5 [b; b + 1].
Definition ex_ms : states := [([119], 0%nat); ([98; 0], 1%nat)].
Definition ex_mem : memory := fun i => match i with 0%nat => mkT [2] 5 [7; 8] | 1%nat => mkT [] 0 [1; 2; 3; 4] | _ => tn 0 end.
Definition ex_mem2 : memory := fun i => match i with 0%nat => mkT [2] 5 [0; 0] | 1%nat => mkT [] 0 [0; 0; 0; 0] | _ => tn 0 end.
(** An offset near 2^64 passes the bounds check and reads outside the file. *)
Definition file1 (dt ofs sz : Z) (d : list byte) : list byte :=
  le64 MAGIC ++ le64 VERSION ++ le64 1 ++ (le64 1 ++ le64 1 ++ le64 dt ++ le64 ofs ++ le64 sz) ++ [119] ++ le64 2 ++ d.
Theorem load_offset_wraps_refuted : load (file1 5 (2 ^ 64 - 2) 2 []) [([119], 0%nat)] ex_mem2 true = None.
Proof. vm_compute. reflexivity. Qed.
(** Element type 261 in the file is taken for 5. *)
Theorem load_dtype_truncated_refuted : exists mem', load (file1 261 73 2 [7; 8]) [([119], 0%nat)] ex_mem2 true = Some (true, mem') /\ tdata (mem' 0%nat) = [7; 8].
Proof. eexists. split; [vm_compute; reflexivity|reflexivity]. Qed.
(** A rejected load can have replaced a tensor. *)
Theorem load_not_atomic_refuted : exists mem', load (save ex_mem ex_ms) [([119], 0%nat); ([120], 1%nat)] ex_mem2 true = Some (false, mem') /\ mem' 0%nat = ex_mem 0%nat /\ mem' 0%nat <> ex_mem2 0%nat.
Proof.
  assert (HE : option_map (fun r => (fst r, snd r 0%nat)) (load (save ex_mem ex_ms) [([119], 0%nat); ([120], 1%nat)] ex_mem2 true) = Some (false, ex_mem 0%nat)) by (vm_compute; reflexivity).
  destruct (load (save ex_mem ex_ms) [([119], 0%nat); ([120], 1%nat)] ex_mem2 true) as [[ok mem']|]; [|discriminate]. cbn [option_map fst snd] in HE. injection HE as -> HE. exists mem'. split; [reflexivity|]. split; [exact HE|]. rewrite HE. discriminate.
Qed.

(** ** Cases that meet the hypotheses *)
Lemma ex_good : good_module ex_mem ex_ms /\ good_module ex_mem2 ex_ms /\ fits ex_mem ex_ms.
Proof.
  unfold good_module, fits, good_tensor, is_byte, ex_ms. cbn. repeat split; repeat constructor; cbn; try lia; try (intros [H|[]]; discriminate); try tauto.
Qed.
Example ex_reload : exists mem', load (save ex_mem ex_ms) ex_ms ex_mem2 true = Some (true, mem') /\ forall id, mem' id = if in_dec Nat.eq_dec id (map snd ex_ms) then ex_mem id else ex_mem2 id.
Proof. destruct ex_good as (H1 & H2 & H3). apply reload_restores; auto. intros id HI. cbn in HI. destruct HI as [<-|[<-|[]]]; split; reflexivity. Qed.
Example ex_bytes : length (save ex_mem ex_ms) = 121%nat /\ header_bytes ex_mem ex_ms = 115%nat. Proof. vm_compute. auto. Qed.
Example ex_truncated : exists mem', load (firstn 117 (save ex_mem ex_ms)) ex_ms ex_mem2 true = Some (false, mem').
Proof. destruct ex_good as (H1 & H2 & H3). apply load_truncated_partial; auto. vm_compute. lia. Qed.
Example ex_cut : load (firstn 100 (save ex_mem ex_ms)) ex_ms ex_mem2 false = None.
Proof. destruct ex_good as (H1 & H2 & H3). apply load_cut_headers_refuted; auto. vm_compute. lia. Qed.
Example ex_magic : load (firstn 8 (le64 (MAGIC + 1)) ++ [0]) ex_ms ex_mem2 false = Some (false, ex_mem2).
Proof. apply load_wrong_magic; [|vm_compute; lia|vm_compute; discriminate]. cbn. repeat constructor; unfold is_byte; vm_compute; try lia; auto; discriminate. Qed.
Example ex_strict : forall mem', load (file1 5 73 2 [7; 8]) [([119], 0%nat)] ex_mem2 true = Some (true, mem') -> exists a c, file1 5 73 2 [7; 8] = a ++ tdata (mem' 0%nat) ++ c.
Proof.
  intros mem' H. apply (load_strict_complete _ _ _ _ H) with (n := [119]); [|repeat constructor; cbn; tauto|left; reflexivity].
  intros [|[|id]]; unfold good_tensor, is_byte; cbn; repeat split; repeat constructor; lia.
Qed.

Print Assumptions load_restores.
Print Assumptions reload_restores.
Print Assumptions load_saved_partial.
Print Assumptions load_truncated_partial.
Print Assumptions load_wrong_magic.
Print Assumptions load_wrong_version.
Print Assumptions load_empty_file.
Print Assumptions load_any_file_partial.
Print Assumptions load_strict_complete.
Print Assumptions load_cut_headers_refuted.
Print Assumptions load_offset_wraps_refuted.
Print Assumptions load_dtype_truncated_refuted.
Print Assumptions load_not_atomic_refuted.
