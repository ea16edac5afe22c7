(** C58, C63: collectives. *)
From Coq Require Import List Bool Arith Reals Lia Lra.
From Verif Require Import ShapeModel TensorModel BcastModel CollModel CollSpec CollProofs.
Import ListNotations.

(** * C63: in-place collectives *)
(** After a broadcast every rank's tensor holds what the root's held; no other
    tensor has changed. *)
Theorem broadcast_delivers : forall root ranks bufs n b, passes n ranks bufs -> nth_error bufs root = Some b ->
  exists ms, broadcast root ranks = Ok ms /\ Forall2 (fun ra m' => changed (fst ra) (snd ra) b m') ranks ms.
Proof. exact broadcast_ok. Qed.
Theorem broadcast_bad_root : forall root ranks, length ranks <= root -> broadcast root ranks = Fail.
Proof. intros root ranks H. unfold broadcast. rewrite (proj2 (Nat.ltb_ge _ _) H). auto. Qed.
(** After allReduce every rank holds, per element, the reduction asked for of all ranks' elements. *)
Theorem all_reduce_delivers : forall op ranks bufs n, op <> UNUSED -> ranks <> [] -> passes n ranks bufs ->
  exists b ms, allReduce op ranks = Ok ms /\ length b = n /\ (forall i, i < n -> reduction op (map (fun b => nth i b 0%R) bufs) (nth i b 0%R))
  /\ Forall2 (fun ra m' => changed (fst ra) (snd ra) b m') ranks ms.
Proof. exact allReduce_ok. Qed.
(** After reduce the root does, and the other ranks are as before. *)
Theorem reduce_delivers : forall op root ranks bufs n, op <> UNUSED -> root < length ranks -> passes n ranks bufs ->
  exists b ms, reduce op root ranks = Ok ms /\ length b = n /\ (forall i, i < n -> reduction op (map (fun b => nth i b 0%R) bufs) (nth i b 0%R))
  /\ length ms = length ranks /\ forall r ra m', nth_error ranks r = Some ra -> nth_error ms r = Some m' -> if r =? root then changed (fst ra) (snd ra) b m' else m' = fst ra.
Proof. exact reduce_ok. Qed.
(** After reduceScatter rank [r]'s output holds the reduction of every rank's
    [r]-th input; no other tensor of the rank has changed. *)
Theorem reduce_scatter_delivers : forall op n ranks ins, op <> UNUSED -> ranks <> [] -> scatters (length ranks) n ranks ins ->
  exists ms, reduceScatter op ranks = Ok ms /\ length ms = length ranks
  /\ forall r g m', nth_error ranks r = Some g -> nth_error ms r = Some m' ->
       exists b, length b = n /\ changed_old (gmem g) (gin g) b m' /\ forall i, i < n -> reduction op (map (fun l => nth i (nth r l []) 0%R) ins) (nth i b 0%R).
Proof. exact reduceScatter_ok. Qed.
(** An operation that NCCL does not know is refused. *)
Theorem unused_op_rejected : forall root ranks, allReduce UNUSED ranks = Fail /\ reduce UNUSED root ranks = Fail.
Proof. auto. Qed.

(** * C58: allGather *)
(** The gathered tensor, all ranks' inputs in rank order, is what the returned
    work gives as its output. *)
Theorem all_gather_work_partial : forall n ranks inputs, ranks <> [] -> gathers (length ranks) n ranks inputs ->
  exists ms outs, allGather ranks = Ok (ms, outs) /\ length ms = length ranks /\ length outs = length ranks /\
  forall r m a, nth_error ms r = Some m -> nth_error outs r = Some a ->
    exists b, nth_error m a = Some b /\ length b = length ranks * n /\ forall k i, k < length ranks -> i < n -> nth (k * n + i) b 0%R = nth i (nth k inputs []) 0%R.
Proof.
  intros n ranks inputs N G. rewrite (allGather_ok n ranks inputs N G). eexists _, _. split; [reflexivity|]. rewrite !map_length. split; auto. split; auto.
  intros r m a Hm Ha. rewrite nth_error_map in Hm, Ha. destruct (nth_error ranks r) as [g|]; [|discriminate]. cbn in Hm, Ha. injection Hm as <-. injection Ha as <-. exists (concat inputs).
  assert (Li : forall b, In b inputs -> length b = n) by (intros b I; eapply f2_in_r in I; [|apply G]; destruct I as (a & _ & _ & L & _); auto).
  split; [rewrite nth_error_app2, Nat.sub_diag by lia; auto|]. split; [rewrite (concat_length n) by auto; rewrite (f2_length _ _ _ G); auto|]. intros k i Hk Hi. apply concat_nth; auto. rewrite <- (f2_length _ _ _ G). auto.
Qed.
(** But the caller's output tensors never change, in any world: after the call
    every tensor that the caller had holds what it held before. *)
Theorem all_gather_outputs_refuted : forall n ranks inputs, ranks <> [] -> gathers (length ranks) n ranks inputs ->
  exists ms outs, allGather ranks = Ok (ms, outs) /\
  forall r g m a, nth_error ranks r = Some g -> nth_error ms r = Some m -> In a (gouts g) -> nth_error m a = nth_error (gmem g) a.
Proof.
  intros n ranks inputs N G. rewrite (allGather_ok n ranks inputs N G). eexists _, _. split; [reflexivity|].
  intros r g m a Hg Hm I. rewrite nth_error_map, Hg in Hm. cbn in Hm. injection Hm as <-. destruct (f2_nth _ _ _ G r g Hg) as (b & _ & _ & _ & _ & l & Hl).
  apply nth_error_app1. eapply f2_in_l in I; [|apply Hl]. destruct I as (c & _ & E & _). apply nth_error_Some. congruence.
Qed.
(** With fewer output tensors than ranks the library writes past the end. *)
Theorem all_gather_short_refuted : forall w n ranks inputs, 0 < w < length ranks -> 0 < n -> gathers w n ranks inputs -> allGather ranks = UB.
Proof.
  intros w n ranks inputs Hw Hn G. assert (W : w <> 0) by lia.
  destruct (gather_stack w n ranks inputs W G) as (st & E & F & P). unfold allGather. rewrite E, P.
  assert (Li : forall b, In b inputs -> length b = n) by (intros b I; eapply f2_in_r in I; [|apply G]; destruct I as (a & _ & _ & L & _); auto).
  assert (Ni : inputs <> []) by (intros ->; inversion G; subst; cbn in Hw; lia).
  rewrite (common n inputs Ni Li). cbn [obind].
  assert (Lc : length (concat inputs) = length ranks * n) by (rewrite (concat_length n) by auto; rewrite (f2_length _ _ _ G); auto).
  destruct F as [|g s ranks' st' (old & -> & Lo) F]; [cbn in Hw; lia|]. cbn [map seqopt fst snd].
  unfold rd at 1. rewrite nth_error_app2, Nat.sub_diag by lia. cbn [nth_error obind]. unfold ncclAllGather at 1. rewrite Lc, Lo, (proj2 (Nat.ltb_lt _ _)) by nia. auto.
Qed.

(** Two ranks, three tensors each. *)
Example coll_passes : passes 2 [([[1; 2]; [9; 9]]%R, 0); ([[8; 8]; [3; 4]]%R, 1)] [[1; 2]; [3; 4]]%R.
Proof. repeat constructor. Qed.
Example coll_gathers : gathers 2 1 [mkG [[5]; [0]; [0]]%R [1; 2] 0; mkG [[6]; [0]; [0]]%R [1; 2] 0] [[5]; [6]]%R.
Proof. constructor; [|constructor; [|constructor]]; (split; [reflexivity|]); (split; [reflexivity|]); (split; [reflexivity|]); exists [[0]; [0]]%R; repeat constructor. Qed.
Example coll_gather_differs : exists ms outs m, allGather [mkG [[5]; [0]; [0]]%R [1; 2] 0; mkG [[6]; [0]; [0]]%R [1; 2] 0] = Ok (ms, outs)
  /\ nth_error ms 0 = Some m /\ nth_error m 1 = Some [0%R] /\ nth_error m 3 = Some [5; 6]%R.
Proof. rewrite (allGather_ok 1 _ [[5]; [6]]%R); [|discriminate|apply coll_gathers]. eexists _, _, _. split; [reflexivity|]. split; [reflexivity|]. split; reflexivity. Qed.
Example coll_scatters : scatters 2 1 [mkG [[5]; [6]; [0]]%R [0; 1] 2; mkG [[7]; [8]; [0]]%R [0; 1] 2] [[[5]; [6]]; [[7]; [8]]]%R.
Proof. constructor; [|constructor; [|constructor]]; (split; [repeat constructor|]); (split; [reflexivity|]); exists [0%R]; split; reflexivity. Qed.

Print Assumptions broadcast_delivers.
Print Assumptions broadcast_bad_root.
Print Assumptions all_reduce_delivers.
Print Assumptions reduce_delivers.
Print Assumptions reduce_scatter_delivers.
Print Assumptions unused_op_rejected.
Print Assumptions all_gather_work_partial.
Print Assumptions all_gather_outputs_refuted.
Print Assumptions all_gather_short_refuted.
