(** C103: printing tensors, and the log of several threads. *)
From Coq Require Import ZArith Reals List Bool Arith String Ascii Lia.
From Flocq Require Import IEEE754.Binary IEEE754.Bits.
From Verif Require Import DispatchModel StoreModel StoreSpec StoreProofs CastModel PrintModel PrintSpec PrintSpec2 PrintSpec3 PrintProofs PrintProofs2 PrintProofs3 PrintProofs4.
Import ListNotations.
Open Scope Z_scope.

(** The text of every tensor is laid out the same way: shape, device, type, flags, and the elements
    in their order, whole numbers in decimal and others to six decimals. *)
Theorem C103_layout t tag full : wellTyped t -> exists dims items i,
  print (Some t) tag full = Some (Debug, tagShown tag ++ layout (joined dims) (deviceName (cuda t)) i (typeName (dty t)) (yesNo (requiresGrad t)) (yesNo (pinned t)) (joined items))
  /\ Forall2 (fun z s => is_decimal s z) (shape t) dims /\ is_decimal i (index t) /\ shownAs (dty t) full (data t) items.
Proof. exact (print_layout t tag full). Qed.

(** Two tensors that print the same lines, both short enough for the log, have the same
    shape, device, type and flags, and the same texts of elements; the same elements for whole
    numbers, and elements at most a millionth apart for floating-point numbers.  Missing:
    longer texts, and the exact floating-point elements. *)
Theorem C103_tells_partial t t' tag full c c' : wellTyped t -> wellTyped t' -> match tag with Some g => cString g | None => True end ->
  print (Some t) tag full = Some c -> print (Some t') tag full = Some c' -> (List.length (snd c) <= 1022)%nat -> (List.length (snd c') <= 1022)%nat -> line c = line c' ->
  shape t = shape t' /\ cuda t = cuda t' /\ index t = index t' /\ dty t = dty t' /\ requiresGrad t = requiresGrad t' /\ pinned t = pinned t'
  /\ (exists items, shownAs (dty t) full (data t) items /\ shownAs (dty t) full (data t') items) /\ (isInt (dty t) = true -> seenElements full (data t) = seenElements full (data t'))
  /\ (isInt (dty t) = false -> Forall2 (fun a b => alike (toFloat (dty t) a) (toFloat (dty t) b)) (seenElements full (data t)) (seenElements full (data t'))).
Proof.
  intros W W' G E E' L L' X. destruct (tells t t' tag full c c' W W' G E E' L L' X) as (H1 & H2 & H3 & H4 & H5 & H6 & (items & S1 & S2) & H7). repeat (split; [assumption|]). split; [exists items; split; assumption|]. split; [exact H7|]. intros N. exact (shown_alike _ _ _ _ _ N S1 S2).
Qed.

(** However the calls of several threads interleave, stdout and stderr are whole
    lines, one for each call; each thread's in the order of its calls, and all of them once it is
    done. *)
Theorem C103_threads calls sched : let s := run (start calls) sched in exists h, out s = stdoutOf h /\ err s = stderrOf h /\
  forall i, exists r, calls i = callsOf i h ++ r /\ (threads s i = (Outside, []) -> r = []).
Proof. exact (log_threads calls sched). Qed.

(** While a thread has calls to finish, some thread can move. *)
Theorem C103_no_deadlock calls sched i : let s := run (start calls) sched in threads s i <> (Outside, []) -> exists j s', step s j = Some s'.
Proof. exact (log_moves calls sched i). Qed.

(** Every execution ends, after at most three moves per call; and when no thread can move
    any more, there is one line for every call of every thread. *)
Theorem C103_ends n calls sched s : (forall i, (n <= i)%nat -> calls i = []) -> moves (start calls) sched = Some s ->
  (List.length sched <= 3 * allCalls n calls)%nat /\ ((forall j, step s j = None) -> exists h, out s = stdoutOf h /\ err s = stderrOf h /\ forall i, callsOf i h = calls i).
Proof. intros Q H. split; [exact (log_ends n calls sched s Q H)|exact (log_all calls sched s H)]. Qed.

(** Two tensors of the printed whole numbers, and of one shape. *)
Definition zeros (x : Z) : tens := Tens [400] false 0 Int32 false false (repeat 0 399 ++ [x]).
(** Printing "in full" does not: the log keeps 1022 characters, so tensors that
    differ in their last element print the same line. *)
Theorem C103_full_refuted : exists t t' c c', wellTyped t /\ wellTyped t' /\ print (Some t) None true = Some c /\ print (Some t') None true = Some c' /\ line c = line c'
  /\ shape t = [Z.of_nat (List.length (data t))] /\ shape t' = [Z.of_nat (List.length (data t'))] /\ data t <> data t'.
Proof.
  assert (W : forall x, int64 x -> wellTyped (zeros x)).
  { intros x X. split; [repeat constructor; unfold int64; cbn; lia|]. split; [unfold int64; cbn; lia|]. intros _. apply Forall_app. split; [apply Forall_forall; intros y Hy; apply repeat_spec in Hy; subst y; unfold int64; lia|repeat constructor; apply X]. }
  exists (zeros 1), (zeros 2). eexists. eexists. split; [apply W; unfold int64; lia|]. split; [apply W; unfold int64; lia|]. split; [vm_compute; reflexivity|]. split; [vm_compute; reflexivity|]. split; [vm_compute; reflexivity|]. split; [vm_compute; reflexivity|]. split; [vm_compute; reflexivity|].
  cbn [data zeros]. intros E. apply app_inv_head in E. discriminate E.
Qed.

(** 1e-7 and 0 print alike. *)
Definition one (w : Z) : tens := Tens [1] false 0 Float32 false false [w].
Theorem C103_small_numbers_refuted : exists t t' c c', wellTyped t /\ wellTyped t' /\ print (Some t) None true = Some c /\ print (Some t') None true = Some c' /\ line c = line c'
  /\ (List.length (snd c) <= 1022)%nat /\ data t <> data t'.
Proof.
  assert (W : forall x, wellTyped (one x)) by (intros x; split; [repeat constructor; unfold int64; cbn; lia|split; [unfold int64; cbn; lia|discriminate]]).
  exists (one 0), (one 869711765). eexists. eexists. split; [apply W|]. split; [apply W|]. split; [vm_compute; reflexivity|]. split; [vm_compute; reflexivity|]. split; [vm_compute; reflexivity|]. split; [apply Nat.leb_le; vm_compute; reflexivity|]. discriminate.
Qed.

(** A tensor that is printed, and one of which the middle is left out. *)
Example printed : option_map (fun c => line c) (print (Some (Tens [2; 2] true 1 Float32 true false [1065353216; 3221225472; 1036831949; 2139095040])) (Some (str "w")) false)
  = Some (str "[DEBUG] [" ++ [34] ++ str "w" ++ [34] ++ str "] Tensor {" ++ [10] ++ str "  shape: [2, 2]," ++ [10] ++ str "  options: { device:{ type:CUDA, index:1 }, dtype:Float32, requiresGrad:1, pinnedMemory:0 }," ++ [10] ++ str "  data: [1.000000, -2.000000, 0.100000, inf]" ++ [10] ++ str "}" ++ [10]).
Proof. vm_compute. reflexivity. Qed.
Example printed_short : printArray (elementText Int64) (map Z.of_nat (seq 0 17)) false = Some (str "[0, 1, 2, 3, 4, 5, 6, 7, ... , 9, 10, 11, 12, 13, 14, 15, 16]").
Proof. vm_compute. reflexivity. Qed.
(** Hypotheses of C103_tells_partial hold. *)
Example told : let t := Tens [2] false 0 Int32 false true [3; -4] in wellTyped t /\ exists c, print (Some t) None false = Some c /\ (List.length (snd c) <= 1022)%nat.
Proof. split; [repeat split; try (repeat constructor; unfold int64; cbn; lia); unfold int64; cbn; lia|]. eexists. split; [vm_compute; reflexivity|]. apply Nat.leb_le. reflexivity. Qed.
(** Two threads, interleaved. *)
Example two_threads : let calls i := match i with 0%nat => [(Info, str "a"); (Error, str "b")] | 1%nat => [(Warning, str "c")] | _ => [] end in
  let s := run (start calls) [0; 1; 0; 1; 0; 1; 0; 1; 1; 0; 0; 0]%nat in out s = str "[INFO] a" ++ [10] ++ str "[WARNING] c" ++ [10] /\ err s = str "[ERROR] b" ++ [10].
Proof. vm_compute. split; reflexivity. Qed.

Print Assumptions C103_layout.
Print Assumptions C103_tells_partial.
Print Assumptions C103_threads.
Print Assumptions C103_no_deadlock.
(** An execution of two threads that ends. *)
Example two_ended : let calls i := match i with 0%nat => [(Info, str "a")] | 1%nat => [(Warning, str "c")] | _ => [] end in
  exists s, moves (start calls) [1; 1; 1; 0; 0; 0]%nat = Some s /\ out s = str "[WARNING] c" ++ [10] ++ str "[INFO] a" ++ [10] /\ forall j, step s j = None.
Proof. eexists. split; [reflexivity|]. split; [vm_compute; reflexivity|]. intros [|[|j]]; reflexivity. Qed.
Print Assumptions C103_ends.
Print Assumptions C103_full_refuted.
Print Assumptions C103_small_numbers_refuted.
