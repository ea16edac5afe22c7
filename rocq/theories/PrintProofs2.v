From Coq Require Import ZArith Reals List Bool Arith String Ascii Lia.
From Verif Require Import DispatchModel StoreModel StoreSpec StoreProofs CastModel PrintModel PrintSpec PrintProofs.
Import ListNotations.
Open Scope Z_scope.

(** * The text of a tensor *)
Lemma print_layout t tag full : wellTyped t -> exists dims items i,
  print (Some t) tag full = Some (Debug, tagText tag ++ layout (joined dims) (deviceName (cuda t)) i (typeName (dty t)) (yesNo (requiresGrad t)) (yesNo (pinned t)) (joined items))
  /\ Forall2 (fun z s => is_decimal s z) (shape t) dims /\ is_decimal i (index t) /\ shownAs (dty t) full (data t) items.
Proof.
  intros (WS & WI & WD). destruct (printShape_ok (shape t) WS) as (dims & PS & FS). assert (WD' : Forall (fun w => isInt (dty t) = true -> int64 w) (data t)) by (apply Forall_forall; intros w Hw B; specialize (WD B); rewrite Forall_forall in WD; apply WD; exact Hw).
  destruct (printArray_ok (dty t) (data t) full WD') as (items & PD & FD). exists dims, items, (to_string (index t)). split; [|split; [exact FS|split; [apply to_string_ok; exact WI|exact FD]]].
  unfold print, printTensorImpl. rewrite PS, PD. f_equal. f_equal. f_equal. unfold layout, printOptions, printDevice, nl, deviceName, typeName, dtypeToString, yesNo, flag. set (J := joined dims). set (K := joined items). set (I := to_string (index t)). clearbody J K I.
  destruct (cuda t), (dty t), (requiresGrad t), (pinned t); cbn; rewrite <- ?app_assoc; cbn; rewrite <- ?app_assoc; cbn; reflexivity.
Qed.
Lemma app_heads {A} (a b b' : list A) : a ++ b = a ++ b' -> b = b'.
Proof. apply app_inv_head. Qed.
Lemma names_44 t : Forall (fun c => ~ (c = 44)) (typeName t).
Proof. destruct t; cbn; repeat constructor; lia. Qed.
Lemma names_same t t' : typeName t = typeName t' -> t = t'.
Proof. destruct t, t'; intros E; try reflexivity; discriminate E. Qed.
Lemma layout_same dims dims' dv dv' i i' ty ty' g g' p p' els els' : Forall piece dims -> Forall piece dims' -> item i -> item i' -> Forall piece els -> Forall piece els' ->
  layout (joined dims) (deviceName dv) i (typeName ty) (yesNo g) (yesNo p) (joined els) = layout (joined dims') (deviceName dv') i' (typeName ty') (yesNo g') (yesNo p') (joined els') ->
  dims = dims' /\ dv = dv' /\ i = i' /\ ty = ty' /\ g = g' /\ p = p' /\ els = els'.
Proof.
  intros D D' I I' X X' E. unfold layout in E. cbn in E. injection E as E. destruct (joined_cut _ _ _ _ D D' E) as [<- E1]. clear E. split; [reflexivity|].
  injection E1 as E1. assert (Dv : dv = dv') by (destruct dv, dv'; try reflexivity; discriminate E1). subst dv'. split; [reflexivity|]. apply app_heads in E1. injection E1 as E1.
  assert (S32 : forall x, item x -> Forall (fun c => ~ (c = 32)) x) by (intros x [_ Px]; revert Px; apply Forall_impl; intros c; unfold plain; lia).
  destruct (cut_at (fun c => c = 32) _ _ _ _ _ _ (S32 i I) (S32 i' I') eq_refl eq_refl E1) as (<- & _ & E2). clear E1. split; [reflexivity|]. injection E2 as E2.
  destruct (cut_at (fun c => c = 44) _ _ _ _ _ _ (names_44 ty) (names_44 ty') eq_refl eq_refl E2) as (Ty & _ & E3). clear E2. apply names_same in Ty. split; [exact Ty|]. injection E3 as E3.
  assert (G : g = g') by (destruct g, g'; try reflexivity; discriminate E3). subst g'. split; [reflexivity|]. apply app_heads in E3. injection E3 as E3. assert (Pp : p = p') by (destruct p, p'; try reflexivity; discriminate E3). subst p'. split; [reflexivity|].
  apply app_heads in E3. injection E3 as E3. destruct (joined_cut _ _ _ _ X X' E3) as [-> _]. reflexivity.
Qed.
Lemma decimals_pieces v l : Forall2 (fun z s => is_decimal s z) v l -> Forall piece l.
Proof. induction 1; constructor; auto. apply item_piece. eapply decimal_item. eassumption. Qed.
Lemma decimals_same l : forall v v', Forall2 (fun z s => is_decimal s z) v l -> Forall2 (fun z s => is_decimal s z) v' l -> v = v'.
Proof. induction l as [|s l IH]; intros v v' H H'; inversion H; subst; inversion H'; subst; [reflexivity|]. f_equal; [eapply decimal_same; eassumption|apply IH; assumption]. Qed.
Lemma elements_pieces t v l : Forall2 (elementShown t) v l -> Forall piece l.
Proof. induction 1; constructor; auto. apply item_piece. eapply element_item. eassumption. Qed.
Lemma shown_pieces t full v l : shownAs t full v l -> Forall piece l.
Proof.
  unfold shownAs. destruct (_ || _)%bool; [apply elements_pieces|]. intros (a & b & -> & A & B). apply Forall_app. split; [eapply elements_pieces; eassumption|]. constructor; [split; [discriminate|repeat constructor; unfold sep; lia]|eapply elements_pieces; eassumption].
Qed.
Lemma f2_length {A B} (R : A -> B -> Prop) l l' : Forall2 R l l' -> List.length l = List.length l'.
Proof. induction 1; cbn; congruence. Qed.
Lemma ints_same t l : isInt t = true -> forall v v', Forall2 (elementShown t) v l -> Forall2 (elementShown t) v' l -> v = v'.
Proof.
  intros N. induction l as [|s l IH]; intros v v' H H'; inversion H; subst; inversion H'; subst; [reflexivity|]. unfold elementShown in *. rewrite N in *. f_equal; [eapply decimal_same; eassumption|]. apply IH; assumption.
Qed.
Lemma shown_same t full v v' l : isInt t = true -> shownAs t full v l -> shownAs t full v' l -> seenElements full v = seenElements full v'.
Proof.
  intros N. unfold shownAs, seenElements. destruct full; cbn [orb]; [intros H H'; exact (ints_same t l N v v' H H')|]. destruct (Nat.leb_spec (List.length v) 16) as [L|L], (Nat.leb_spec (List.length v') 16) as [L'|L'].
  - intros H H'. exact (ints_same t l N v v' H H').
  - intros H (a & b & -> & A & B). apply f2_length in H, A, B. rewrite app_length in H. rewrite firstn_length in A. rewrite skipn_length in B. cbn [app List.length] in H. unfold text in *. lia.
  - intros (a & b & -> & A & B) H. apply f2_length in H, A, B. rewrite app_length in H. rewrite firstn_length in A. rewrite skipn_length in B. cbn [app List.length] in H. unfold text in *. lia.
  - intros (a & b & -> & A & B) (a' & b' & E & A' & B'). pose proof (f2_length _ _ _ A) as K. pose proof (f2_length _ _ _ A') as K'. rewrite firstn_length in K, K'. unfold text in *. assert (La : List.length a = List.length a') by lia.
    assert (AE : a = a' /\ b = b'). { clear - E La. revert a' La E. induction a as [|x a IH]; intros [|x' a'] La E; try discriminate La; [injection E as ->; auto|]. injection E as -> E. injection La as La. destruct (IH a' La E) as [-> ->]. auto. }
    destruct AE as [<- <-]. f_equal; [exact (ints_same t a N _ _ A A')|exact (ints_same t b N _ _ B B')].
Qed.
(** * The log *)
Lemma untilNull_id x : cString x -> untilNull x = x.
Proof. induction 1 as [|c x H _ IH]; cbn [untilNull]; [reflexivity|]. destruct (Z.eqb_spec c 0); [contradiction|]. rewrite IH. reflexivity. Qed.
Lemma cstr_until x : cstr x = untilNull x.
Proof. reflexivity. Qed.
Lemma line_written l x : line (l, x) = written l (filled x).
Proof. unfold line, written, filled. cbn [fst snd]. change (cstr x) with (untilNull x). replace (Z.to_nat (1024 - 1 - 1)) with 1022%nat by reflexivity. destruct l; reflexivity. Qed.
Lemma line_text l x : cString x -> line (l, x) = levelName l ++ firstn 1022 x ++ [10].
Proof. intros H. unfold line. cbn [fst snd]. rewrite untilNull_id by exact H. reflexivity. Qed.
Lemma piece_joined l : Forall (fun x => Forall (fun c => c <> 0) x) l -> cString (joined l).
Proof.
  induction 1 as [|x l Hx Hl IH]; [constructor|]. destruct l as [|y l]; [exact Hx|]. change (joined (x :: y :: l)) with (x ++ [44; 32] ++ joined (y :: l)). apply Forall_app. split; [exact Hx|]. apply Forall_app. split; [repeat constructor; lia|exact IH].
Qed.
Lemma plain_0 x : item x -> Forall (fun c => c <> 0) x.
Proof. intros [_ P]. revert P. apply Forall_impl. intros c. unfold plain. lia. Qed.
Lemma lit_c s : forallb (fun c => negb (c =? 0)) (str s) = true -> cString (str s).
Proof. intros H. apply Forall_forall. intros c I. rewrite forallb_forall in H. specialize (H c I). lia. Qed.
Lemma layout_c dims dv i ty g p els : Forall (fun x => Forall (fun c => c <> 0) x) dims -> item i -> Forall (fun x => Forall (fun c => c <> 0) x) els ->
  cString (layout (joined dims) (deviceName dv) i (typeName ty) (yesNo g) (yesNo p) (joined els)).
Proof.
  intros D I E. unfold layout. pose proof (piece_joined _ D) as J. pose proof (piece_joined _ E) as K. pose proof (plain_0 i I) as P. set (jd := joined dims) in *. set (je := joined els) in *. clearbody jd je.
  assert (N : cString [10]) by (repeat constructor; lia). unfold cString in *.
  repeat (apply Forall_app; split); try assumption; try (apply lit_c; reflexivity); [destruct dv|destruct ty|destruct g|destruct p]; apply lit_c; reflexivity.
Qed.
Lemma decimals_c v l : Forall2 (fun z s => is_decimal s z) v l -> Forall (fun x => Forall (fun c => c <> 0) x) l.
Proof. induction 1; constructor; auto. apply plain_0. eapply decimal_item. eassumption. Qed.
Lemma elements_c t v l : Forall2 (elementShown t) v l -> Forall (fun x => Forall (fun c => c <> 0) x) l.
Proof. induction 1; constructor; auto. apply plain_0. eapply element_item. eassumption. Qed.
Lemma shown_c t full v l : shownAs t full v l -> Forall (fun x => Forall (fun c => c <> 0) x) l.
Proof.
  unfold shownAs. destruct (_ || _)%bool; [apply elements_c|]. intros (a & b & -> & A & B). apply Forall_app. split; [eapply elements_c; eassumption|]. constructor; [repeat constructor; lia|eapply elements_c; eassumption].
Qed.
Lemma tag_c tag : match tag with Some g => cString g | None => True end -> cString (tagText tag).
Proof. destruct tag as [g|]; intros H; [|constructor]. unfold tagText, cString in *. repeat (apply Forall_app; split); try assumption; try (apply lit_c; reflexivity); repeat constructor; lia. Qed.
Lemma print_c t tag full c : wellTyped t -> match tag with Some g => cString g | None => True end -> print (Some t) tag full = Some c -> cString (snd c).
Proof.
  intros W G E. destruct (print_layout t tag full W) as (dims & items & i & P & FD & FI & FE). rewrite P in E. injection E as <-. cbn [snd]. apply Forall_app. split; [apply tag_c; exact G|]. apply layout_c; [eapply decimals_c; exact FD|eapply decimal_item; exact FI|eapply shown_c; exact FE].
Qed.
Lemma written_same l x x' : levelName l ++ x ++ [10] = levelName l ++ x' ++ [10] -> x = x'.
Proof. intros E. apply app_inv_head in E. apply app_inv_tail in E. exact E. Qed.
Lemma tells t t' tag full c c' : wellTyped t -> wellTyped t' -> match tag with Some g => cString g | None => True end ->
  print (Some t) tag full = Some c -> print (Some t') tag full = Some c' -> (List.length (snd c) <= 1022)%nat -> (List.length (snd c') <= 1022)%nat -> line c = line c' ->
  shape t = shape t' /\ cuda t = cuda t' /\ index t = index t' /\ dty t = dty t' /\ requiresGrad t = requiresGrad t' /\ pinned t = pinned t'
  /\ (exists items, shownAs (dty t) full (data t) items /\ shownAs (dty t) full (data t') items) /\ (isInt (dty t) = true -> seenElements full (data t) = seenElements full (data t')).
Proof.
  intros W W' G E E' L L' X. pose proof (print_c t tag full c W G E) as C. pose proof (print_c t' tag full c' W' G E') as C'. destruct (print_layout t tag full W) as (dims & items & i & P & FD & FI & FE). destruct (print_layout t' tag full W') as (dims' & items' & i' & P' & FD' & FI' & FE').
  rewrite P in E. injection E as <-. rewrite P' in E'. injection E' as <-. cbn [snd] in *. rewrite !line_text in X by assumption. apply written_same in X. rewrite !firstn_all2 in X by assumption. apply app_inv_head in X.
  destruct (layout_same _ _ _ _ _ _ _ _ _ _ _ _ _ _ (decimals_pieces _ _ FD) (decimals_pieces _ _ FD') (decimal_item _ _ FI) (decimal_item _ _ FI') (shown_pieces _ _ _ _ FE) (shown_pieces _ _ _ _ FE') X) as (<- & Dv & <- & Ty & Gd & Pn & <-).
  split; [exact (decimals_same _ _ _ FD FD')|]. split; [exact Dv|]. split; [exact (decimal_same _ _ _ FI FI')|]. split; [exact Ty|]. split; [exact Gd|]. split; [exact Pn|]. rewrite <- Ty in FE'. split; [exists items; split; assumption|]. intros N. exact (shown_same _ _ _ _ _ N FE FE').
Qed.
(** * Threads *)
Definition inside (s : state) (p : list (level * text)) : Prop :=
  match owner s with
  | None => p = [] /\ forall i, fst (threads s i) = Outside
  | Some j => (forall i, i <> j -> fst (threads s i) = Outside) /\ ((exists c, fst (threads s j) = Locked c /\ p = [c]) \/ (exists l t, fst (threads s j) = Filled l /\ p = [(l, t)] /\ buffer s = filled t))
  end.
Definition mine (s : state) (p : list (level * text)) (i : nat) : list (level * text) := match owner s with Some j => if (i =? j)%nat then p else [] | None => [] end.
Definition inv (calls : nat -> list (level * text)) (s : state) : Prop := exists h p, out s = stdoutOf h /\ err s = stderrOf h /\ inside s p /\ forall i, calls i = callsOf i h ++ mine s p i ++ snd (threads s i).
Lemma start_inv calls : inv calls (start calls).
Proof. exists [], []. split; [reflexivity|]. split; [reflexivity|]. split; [split; [reflexivity|intros i; reflexivity]|]. intros i. reflexivity. Qed.
Lemma set_same f i x : setThread f i x i = x.
Proof. unfold setThread. rewrite Nat.eqb_refl. reflexivity. Qed.
Lemma set_other f i j x : j <> i -> setThread f i x j = f j.
Proof. intros H. unfold setThread. destruct (Nat.eqb_spec j i); [contradiction|reflexivity]. Qed.
Lemma callsOf_snoc i h j c : callsOf i (h ++ [(j, c)]) = callsOf i h ++ if (i =? j)%nat then [c] else [].
Proof. unfold callsOf. rewrite filter_app, map_app. f_equal. cbn [filter fst]. rewrite (Nat.eqb_sym j i). destruct (i =? j)%nat; reflexivity. Qed.
Lemma step_inv calls s i s' : inv calls s -> step s i = Some s' -> inv calls s'.
Proof.
  intros (h & p & O & E & N & C) H. unfold step in H. destruct (threads s i) as [pl r] eqn:T. unfold inside in N. unfold mine in C. destruct pl as [|[l t]|l].
  - destruct r as [|c r]; [discriminate|]. destruct (owner s) as [j|] eqn:W; [discriminate|]. injection H as <-. destruct N as [-> N]. exists h, [c]. unfold inside, mine. cbn [out err owner threads buffer]. split; [exact O|]. split; [exact E|]. split.
    + split; [intros k Hk; rewrite set_other by exact Hk; apply N|]. left. exists c. rewrite set_same. split; reflexivity.
    + intros k. rewrite (C k). f_equal. destruct (Nat.eqb_spec k i) as [-> |Q]; [rewrite T, set_same; reflexivity|rewrite set_other by exact Q; reflexivity].
  - assert (L0 : (levelNum l <? levelNum Info) = false) by (destruct l; reflexivity). rewrite L0 in H. injection H as <-. assert (W : owner s = Some i).
    { destruct (owner s) as [j|]; [|destruct N as [_ N]; specialize (N i); rewrite T in N; discriminate N]. destruct (Nat.eq_dec i j) as [-> |Q]; [reflexivity|]. destruct N as [N _]. specialize (N i Q). rewrite T in N. discriminate N. }
    rewrite W in N, C. destruct N as [N1 [(c & Fc & ->)|(l' & t' & Fc & _)]]; rewrite T in Fc; [|discriminate Fc]. injection Fc as <-. exists h, [(l, t)]. unfold inside, mine. cbn [out err owner threads buffer]. rewrite W. split; [exact O|]. split; [exact E|]. split.
    + split; [intros k Hk; rewrite set_other by exact Hk; apply N1; exact Hk|]. right. exists l, t. rewrite set_same. repeat split.
    + intros k. rewrite (C k). f_equal. destruct (Nat.eqb_spec k i) as [-> |Q]; [rewrite T, set_same; reflexivity|rewrite set_other by exact Q; reflexivity].
  - injection H as <-. assert (W : owner s = Some i).
    { destruct (owner s) as [j|]; [|destruct N as [_ N]; specialize (N i); rewrite T in N; discriminate N]. destruct (Nat.eq_dec i j) as [-> |Q]; [reflexivity|]. destruct N as [N _]. specialize (N i Q). rewrite T in N. discriminate N. }
    rewrite W in N, C. destruct N as [N1 [(c & Fc & ->)|(l' & t & Fc & -> & B)]]; rewrite T in Fc; [discriminate Fc|]. injection Fc as <-. exists (h ++ [(i, (l, t))]), []. unfold inside, mine. cbn [out err owner threads buffer]. unfold stdoutOf, stderrOf in *. rewrite !flat_map_app. cbn [flat_map snd fst]. rewrite line_written, B, O, E, !app_nil_r. split; [destruct l; cbn [toStderr]; rewrite ?app_nil_r; reflexivity|]. split; [destruct l; cbn [toStderr]; rewrite ?app_nil_r; reflexivity|]. split.
    + split; [reflexivity|]. intros k. destruct (Nat.eq_dec k i) as [-> |Q]; [rewrite set_same; reflexivity|rewrite set_other by exact Q; apply N1; exact Q].
    + intros k. rewrite callsOf_snoc, (C k). destruct (Nat.eqb_spec k i) as [-> |Q]; [rewrite T, set_same; cbn [app]; rewrite <- app_assoc; reflexivity|rewrite set_other by exact Q; rewrite app_nil_r; reflexivity].
Qed.
Lemma run_inv calls sched : forall s, inv calls s -> inv calls (run s sched).
Proof. induction sched as [|i sched IH]; intros s H; cbn [run]; [exact H|]. apply IH. destruct (step s i) eqn:E; [eapply step_inv; eassumption|exact H]. Qed.
Lemma log_threads calls sched : let s := run (start calls) sched in exists h, out s = stdoutOf h /\ err s = stderrOf h /\
  forall i, exists r, calls i = callsOf i h ++ r /\ (threads s i = (Outside, []) -> r = []).
Proof.
  cbv zeta. destruct (run_inv calls sched _ (start_inv calls)) as (h & p & O & E & N & C). exists h. split; [exact O|]. split; [exact E|]. intros i. eexists. split; [exact (C i)|]. intros T. rewrite T. cbn [snd]. rewrite app_nil_r. unfold mine, inside in *. destruct (owner _) as [j|]; [|reflexivity]. destruct (Nat.eqb_spec i j) as [-> |Q]; [|reflexivity].
  destruct N as [_ [(c & F & _)|(l & t & F & _)]]; rewrite T in F; discriminate F.
Qed.
Lemma log_moves calls sched i : let s := run (start calls) sched in threads s i <> (Outside, []) -> exists j s', step s j = Some s'.
Proof.
  cbv zeta. set (s := run (start calls) sched). intros T. destruct (run_inv calls sched _ (start_inv calls)) as (h & p & O & E & N & C). fold s in N. unfold inside in N. destruct (owner s) as [j|] eqn:W.
  - exists j. destruct N as [_ [(c & F & _)|(l & t & F & _)]]; unfold step; destruct (threads s j) as [pl r]; cbn [fst] in F; subst pl; [destruct c as [l t]; destruct (_ <? _)|]; eexists; reflexivity.
  - destruct N as [_ N]. specialize (N i). exists i. unfold step. destruct (threads s i) as [pl r]; cbn [fst] in N; subst pl. destruct r as [|c r]; [contradiction|]. rewrite W. eexists. reflexivity.
Qed.
