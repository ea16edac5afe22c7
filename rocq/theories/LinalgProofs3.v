From Coq Require Import ZArith List Bool Arith Lia Permutation.
From Verif Require Import ShapeModel ShapeSpec ShapeProofs TensorModel TensorSpec TensorLemmas BcastModel BcastSpec BcastProofs BufModel BufProofs
  PermModel PermProofs2 CutModel CutProofs CutProofs2 ReduceModel ReduceProofs ReduceProofs2 LinalgModel LinalgSpec LinalgProofs LinalgProofs2.
Import ListNotations.

(** * Geometry *)
Lemma outSize_fits size k s p : fits size k s p -> outSize size k s p = Some (Z.of_nat (positions size k s p)).
Proof.
  intros [Hs Hk]. unfold outSize. rewrite (proj2 (Nat.eqb_neq s 0)) by lia. f_equal. unfold positions.
  rewrite Nat2Z.inj_add, Nat2Z.inj_div. rewrite Z.quot_div_nonneg by lia. do 2 f_equal. lia.
Qed.
Lemma geometry_4 n c h w kernel stride padding : windows h w kernel stride padding ->
  geometry [n; c; h; w] kernel stride padding
  = Ok (n, c, h, w, positions h (dh kernel) (dh stride) (dh padding), positions w (dw kernel) (dw stride) (dw padding)).
Proof.
  intros [H1 H2]. unfold geometry. rewrite !outSize_fits by auto.
  rewrite (proj2 (Z.ltb_ge _ _)), (proj2 (Z.ltb_ge _ _)) by lia. cbn [orb]. rewrite !Nat2Z.id. auto.
Qed.
Lemma geometry_3 c h w kernel stride padding : geometry [c; h; w] kernel stride padding = geometry [1; c; h; w] kernel stride padding.
Proof. reflexivity. Qed.

Lemma loop_indices_cons {S} d sh (f : S -> list nat -> option S) : forall s,
  loop (indices (d :: sh)) s f = loop (seq 0 d) s (fun s i => loop (indices sh) s (fun s q => f s (i :: q))).
Proof.
  cbn [indices]. generalize (seq 0 d) as l. induction l as [|i l IH]; intro s; auto. cbn [flat_map loop]. rewrite loop_app, loop_map.
  destruct (loop (indices sh) s (fun s q => f s (i :: q))); cbn [obind]; auto.
Qed.
Lemma loop_indices_nil {S} (f : S -> list nat -> option S) s : loop (indices []) s f = f s [].
Proof. cbn. destruct (f s []); auto. Qed.
Lemma loop6_flat {S} b c h w i j (s : S) f :
  loop6 b c h w i j s f = loop (indices [b; c; h; w; i; j]) s (fun s q => match q with [b; c; h; w; i; j] => f s b c h w i j | _ => None end).
Proof.
  unfold loop6. rewrite loop_indices_cons. apply loop_ext; intros. rewrite loop_indices_cons. apply loop_ext; intros.
  rewrite loop_indices_cons. apply loop_ext; intros. rewrite loop_indices_cons. apply loop_ext; intros.
  rewrite loop_indices_cons. apply loop_ext; intros. rewrite loop_indices_cons. apply loop_ext; intros. rewrite loop_indices_nil. auto.
Qed.
Lemma loop_filter {S I} (p : I -> bool) (l : list I) (f : S -> I -> option S) : (forall s i, In i l -> p i = false -> f s i = Some s) ->
  forall s, loop l s f = loop (filter p l) s f.
Proof.
  induction l as [|i l IH]; intros H s; auto. cbn [loop filter]. destruct (p i) eqn:E.
  - cbn [loop]. destruct (f s i); cbn [obind]; auto. apply IH. intros; apply H; auto. right; auto.
  - rewrite H by (auto; left; auto). cbn [obind]. apply IH. intros; apply H; auto. right; auto.
Qed.

Lemma valid_cons_inv d sh q : valid (d :: sh) q -> exists i r, q = i :: r /\ i < d /\ valid sh r.
Proof. intro H. inversion H; subst; eauto. Qed.
Lemma valid_nil_inv q : valid [] q -> q = [].
Proof. intro H. inversion H; auto. Qed.
Lemma valid6 b c h w i j q : valid [b; c; h; w; i; j] q -> exists b' c' h' w' i' j', q = [b'; c'; h'; w'; i'; j']
  /\ b' < b /\ c' < c /\ h' < h /\ w' < w /\ i' < i /\ j' < j.
Proof.
  intro V. repeat (apply valid_cons_inv in V; destruct V as (? & ? & -> & ? & V)). apply valid_nil_inv in V. subst. eauto 20.
Qed.
Lemma valid4 b c h w q : valid [b; c; h; w] q -> exists b' c' h' w', q = [b'; c'; h'; w'] /\ b' < b /\ c' < c /\ h' < h /\ w' < w.
Proof.
  intro V. repeat (apply valid_cons_inv in V; destruct V as (? & ? & -> & ? & V)). apply valid_nil_inv in V. subst. eauto 20.
Qed.
Lemma valid3 b c h q : valid [b; c; h] q -> exists b' c' h', q = [b'; c'; h'] /\ b' < b /\ c' < c /\ h' < h.
Proof.
  intro V. repeat (apply valid_cons_inv in V; destruct V as (? & ? & -> & ? & V)). apply valid_nil_inv in V. subst. eauto 20.
Qed.
Lemma valid2 b c q : valid [b; c] q -> exists b' c', q = [b'; c'] /\ b' < b /\ c' < c.
Proof.
  intro V. repeat (apply valid_cons_inv in V; destruct V as (? & ? & -> & ? & V)). apply valid_nil_inv in V. subst. eauto 20.
Qed.

Lemma NoDup_map_inj {A B} (f : A -> B) l : (forall x y, In x l -> In y l -> f x = f y -> x = y) -> NoDup l -> NoDup (map f l).
Proof.
  induction l as [|x l IH]; intros H N; [constructor|]. inversion_clear N. cbn [map]. constructor.
  - rewrite in_map_iff. intros (y & E & Hy). apply H0. rewrite (H x y); auto; [left|right]; auto.
  - apply IH; auto. intros a b Ha Hb. apply H; right; auto.
Qed.

Section Im2col.
Context {K : cring} (n c h w : nat) (kernel stride padding : dim2).
Add Ring Kr : (cring_ring K).
Let kh := dh kernel. Let kw := dw kernel.
Let oh := positions h (dh kernel) (dh stride) (dh padding).
Let ow := positions w (dw kernel) (dw stride) (dw padding).
Let img := [n; c; h; w].
Let mat := [n * (oh * ow); c * kh * kw].
Let six := [n; c; oh; ow; kh; kw].

(** Image index of a window element, if inside. *)
Definition source (q : list nat) : option (list nat) :=
  match q with
  | [b; ch; y; x; i; j] =>
    let Y := place (dh stride) (dh padding) y i in
    let X := place (dw stride) (dw padding) x j in
    if ((0 <=? Y) && (Y <? Z.of_nat h) && (0 <=? X) && (X <? Z.of_nat w))%Z then Some [b; ch; Z.to_nat Y; Z.to_nat X] else None
  | _ => None
  end.
Definition row (b y x : nat) : nat := (b * oh + y) * ow + x.
Definition col (ch i j : nat) : nat := (ch * kh + i) * kw + j.
(** Matrix position of a window element. *)
Definition target (q : list nat) : list nat :=
  match q with [b; ch; y; x; i; j] => [row b y x; col ch i j] | _ => [] end.
Definition fetch (F : list nat -> K) (o : option (list nat)) : K := match o with Some idx => F idx | None => zero end.

Lemma source_pixel F b ch y x i j : fetch F (source [b; ch; y; x; i; j])
  = pixel h w F b ch (place (dh stride) (dh padding) y i) (place (dw stride) (dw padding) x j).
Proof. unfold source, pixel, fetch. cbv zeta. destruct (_ && _); auto. Qed.
Lemma source_valid q idx : valid six q -> source q = Some idx -> valid img idx.
Proof.
  intros V E. apply valid6 in V. destruct V as (b & ch & y & x & i & j & -> & Hb & Hc & Hy & Hx & Hi & Hj).
  unfold source in E. cbv zeta in E. destruct (_ && _) eqn:EB; [|discriminate]. injection E as <-.
  rewrite !andb_true_iff, !Z.leb_le, !Z.ltb_lt in EB. repeat constructor; auto; lia.
Qed.
Lemma pixelOffset_source b ch y x i j : pixelOffset c h w stride padding b ch y x i j = option_map (ravel img) (source [b; ch; y; x; i; j]).
Proof.
  unfold pixelOffset, source, place. cbv zeta.
  replace (Z.of_nat (y * dh stride) - Z.of_nat (dh padding) + Z.of_nat i)%Z with (Z.of_nat (y * dh stride + i) - Z.of_nat (dh padding))%Z by lia.
  replace (Z.of_nat (x * dw stride) - Z.of_nat (dw padding) + Z.of_nat j)%Z with (Z.of_nat (x * dw stride + j) - Z.of_nat (dw padding))%Z by lia.
  rewrite !Z.geb_leb. destruct (_ && _); auto. cbn [option_map]. f_equal. unfold img. rewrite !ravel_cons, ravel_nil, !numel_cons, numel_nil. ring.
Qed.
Lemma target_valid q : valid six q -> valid mat (target q).
Proof.
  intro V. apply valid6 in V. destruct V as (b & ch & y & x & i & j & -> & Hb & Hc & Hy & Hx & Hi & Hj).
  unfold target, mat. fold kh kw. repeat constructor.
  - unfold row. assert (b * oh + y < n * oh) by nia. nia.
  - unfold col. assert (ch * kh + i < c * kh) by nia. nia.
Qed.
Lemma colOffset_target b ch y x i j : colOffset c oh ow kernel b ch y x i j = ravel mat (target [b; ch; y; x; i; j]).
Proof. unfold colOffset, target, mat, row, col. rewrite !ravel_cons, ravel_nil, !numel_cons, numel_nil. fold kh kw. ring. Qed.
Lemma mixed_inj a b a' b' m : b < m -> b' < m -> a * m + b = a' * m + b' -> a = a' /\ b = b'.
Proof. intros. assert (a = a') by nia. subst. lia. Qed.
Lemma target_inj q q' : valid six q -> valid six q' -> target q = target q' -> q = q'.
Proof.
  intros V V'. apply valid6 in V. apply valid6 in V'.
  destruct V as (b & ch & y & x & i & j & -> & Hb & Hc & Hy & Hx & Hi & Hj). destruct V' as (b' & ch' & y' & x' & i' & j' & -> & Hb' & Hc' & Hy' & Hx' & Hi' & Hj').
  cbn [target]. intros [= E1 E2]. unfold row in E1. unfold col in E2.
  apply mixed_inj in E1; auto. destruct E1 as [E1 ->]. apply mixed_inj in E1; auto. destruct E1 as [-> ->].
  apply mixed_inj in E2; auto. destruct E2 as [E2 ->]. apply mixed_inj in E2; auto. destruct E2 as [-> ->]. auto.
Qed.
Lemma unmix a m k : a < k * m -> exists q r, a = q * m + r /\ q < k /\ r < m.
Proof.
  intro H. assert (m <> 0) by nia. exists (a / m), (a mod m). pose proof (Nat.div_mod a m). pose proof (Nat.mod_upper_bound a m).
  split; [lia|]. split; [|lia]. apply Nat.div_lt_upper_bound; lia.
Qed.
Lemma target_surj idx : valid mat idx -> exists q, valid six q /\ target q = idx.
Proof.
  intro V. apply valid2 in V. destruct V as (r & p & -> & Hr & Hp). rewrite Nat.mul_assoc in Hr.
  destruct (unmix _ _ _ Hr) as (r1 & x & -> & Hr1 & Hx). destruct (unmix _ _ _ Hr1) as (b & y & -> & Hb & Hy).
  destruct (unmix _ _ _ Hp) as (p1 & j & -> & Hp1 & Hj). destruct (unmix _ _ _ Hp1) as (ch & i & -> & Hc & Hi).
  exists [b; ch; y; x; i; j]. split; auto. repeat constructor; auto.
Qed.
Lemma target_perm : Permutation (map target (indices six)) (indices mat).
Proof.
  apply NoDup_Permutation.
  - apply NoDup_map_inj; [|apply indices_nodup]. intros q q' H H'. apply target_inj; apply indices_in; auto.
  - apply indices_nodup.
  - intro idx. rewrite in_map_iff. split.
    + intros (q & <- & Hq). apply indices_in. apply target_valid. apply indices_in; auto.
    + intro H. apply indices_in in H. destruct (target_surj idx H) as (q & V & E). exists q. split; auto. apply indices_in; auto.
Qed.

Definition untarget (idx : list nat) : list nat :=
  match find (fun q => idx_eqb (target q) idx) (indices six) with Some q => q | None => [] end.
Lemma untarget_target q : valid six q -> untarget (target q) = q.
Proof.
  intro V. unfold untarget. destruct (find _ _) as [q'|] eqn:E.
  - apply find_some in E. destruct E as [H E]. apply idx_eqb_true in E. apply target_inj; auto. apply indices_in; auto.
  - exfalso. apply indices_in in V. apply (find_none _ _ E) in V. cbn beta in V. rewrite (proj2 (idx_eqb_true _ _) eq_refl) in V. discriminate.
Qed.

Hypothesis HW : windows h w kernel stride padding.

Lemma im2col_exact F : im2col (tensor_of img F) kernel stride padding = Ok (tensor_of mat (fun idx => fetch F (source (untarget idx)))).
Proof.
  unfold im2col. change (tshape (tensor_of img F)) with [n; c; h; w]. rewrite geometry_4 by auto. fold oh ow. rewrite loop6_flat.
  fold kh kw. fold mat. fold six.
  apply (fill_tensor (indices six) target).
  - intros r q Hq _. apply indices_in in Hq. pose proof (untarget_target q Hq) as EU. pose proof Hq as V. apply valid6 in V.
    destruct V as (b & ch & y & x & i & j & -> & Hb & Hc & Hy & Hx & Hi & Hj).
    rewrite EU, colOffset_target, pixelOffset_source. destruct (source _) as [idx|] eqn:ES; cbn [option_map fetch]; auto.
    change (rd (tdata (tensor_of img F)) (ravel img idx)) with (rd (tdata (tensor_of img F)) (ravel img idx)).
    rewrite rd_of_idx by (eapply source_valid; eauto). reflexivity.
  - intros q Hq. apply target_valid. apply indices_in; auto.
  - intros idx V. destruct (target_surj idx V) as (q & Vq & E). exists q. split; auto. apply indices_in; auto.
Qed.

(** What col2im adds up. *)
Definition gathered (Y : list nat -> K) (idx : list nat) : K :=
  sum (fun q => match source q with Some p => if idx_eqb p idx then Y (target q) else zero | None => zero end) (indices six).
Lemma col2im_exact Y : col2im (tensor_of mat Y) img kernel stride padding = Ok (tensor_of img (gathered Y)).
Proof.
  unfold col2im. unfold img at 1. rewrite geometry_4 by auto. fold oh ow. rewrite loop6_flat. fold kh kw six.
  set (inside := fun q => match source q with Some _ => true | None => false end).
  rewrite (loop_filter inside).
  2: { intros s q Hq Hi. apply indices_in, valid6 in Hq. destruct Hq as (b & ch & y & x & i & j & -> & _). unfold inside in Hi.
       rewrite pixelOffset_source. destruct (source _); [discriminate|]. reflexivity. }
  set (g := fun q => match source q with Some p => ravel img p | None => 0 end).
  destruct (scatter_add (K := K) g (fun q => Y (target q))
    (fun (s : list K) (q : list nat) => match q with [b; ch; y; x; i; j] =>
       match pixelOffset c h w stride padding b ch y x i j with
       | Some dst => obind (rd (tdata (tensor_of mat Y)) (colOffset c oh ow kernel b ch y x i j)) (fun x => obind (rd s dst) (fun y => wr s dst (add y x)))
       | None => Some s end | _ => None end) (filter inside (indices six)) (repeat zero (numel img))) as (r & E & L & N).
  - intros r q x0 Hq Hx. apply filter_In in Hq. destruct Hq as [Hq Hi]. apply indices_in in Hq. pose proof Hq as V. apply valid6 in V.
    destruct V as (b & ch & y & x & i & j & -> & _). unfold inside in Hi. unfold g in Hx |- *. rewrite pixelOffset_source, colOffset_target.
    destruct (source _) as [p|]; [|discriminate]. cbn [option_map]. rewrite rd_of_idx by (apply target_valid; auto). cbn [obind]. unfold rd. rewrite Hx. reflexivity.
  - intros q Hq. apply filter_In in Hq. destruct Hq as [Hq Hi]. apply indices_in in Hq. rewrite repeat_length. unfold inside in Hi. unfold g.
    destruct (source q) as [p|] eqn:ES; [|discriminate]. apply ravel_lt. eapply source_valid; eauto.
  - rewrite E. unfold tensor_of. do 2 f_equal. rewrite repeat_length in L. apply nth_error_ext'. intro k. rewrite nth_error_map.
    destruct (Nat.ltb_spec k (numel img)) as [Hk|Hk].
    2: { rewrite (proj2 (nth_error_None _ _)) by lia. symmetry. rewrite (proj2 (nth_error_None _ _)); auto. rewrite indices_length. lia. }
    rewrite indices_nth by auto. cbn [option_map].
    assert (En : nth_error (repeat (@zero K) (numel img)) k = Some zero) by (rewrite nth_error_repeat; auto).
    rewrite (N k zero En). f_equal. rewrite !sum_filter. unfold gathered.
    set (S1 := sum _ _). set (S2 := sum _ _). cut (S1 = S2); [intros ->; ring|]. unfold S1, S2. apply sum_ext. intros q Hq. apply indices_in in Hq.
    unfold inside, g. destruct (source q) as [p|] eqn:ES; auto.
    pose proof (source_valid q p Hq ES) as Vp.
    destruct (Nat.eqb_spec (ravel img p) k) as [<-|Hne].
    + rewrite o2i_ravel by auto. rewrite (proj2 (idx_eqb_true _ _) eq_refl). auto.
    + destruct (idx_eqb p (offsetToIndices img k)) eqn:EI; auto. apply idx_eqb_true in EI. subst p. exfalso. apply Hne. apply ravel_o2i; auto.
Qed.

Lemma adjoint F Y : inner mat (fun idx => fetch F (source (untarget idx))) Y = inner img F (gathered Y).
Proof.
  unfold inner. rewrite <- (sum_perm _ _ _ target_perm), sum_map. unfold gathered.
  transitivity (sum (fun idx => sum (fun q => mul (F idx) (match source q with Some p => if idx_eqb p idx then Y (target q) else zero | None => zero end)) (indices six)) (indices img)).
  2: { apply sum_ext. intros idx _. rewrite sum_mul_l. auto. }
  rewrite sum_swap. apply sum_ext. intros q Hq. apply indices_in in Hq. rewrite untarget_target by auto.
  destruct (source q) as [p|] eqn:ES; cbn [fetch].
  - pose proof (source_valid q p Hq ES) as Vp.
    transitivity (sum (fun idx => if idx_eqb idx p then mul (F idx) (Y (target q)) else zero) (indices img)).
    + symmetry. apply (sum_single idx_eqb idx_eqb_true (fun idx => mul (F idx) (Y (target q)))); [apply indices_nodup|apply indices_in; auto].
    + apply sum_ext. intros idx _. destruct (idx_eqb idx p) eqn:E1, (idx_eqb p idx) eqn:E2; auto; try ring.
      * apply idx_eqb_true in E1. subst. rewrite (proj2 (idx_eqb_true _ _) eq_refl) in E2. discriminate.
      * apply idx_eqb_true in E2. subst. rewrite (proj2 (idx_eqb_true _ _) eq_refl) in E1. discriminate.
  - rewrite sum_zero'; [ring|]. intros; ring.
Qed.

(** The sum over the window positions and offsets that name a given pixel. *)
Lemma gathered_4 Y b ch y x : valid img [b; ch; y; x] ->
  gathered Y [b; ch; y; x] = sum (fun q => match q with
     | [oy; ox; i; j] => if ((place (dh stride) (dh padding) oy i =? Z.of_nat y) && (place (dw stride) (dw padding) ox j =? Z.of_nat x))%Z
                         then Y [row b oy ox; col ch i j] else zero
     | _ => zero end) (indices [oh; ow; kh; kw]).
Proof.
  intro V. apply valid4 in V. destruct V as (b0 & c0 & y0 & x0 & [= <- <- <- <-] & Hb & Hc & Hy & Hx).
  unfold gathered. unfold six. change [n; c; oh; ow; kh; kw] with ([n] ++ [c] ++ [oh; ow; kh; kw]). rewrite !indices_app.
  assert (E1 : forall m, indices [m] = map (fun i => [i]) (seq 0 m)).
  { intro m. cbn [indices]. generalize (seq 0 m). induction l as [|a l IH]; auto. }
  rewrite (E1 n). rewrite sum_flat_map, sum_map.
  rewrite <- (sum_seq_single (fun _ => sum (fun q => match q with [oy; ox; i; j] => if ((place (dh stride) (dh padding) oy i =? Z.of_nat y) && (place (dw stride) (dw padding) ox j =? Z.of_nat x))%Z
                         then Y [row b oy ox; col ch i j] else zero | _ => zero end) (indices [oh; ow; kh; kw])) n b Hb).
  apply sum_ext. intros b' Hb'. rewrite sum_map. rewrite (E1 c). rewrite sum_flat_map, sum_map.
  set (body := fun q : list nat => match q with [oy; ox; i; j] => _ | _ => zero end).
  transitivity (sum (fun ch' => if ch' =? ch then (if b' =? b then sum body (indices [oh; ow; kh; kw]) else zero) else zero) (seq 0 c)).
  2: { rewrite (sum_seq_single (fun _ => if b' =? b then sum body (indices [oh; ow; kh; kw]) else zero)); auto. }
  apply sum_ext. intros ch' Hc'. rewrite sum_map. cbn [app].
  transitivity (sum (fun q => if (b' =? b) && (ch' =? ch) then body q else zero) (indices [oh; ow; kh; kw])).
  2: { destruct (b' =? b), (ch' =? ch); cbn [andb]; auto; apply sum_zero'; auto. }
  apply sum_ext. intros q Hq. apply indices_in, valid4 in Hq. destruct Hq as (oy & ox & i & j & -> & Ho1 & Ho2 & Hi & Hj).
  unfold source, body. cbv zeta. set (Y0 := place _ _ oy i). set (X0 := place _ _ ox j).
  destruct ((0 <=? Y0) && (Y0 <? Z.of_nat h) && (0 <=? X0) && (X0 <? Z.of_nat w))%Z eqn:EB.
  - rewrite !andb_true_iff, !Z.leb_le, !Z.ltb_lt in EB.
    destruct (idx_eqb [b'; ch'; Z.to_nat Y0; Z.to_nat X0] [b; ch; y; x]) eqn:EI.
    + apply idx_eqb_true in EI. injection EI as -> -> E2 E3. rewrite !Nat.eqb_refl. cbn [andb]. rewrite (proj2 (Z.eqb_eq Y0 _)), (proj2 (Z.eqb_eq X0 _)) by lia. auto.
    + destruct (Nat.eqb_spec b' b), (Nat.eqb_spec ch' ch); cbn [andb]; auto. destruct (Z.eqb_spec Y0 (Z.of_nat y)), (Z.eqb_spec X0 (Z.of_nat x)); cbn [andb]; auto.
      exfalso. rewrite <- not_true_iff_false in EI. apply EI. apply idx_eqb_true. subst. repeat f_equal; lia.
  - destruct ((b' =? b) && (ch' =? ch)); auto. destruct (Z.eqb_spec Y0 (Z.of_nat y)), (Z.eqb_spec X0 (Z.of_nat x)); cbn [andb]; auto.
    exfalso. rewrite <- not_true_iff_false in EB. apply EB. rewrite !andb_true_iff, !Z.leb_le, !Z.ltb_lt. lia.
Qed.
End Im2col.
