From Coq Require Import ZArith List Bool Arith Lia.
From Coq Require Import ZifyBool ZifyNat.
From Verif Require Import ShapeModel ShapeSpec ShapeProofs TensorModel TensorSpec TensorLemmas BcastModel BcastProofs BcastProofs2 BufModel BufProofs PermProofs PermProofs2 CutModel CutSpec.
Import ListNotations.

Lemma numelZ_of_nat sh : numelZ (map Z.of_nat sh) = Z.of_nat (numel sh).
Proof. rewrite numelZ_prod, prod_of_nat. auto. Qed.
Lemma to_of sh : map Z.to_nat (map Z.of_nat sh) = sh.
Proof. rewrite map_map. rewrite <- (map_id sh) at 2. apply map_ext. intro. apply Nat2Z.id. Qed.
Lemma of_to l : forallb (fun d => 0 <=? d)%Z l = true -> map Z.of_nat (map Z.to_nat l) = l.
Proof.
  induction l as [|x l IH]; simpl; auto. intro H. apply andb_prop in H. destruct H as [H1 H2]. rewrite IH by auto. f_equal. lia.
Qed.
Lemma forallb_of_nat sh : forallb (fun d => 0 <=? d)%Z (map Z.of_nat sh) = true.
Proof. induction sh; simpl; auto. rewrite IHsh. replace (0 <=? Z.of_nat a)%Z with true by lia. auto. Qed.

Lemma holds_inv {A} (s : sten A) sh F : holds s sh F -> sshape s = map Z.of_nat sh /\ in_storage s
  /\ forall k, k < numel sh -> srd s (Z.of_nat k) = Some (F (offsetToIndices sh k)).
Proof.
  intros [H1 H2]. unfold contents in H2. destruct (forallb _ _) eqn:E; [|discriminate].
  destruct (tab _ _) as [d|] eqn:ET; simpl in H2; [|discriminate].
  assert (tensor_of sh F = mkT (map Z.to_nat (sshape s)) d) as HT by congruence. unfold tensor_of in HT. injection HT as H3 H4.
  assert (ES : sshape s = map Z.of_nat sh) by (rewrite H3; symmetry; apply of_to; auto).
  split; auto. split; auto. intros k Hk. unfold tab in ET.
  assert (N := seqopt_nth _ _ k ET). rewrite nth_error_map, nth_error_seq in N.
  rewrite ES, numelZ_of_nat, Nat2Z.id in N. rewrite (proj2 (Nat.ltb_lt _ _) Hk) in N. simpl in N. rewrite <- N, <- H4.
  rewrite nth_error_map, indices_nth by auto. auto.
Qed.
Lemma holds_intro {A} (s : sten A) sh F : sshape s = map Z.of_nat sh -> in_storage s ->
  (forall k, k < numel sh -> srd s (Z.of_nat k) = Some (F (offsetToIndices sh k))) -> holds s sh F.
Proof.
  intros H1 H2 H3. split; auto. unfold contents. rewrite H1, forallb_of_nat, numelZ_of_nat, Nat2Z.id.
  rewrite (tab_some _ _ (fun k => F (offsetToIndices sh k))) by auto. cbn [obind]. rewrite to_of. unfold tensor_of. rewrite map_seq_indices. auto.
Qed.
Lemma fresh_holds {A} sh (F : list nat -> A) : holds (mkS (map Z.of_nat sh) 0 (tdata (tensor_of sh F))) sh F.
Proof.
  apply holds_intro; auto.
  - split; cbn [soff sshape sstore]; [lia|]. rewrite numelZ_of_nat, of_length. lia.
  - intros k Hk. unfold srd, rdZ. cbn [soff sstore]. replace (0 + Z.of_nat k <? 0)%Z with false by lia.
    replace (Z.to_nat (0 + Z.of_nat k)) with k by lia. apply rd_of; auto.
Qed.

(** * Index algebra of a piece *)
Lemma shift_app a x b k : shift (length a) k (a ++ x :: b) = a ++ (x + k) :: b.
Proof. unfold shift. rewrite set_nth_app, app_nth2, Nat.sub_diag by lia. auto. Qed.
Lemma ravel_mid pre d post a x b : length a = length pre -> ravel (pre ++ d :: post) (a ++ x :: b) = ravel pre a * (d * numel post) + x * numel post + ravel post b.
Proof. intro L. rewrite ravel_app by auto. rewrite ravel_cons, numel_cons. lia. Qed.
Lemma valid_mid pre d post idx : valid (pre ++ d :: post) idx <-> exists a x b, idx = a ++ x :: b /\ valid pre a /\ x < d /\ valid post b.
Proof.
  split.
  - intro V. apply Forall2_app_inv_r in V. destruct V as (a & q & V1 & V2 & ->). inversion V2; subst. exists a, x, l. auto.
  - intros (a & x & b & -> & V1 & H & V2). apply Forall2_app; [assumption|constructor; assumption].
Qed.
Lemma o2i_mid pre d post a x b : valid pre a -> x < d -> valid post b ->
  offsetToIndices (pre ++ d :: post) (ravel pre a * (d * numel post) + x * numel post + ravel post b) = a ++ x :: b.
Proof.
  intros V1 H V2. rewrite <- ravel_mid by (apply (valid_length _ _ V1)). apply o2i_ravel. apply valid_mid. exists a, x, b. auto.
Qed.
Lemma set_nth_mid (pre : list nat) d post l : set_nth (pre ++ d :: post) (length pre) l = pre ++ l :: post.
Proof. apply set_nth_app. Qed.
(** Offsets [o * (l * inner) + k] enumerate the piece. *)
Lemma block_idx pre l post o k : o < numel pre -> k < l * numel post ->
  exists x b, x < l /\ valid post b /\ k = x * numel post + ravel post b.
Proof.
  intros Ho Hk. exists (k / numel post), (offsetToIndices post k). assert (numel post <> 0) by (destruct (numel post); lia).
  split; [apply Nat.div_lt_upper_bound; lia|]. rewrite o2i_mod by auto.
  split; [apply o2i_valid; apply Nat.mod_upper_bound; auto|].
  rewrite ravel_o2i by (apply Nat.mod_upper_bound; auto). rewrite (Nat.div_mod k (numel post)) at 1 by auto. lia.
Qed.

Lemma calc_mid pre d post : calcBlockSize (map Z.of_nat (pre ++ d :: post)) (S (length pre)) (length (map Z.of_nat (pre ++ d :: post))) = Z.of_nat (numel post)
  /\ calcBlockSize (map Z.of_nat (pre ++ d :: post)) 0 (length pre) = Z.of_nat (numel pre).
Proof.
  unfold calcBlockSize. split.
  - replace (skipn (S (length pre)) (map Z.of_nat (pre ++ d :: post))) with (map Z.of_nat post).
    + rewrite firstn_all2; [apply numelZ_of_nat|]. rewrite !map_length, app_length. simpl. lia.
    + rewrite map_app. change (S (length pre)) with (1 + length pre). rewrite Nat.add_comm.
      rewrite <- (map_length Z.of_nat pre). rewrite skipn_app. rewrite skipn_all2 by lia.
      replace (length (map Z.of_nat pre) + 1 - length (map Z.of_nat pre)) with 1 by lia. reflexivity.
  - simpl skipn. rewrite Nat.sub_0_r. rewrite map_app. rewrite <- (map_length Z.of_nat pre). rewrite firstn_app, firstn_all, Nat.sub_diag.
    simpl firstn. rewrite app_nil_r. apply numelZ_of_nat.
Qed.
Lemma set_nth_of_nat sh i v : set_nth (map Z.of_nat sh) i (Z.of_nat v) = map Z.of_nat (set_nth sh i v).
Proof. revert i. induction sh as [|x sh IH]; intros [|i]; simpl; auto. rewrite IH. auto. Qed.
Lemma stridesZ_cons d l : stridesZ (d :: l) = numelZ l :: stridesZ l.
Proof.
  unfold stridesZ. simpl. f_equal. rewrite numelZ_prod. induction l as [|x l IH]; simpl; auto. rewrite IH. lia.
Qed.

Lemma memcpyS_nat {A} (b : list (option A)) dst s from n : memcpyS b (Z.of_nat dst) s (Z.of_nat from) (Z.of_nat n)
  = loop (seq 0 n) b (fun b k => obind (srd s (Z.of_nat (from + k))) (fun x => put b (dst + k) x)).
Proof.
  unfold memcpyS. replace (Z.of_nat n <? 0)%Z with false by lia. rewrite Nat2Z.id. apply loop_ext. intros b' k _.
  replace (Z.of_nat from + Z.of_nat k)%Z with (Z.of_nat (from + k)) by lia. destruct (srd s _); simpl; auto.
  replace (Z.of_nat dst + Z.of_nat k <? 0)%Z with false by lia. f_equal. lia.
Qed.

Lemma cutCopy_correct {A} (s : sten A) pre d post F st len : holds s (pre ++ d :: post) F -> st + len <= d ->
  exists p, cutCopy s (length pre) (Z.of_nat st) (Z.of_nat len) = Ok p /\ holds p (pre ++ len :: post) (piece (length pre) st F).
Proof.
  intros H Hl. apply holds_inv in H. destruct H as (ES & _ & HR). unfold cutCopy. cbv zeta. rewrite ES.
  destruct (calc_mid pre d post) as [-> ->]. rewrite set_nth_of_nat, set_nth_mid. rewrite !numelZ_of_nat.
  replace (Z.of_nat _ <? 0)%Z with false by lia. rewrite !Nat2Z.id.
  assert (EN : nth (length pre) (map Z.of_nat (pre ++ d :: post)) 0%Z = Z.of_nat d).
  { change 0%Z with (Z.of_nat 0). rewrite map_nth, app_nth2, Nat.sub_diag by lia. reflexivity. }
  rewrite EN. set (sh' := pre ++ len :: post). set (inner := numel post).
  rewrite (loop_ext _ _ (fun b o => loop (seq 0 (len * inner)) b (fun b k =>
     obind (srd s (Z.of_nat (o * d * inner + st * inner + k))) (fun x => put b (o * len * inner + k) x)))).
  2:{ intros b o _. rewrite <- memcpyS_nat. f_equal; lia. }
  rewrite (loop_nest (fun _ => seq 0 (len * inner)) _ (fun b o k =>
     obind (srd s (Z.of_nat (o * d * inner + st * inner + k))) (fun x => put b (o * len * inner + k) x))).
  pose proof (fill_tensor (flat_map (fun o => map (pair o) (seq 0 (len * inner))) (seq 0 (numel pre)))
    (fun p => offsetToIndices sh' (fst p * (len * inner) + snd p)) (piece (length pre) st F) sh'
    (fun b p => obind (srd s (Z.of_nat (fst p * d * inner + st * inner + snd p))) (fun x => put b (fst p * len * inner + snd p) x))) as FT.
  assert (NE : numel sh' = numel pre * (len * inner)) by (unfold sh', inner; rewrite numel_app, numel_cons; auto).
  assert (HB : forall p, In p (flat_map (fun o => map (pair o) (seq 0 (len * inner))) (seq 0 (numel pre))) ->
     fst p < numel pre /\ snd p < len * inner).
  { intros p Hp. apply flat_map_pair_in in Hp. destruct Hp as [Hp1 Hp2]. apply in_seq in Hp1, Hp2. lia. }
  assert (E : finish sh' (loop (flat_map (fun o => map (pair o) (seq 0 (len * inner))) (seq 0 (numel pre))) (fresh (numel sh'))
    (fun b p => obind (srd s (Z.of_nat (fst p * d * inner + st * inner + snd p))) (fun x => put b (fst p * len * inner + snd p) x)))
    = Ok (tensor_of sh' (piece (length pre) st F))).
  { apply FT.
    - intros b [o k] Hp _. destruct (HB _ Hp) as [Ho Hk]. cbn [fst snd] in *.
      rewrite ravel_o2i by (rewrite NE; nia).
      destruct (block_idx pre len post o k Ho Hk) as (x & q & Hx & Vq & Ek).
      pose proof (o2i_valid pre o Ho) as Va. pose proof (ravel_o2i pre o Ho) as Ea. set (a := offsetToIndices pre o) in *.
      replace (o * d * inner + st * inner + k) with (ravel pre a * (d * numel post) + (x + st) * numel post + ravel post q) by (fold inner in Ek |- *; nia).
      assert (V2 : valid (pre ++ d :: post) (a ++ (x + st) :: q)) by (apply valid_mid; exists a, (x + st), q; repeat split; auto; lia).
      pose proof (ravel_lt _ _ V2) as RL. rewrite ravel_mid in RL by (apply (valid_length _ _ Va)).
      rewrite HR by auto. cbn [obind]. rewrite o2i_mid by (auto; lia).
      f_equal; [nia|].
      replace (o * (len * inner) + k) with (ravel pre a * (len * numel post) + x * numel post + ravel post q) by (fold inner in Ek |- *; nia).
      unfold sh'. rewrite o2i_mid by auto. unfold piece. f_equal. rewrite <- (valid_length _ _ Va). rewrite shift_app. auto.
    - intros p Hp. apply HB in Hp. apply o2i_valid. rewrite NE. nia.
    - intros idx V. pose proof (ravel_lt _ _ V) as RL. rewrite NE in RL. assert (len * inner <> 0) by nia.
      exists (ravel sh' idx / (len * inner), ravel sh' idx mod (len * inner)). cbn [fst snd].
      split.
      + apply flat_map_pair_in. cbn [fst snd]. split; apply in_seq.
        * split; [apply Nat.le_0_l|]. apply Nat.div_lt_upper_bound; nia.
        * pose proof (Nat.mod_upper_bound (ravel sh' idx) (len * inner)) as H0. split; [apply Nat.le_0_l|apply H0; auto].
      + rewrite Nat.mul_comm, <- Nat.div_mod by auto. apply o2i_ravel; auto. }
  unfold finish in E. destruct (obind _ seqopt) as [dd|]; [|discriminate]. injection E as E.
  eexists. split; [reflexivity|].
  assert (dd = tdata (tensor_of sh' (piece (length pre) st F))) as -> by (unfold tensor_of; cbn [tdata]; auto).
  apply fresh_holds.
Qed.

Lemma cut_correct {A} esz (s : sten A) pre d post F st len : (1 <= esz)%Z -> holds s (pre ++ d :: post) F -> st + len <= d ->
  exists p, cut esz s (length pre) (Z.of_nat st) (Z.of_nat len) = Ok p /\ holds p (pre ++ len :: post) (piece (length pre) st F).
Proof.
  intros He H Hl. unfold cut. destruct (length pre) as [|n] eqn:EL.
  2:{ rewrite <- EL. eapply cutCopy_correct; eauto. }
  destruct pre; [|discriminate]. clear EL. simpl app in *.
  apply holds_inv in H. destruct H as (ES & [I1 I2] & HR). rewrite ES in *. rewrite set_nth_of_nat. cbn [set_nth].
  assert (Enth : nth 0 (stridesZ (map Z.of_nat (d :: post))) 0%Z = Z.of_nat (numel post)).
  { cbn [map]. rewrite stridesZ_cons. cbn [nth]. apply numelZ_of_nat. }
  rewrite Enth. unfold mkview, view_check. rewrite numelZ_of_nat in I2. rewrite numel_cons in I2.
  rewrite numelZ_of_nat, numel_cons.
  assert (Z.of_nat st * Z.of_nat (numel post) + Z.of_nat (len * numel post) <= Z.of_nat (d * numel post))%Z by nia.
  set (off := (soff s + Z.of_nat st * Z.of_nat (numel post))%Z).
  assert (0 <= off)%Z by (unfold off; nia).
  assert (off + Z.of_nat (len * numel post) <= Z.of_nat (length (sstore s)))%Z by (unfold off; lia).
  replace (_ <=? _)%Z with true by (symmetry; apply Z.leb_le; nia).
  eexists. split; [reflexivity|]. apply holds_intro; auto.
  - split; cbn [soff sshape sstore]; auto. rewrite numelZ_of_nat, numel_cons. auto.
  - rewrite numel_cons. intros k Hk. destruct (block_idx [] len post 0 k) as (x & q & Hx & Vq & Ek); auto.
    unfold srd. cbn [soff sstore]. unfold off.
    replace (soff s + Z.of_nat st * Z.of_nat (numel post) + Z.of_nat k)%Z with (soff s + Z.of_nat ((x + st) * numel post + ravel post q))%Z by nia.
    assert (RL : (x + st) * numel post + ravel post q < d * numel post) by (pose proof (ravel_lt _ _ Vq); nia).
    fold (srd s (Z.of_nat ((x + st) * numel post + ravel post q))).
    rewrite HR by (rewrite numel_cons; auto).
    pose proof (o2i_mid [] d post [] (x + st) q (Forall2_nil _) ltac:(lia) Vq) as E1. rewrite ravel_nil in E1. simpl app in E1. simpl Nat.mul in E1. simpl Nat.add in E1.
    rewrite E1. rewrite Ek.
    pose proof (o2i_mid [] len post [] x q (Forall2_nil _) ltac:(lia) Vq) as E2. rewrite ravel_nil in E2. simpl app in E2. simpl Nat.mul in E2. simpl Nat.add in E2.
    rewrite E2. reflexivity.
Qed.

Lemma list_split_at (sh : list nat) d : d < length sh -> exists pre x post, sh = pre ++ x :: post /\ length pre = d.
Proof.
  intro H. exists (firstn d sh), (nth d sh 0), (skipn (S d) sh). split.
  - rewrite <- (firstn_skipn d sh) at 1. f_equal. revert sh H. induction d; intros [|y sh] H; simpl in *; try lia; auto. apply IHd. lia.
  - apply firstn_length_le. lia.
Qed.
Lemma holds_rank {A} (s : sten A) sh F : holds s sh F -> rank s = length sh.
Proof. intro H. apply holds_inv in H. destruct H as (E & _). unfold rank. rewrite E, map_length. auto. Qed.

(** * Sequences of pieces *)
Lemma splitFrom_correct {A} esz (s : sten A) pre d post F : (1 <= esz)%Z -> holds s (pre ++ d :: post) F ->
  forall secs st, st + list_sum secs <= d ->
  exists ps, splitFrom esz s (length pre) (Z.of_nat st) (map Z.of_nat secs) = Ok ps /\ length ps = length secs
  /\ forall i p, nth_error ps i = Some p -> holds p (pre ++ nth i secs 0 :: post) (piece (length pre) (st + start_of secs i) F).
Proof.
  intros He H. induction secs as [|l secs IH]; intros st Hs; cbn [map splitFrom].
  - exists []. split; auto. split; auto. intros [|i] p E; discriminate.
  - change (list_sum (l :: secs)) with (l + list_sum secs) in Hs.
    destruct (cut_correct esz s pre d post F st l He H ltac:(lia)) as (p & -> & Hp). cbn [rbind].
    replace (Z.of_nat st + Z.of_nat l)%Z with (Z.of_nat (st + l)) by lia.
    destruct (IH (st + l) ltac:(lia)) as (ps & -> & L & Hps). cbn [rbind]. exists (p :: ps). split; auto. split; [simpl; auto|].
    intros [|i] q E; cbn [nth_error] in E.
    + injection E as <-. cbn [nth]. unfold start_of. cbn [firstn list_sum fold_right]. rewrite Nat.add_0_r. auto.
    + cbn [nth]. unfold start_of. cbn [firstn]. change (list_sum (l :: firstn i secs)) with (l + list_sum (firstn i secs)).
      rewrite Nat.add_assoc. apply Hps. auto.
Qed.
Lemma fold_left_addZ l : forall a, fold_left Z.add (map Z.of_nat l) (Z.of_nat a) = Z.of_nat (a + list_sum l).
Proof.
  induction l as [|x l IH]; intro a; simpl; [f_equal; lia|]. replace (Z.of_nat a + Z.of_nat x)%Z with (Z.of_nat (a + x)) by lia.
  rewrite IH. f_equal. unfold list_sum. lia.
Qed.
Lemma at_dim sh dim k : dim_is (length sh) dim k ->
  at_ (map Z.of_nat sh) (if (dim <? 0)%Z then (dim + Z.of_nat (length sh))%Z else dim) = Some (Z.of_nat (nth k sh 0))
  /\ axis (length sh) dim = Some k.
Proof.
  intros [Hk Hd]. split; [|apply axis_some; auto].
  replace (if (dim <? 0)%Z then (dim + Z.of_nat (length sh))%Z else dim) with (Z.of_nat k) by (destruct (Z.ltb_spec dim 0); lia).
  unfold at_. replace (Z.of_nat k <? 0)%Z with false by lia. rewrite Nat2Z.id, nth_error_map.
  rewrite (nth_error_nth' sh 0) by auto. auto.
Qed.
Lemma splitDetail_correct {A} esz (s : sten A) sh F dim k secs : (1 <= esz)%Z -> holds s sh F -> dim_is (length sh) dim k ->
  list_sum secs = nth k sh 0 ->
  exists ps, splitDetail esz s (map Z.of_nat secs) dim = Ok ps /\ are_pieces ps sh F k secs.
Proof.
  intros He H Hd Hs. unfold splitDetail. rewrite (holds_rank _ _ _ H). rewrite (proj2 (at_dim _ _ _ Hd)).
  destruct Hd as [Hk _]. destruct (list_split_at sh k Hk) as (pre & d & post & -> & <-).
  rewrite app_nth2, Nat.sub_diag in Hs by lia. cbn [nth] in Hs.
  destruct (splitFrom_correct esz s pre d post F He H secs 0 ltac:(lia)) as (ps & E & L & HP).
  change 0%Z with (Z.of_nat 0). rewrite E. exists ps. split; auto. split; auto. intros i p Hi. unfold piece_shape. rewrite set_nth_mid. apply (HP i p Hi).
Qed.
Lemma splitSections_correct {A} esz (s : sten A) sh F dim k secs : (1 <= esz)%Z -> holds s sh F -> dim_is (length sh) dim k ->
  list_sum secs = nth k sh 0 ->
  exists ps, splitSections esz s (map Z.of_nat secs) dim = Ok ps /\ are_pieces ps sh F k secs.
Proof.
  intros He H Hd Hs. unfold splitSections. rewrite (holds_rank _ _ _ H). pose proof (holds_inv _ _ _ H) as (ES & _). rewrite ES.
  rewrite (proj1 (at_dim _ _ _ Hd)). change 0%Z with (Z.of_nat 0) at 1. rewrite fold_left_addZ, Nat.add_0_l, Hs, Z.eqb_refl. cbn [negb].
  apply splitDetail_correct; auto.
Qed.
Lemma list_sum_repeat n k : list_sum (repeat n k) = k * n.
Proof. induction k as [|k IH]; auto. change (list_sum (repeat n (S k))) with (n + list_sum (repeat n k)). rewrite IH. reflexivity. Qed.
Lemma repeat_map {A B} (f : A -> B) x n : repeat (f x) n = map f (repeat x n).
Proof. induction n; simpl; congruence. Qed.
Lemma split_correct {A} esz (s : sten A) sh F dim k n : (1 <= esz)%Z -> holds s sh F -> dim_is (length sh) dim k ->
  0 < n -> nth k sh 0 mod n = 0 ->
  exists ps, split esz s (Z.of_nat n) dim = Ok ps /\ are_pieces ps sh F k (repeat n (nth k sh 0 / n)).
Proof.
  intros He H Hd Hn Hm. unfold split. rewrite (holds_rank _ _ _ H). pose proof (holds_inv _ _ _ H) as (ES & _). rewrite ES.
  rewrite (proj1 (at_dim _ _ _ Hd)).
  replace (Z.of_nat n <=? 0)%Z with false by lia. rewrite Z.rem_mod_nonneg by lia. rewrite <- Nat2Z.inj_mod, Hm. cbn [orb negb Z.eqb Z.of_nat].
  rewrite Z.quot_div_nonneg by lia. rewrite <- Nat2Z.inj_div, Nat2Z.id, repeat_map.
  apply splitDetail_correct; auto. rewrite list_sum_repeat. rewrite Nat.mul_comm. symmetry. apply Nat.div_exact; lia.
Qed.

(** * chunk *)
Lemma chunkLoop_split {A} esz (s : sten A) dim d c : 0 < c -> forall n st, st <= d -> d - st <= n * c ->
  chunkLoop esz s dim (Z.of_nat d) (Z.of_nat c) n (Z.of_nat st)
  = splitFrom esz s dim (Z.of_nat st) (map Z.of_nat (repeat c ((d - st) / c) ++ (if (d - st) mod c =? 0 then [] else [(d - st) mod c]))).
Proof.
  intro Hc. induction n as [|n IH]; intros st H1 H2.
  - replace (d - st) with 0 by lia. rewrite Nat.div_small, Nat.mod_small by lia. reflexivity.
  - cbn [chunkLoop]. destruct (Nat.eq_dec (d - st) 0) as [E0|E0].
    + rewrite E0, Nat.div_small, Nat.mod_small by lia. cbn [repeat app map splitFrom Nat.eqb].
      replace (Z.min (Z.of_nat st + Z.of_nat c) (Z.of_nat d) - Z.of_nat st <=? 0)%Z with true by lia. reflexivity.
    + destruct (Nat.lt_ge_cases (d - st) c) as [Hlt|Hge].
      * rewrite Nat.div_small, Nat.mod_small by lia. replace (d - st =? 0) with false by lia. cbn [repeat app map splitFrom].
        replace (Z.min (Z.of_nat st + Z.of_nat c) (Z.of_nat d)) with (Z.of_nat d) by lia.
        replace (Z.of_nat d - Z.of_nat st <=? 0)%Z with false by lia. replace (Z.of_nat d - Z.of_nat st)%Z with (Z.of_nat (d - st)) by lia.
        rewrite IH by lia. rewrite Nat.sub_diag, Nat.div_small, Nat.mod_small by lia. cbn [repeat app map splitFrom Nat.eqb]. reflexivity.
      * replace (Z.min (Z.of_nat st + Z.of_nat c) (Z.of_nat d)) with (Z.of_nat (st + c)) by lia.
        replace (Z.of_nat (st + c) - Z.of_nat st <=? 0)%Z with false by lia. replace (Z.of_nat (st + c) - Z.of_nat st)%Z with (Z.of_nat c) by lia.
        rewrite IH by lia.
        assert (ED : (d - st) / c = S ((d - (st + c)) / c)).
        { replace (d - st) with (d - (st + c) + 1 * c) by lia. rewrite Nat.div_add by lia. lia. }
        assert (EM : (d - st) mod c = (d - (st + c)) mod c).
        { replace (d - st) with (d - (st + c) + 1 * c) by lia. rewrite Nat.mod_add by lia. auto. }
        rewrite ED, EM. cbn [repeat app map splitFrom]. replace (Z.of_nat st + Z.of_nat c)%Z with (Z.of_nat (st + c)) by lia. reflexivity.
Qed.
Lemma ceil_ge d n : 0 < n -> d <= n * ceil_div d n.
Proof.
  intro H. unfold ceil_div. pose proof (Nat.div_mod (d + n - 1) n ltac:(lia)). pose proof (Nat.mod_upper_bound (d + n - 1) n ltac:(lia)). lia.
Qed.
Lemma chunk_sizes_sum d n : 0 < d -> 0 < n -> list_sum (chunk_sizes d n) = d.
Proof.
  intros Hd Hn. unfold chunk_sizes. cbv zeta. set (c := ceil_div d (Nat.min n d)).
  assert (0 < c). { pose proof (ceil_ge d (Nat.min n d) ltac:(lia)). fold c in H. destruct c; lia. }
  rewrite list_sum_app, list_sum_repeat. pose proof (Nat.div_mod d c ltac:(lia)).
  destruct (Nat.eqb_spec (d mod c) 0); simpl; lia.
Qed.
Lemma chunk_sizes_length d n : 0 < d -> 0 < n -> length (chunk_sizes d n) <= n /\ 0 < length (chunk_sizes d n).
Proof.
  intros Hd Hn. unfold chunk_sizes. cbv zeta. pose proof (ceil_ge d (Nat.min n d) ltac:(lia)) as HC. set (c := ceil_div d (Nat.min n d)) in *.
  assert (0 < c) by (destruct c; lia).
  rewrite app_length, repeat_length. pose proof (Nat.div_mod d c ltac:(lia)).
  assert (Hm : Nat.min n d <= n) by lia. clearbody c.
  remember (Nat.min n d) as m. remember (d / c) as q. remember (d mod c) as r. clear Heqm Heqq Heqr.
  destruct (Nat.eqb_spec r 0); simpl length; split.
  - destruct (Nat.lt_ge_cases n q); [|lia]. exfalso. nia.
  - destruct q; nia.
  - destruct (Nat.lt_ge_cases q n); [lia|]. exfalso. nia.
  - lia.
Qed.
Lemma chunk_correct {A} esz (s : sten A) sh F dim k n : (1 <= esz)%Z -> holds s sh F -> dim_is (length sh) dim k ->
  0 < n -> 0 < nth k sh 0 ->
  exists ps, chunk esz s (Z.of_nat n) dim = Ok ps /\ are_pieces ps sh F k (chunk_sizes (nth k sh 0) n).
Proof.
  intros He H Hd Hn Hs. unfold chunk. rewrite (holds_rank _ _ _ H). pose proof (holds_inv _ _ _ H) as (ES & _). rewrite ES.
  rewrite (proj2 (at_dim _ _ _ Hd)). replace (Z.of_nat n <=? 0)%Z with false by lia. cbv zeta.
  assert (EN : nth k (map Z.of_nat sh) 0%Z = Z.of_nat (nth k sh 0)) by (change 0%Z with (Z.of_nat 0); apply map_nth).
  rewrite EN. set (d := nth k sh 0) in *. rewrite <- Nat2Z.inj_min.
  replace (Z.of_nat (Nat.min n d) =? 0)%Z with false by lia.
  replace (Z.of_nat d + Z.of_nat (Nat.min n d) - 1)%Z with (Z.of_nat (d + Nat.min n d - 1)) by lia.
  rewrite Z.quot_div_nonneg by lia. rewrite <- Nat2Z.inj_div, Nat2Z.id. fold (ceil_div d (Nat.min n d)).
  pose proof (ceil_ge d (Nat.min n d) ltac:(lia)) as HC.
  assert (0 < ceil_div d (Nat.min n d)) by (destruct (ceil_div d (Nat.min n d)); lia).
  change 0%Z with (Z.of_nat 0). rewrite chunkLoop_split by lia. rewrite Nat.sub_0_r.
  pose proof (splitDetail_correct esz s sh F dim k (chunk_sizes d n) He H Hd (chunk_sizes_sum d n Hs Hn)) as Q.
  unfold splitDetail in Q. rewrite (holds_rank _ _ _ H) in Q. rewrite (proj2 (at_dim _ _ _ Hd)) in Q. exact Q.
Qed.

(** * narrow *)
Lemma narrow_correct {A} esz (s : sten A) sh F dim k st len : (1 <= esz)%Z -> holds s sh F -> dim_is (length sh) dim k ->
  forall start, start = Z.of_nat st \/ start = (Z.of_nat st - Z.of_nat (nth k sh 0%nat))%Z -> st < nth k sh 0 -> st + len <= nth k sh 0 ->
  exists p, narrow esz s dim start (Z.of_nat len) = Ok p /\ holds p (piece_shape sh k len) (piece k st F).
Proof.
  intros He H Hd start Hst Hlt Hle. unfold narrow. rewrite (holds_rank _ _ _ H). pose proof (holds_inv _ _ _ H) as (ES & _). rewrite ES.
  rewrite (proj2 (at_dim _ _ _ Hd)). cbv zeta.
  assert (EN : nth k (map Z.of_nat sh) 0%Z = Z.of_nat (nth k sh 0%nat)) by (change 0%Z with (Z.of_nat 0); apply map_nth).
  rewrite EN. replace (if (start <? 0)%Z then (start + Z.of_nat (nth k sh 0%nat))%Z else start) with (Z.of_nat st) by (destruct (Z.ltb_spec start 0); lia).
  replace ((0 <=? Z.of_nat st) && (Z.of_nat st <? Z.of_nat (nth k sh 0%nat)))%Z with true by lia.
  replace ((0 <=? Z.of_nat len) && (Z.of_nat st + Z.of_nat len <=? Z.of_nat (nth k sh 0%nat)))%Z with true by lia. cbn [negb].
  destruct Hd as [Hk _]. destruct (list_split_at sh k Hk) as (pre & d & post & -> & <-).
  rewrite app_nth2, Nat.sub_diag in * by lia. cbn [nth] in *. unfold piece_shape. rewrite set_nth_mid. eapply cut_correct; eauto.
Qed.
Lemma narrow_rejects {A} esz (s : sten A) sh F dim k start len : holds s sh F -> dim_is (length sh) dim k ->
  let d := Z.of_nat (nth k sh 0%nat) in let st := (if start <? 0 then start + d else start)%Z in
  (st < 0 \/ d <= st \/ len < 0 \/ d < st + len)%Z -> narrow esz s dim start len = Fail.
Proof.
  intros H Hd d st Hbad. unfold narrow. rewrite (holds_rank _ _ _ H). pose proof (holds_inv _ _ _ H) as (ES & _). rewrite ES.
  rewrite (proj2 (at_dim _ _ _ Hd)). cbv zeta.
  assert (EN : nth k (map Z.of_nat sh) 0%Z = d) by (change 0%Z with (Z.of_nat 0); apply map_nth).
  rewrite EN. fold st.
  destruct (Z.leb_spec 0 st), (Z.ltb_spec st d), (Z.leb_spec 0 len), (Z.leb_spec (st + len) d); simpl; auto; lia.
Qed.
