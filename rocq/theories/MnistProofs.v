(* Reading MNIST files. *)
From Coq Require Import List Arith ZArith Bool Lia Reals.
From Verif Require Import ShapeModel ShapeSpec ShapeProofs TensorModel TensorSpec TensorLemmas BcastModel BufModel CutModel MnistModel MnistSpec.
Import ListNotations.
Local Open Scope nat_scope.

Lemma be32_length n : length (be32 n) = 4. Proof. reflexivity. Qed.
Lemma digits n : (0 <= n < 2 ^ 32)%Z -> (n / 2 ^ 24 * 2 ^ 24 + (n / 2 ^ 16) mod 256 * 2 ^ 16 + (n / 2 ^ 8) mod 256 * 2 ^ 8 + n mod 256 = n)%Z.
Proof.
  intros H. change (2 ^ 8)%Z with 256%Z. change (2 ^ 16)%Z with (256 * 256)%Z. change (2 ^ 24)%Z with (256 * 256 * 256)%Z.
  rewrite <- !Z.div_div by lia. set (a := (n / 256)%Z). set (b := (a / 256)%Z). set (c := (b / 256)%Z).
  pose proof (Z.div_mod n 256). pose proof (Z.div_mod a 256). pose proof (Z.div_mod b 256). fold a in H0. fold b in H1. fold c in H2. lia.
Qed.
Lemma wrap32_id n : (- 2 ^ 31 <= n < 2 ^ 31)%Z -> wrap32 n = n.
Proof. intros H. unfold wrap32. rewrite Z.mod_small by lia. lia. Qed.
Lemma toInt32_be32 n : (0 <= n < 2 ^ 31)%Z -> toInt32 (map Some (be32 n)) = Some n.
Proof. intros H. unfold toInt32, be32. cbn [map]. rewrite digits by lia. rewrite wrap32_id by lia. reflexivity. Qed.

Lemma readInto_full bs rest dst : length bs = length dst -> readInto (mkStream (bs ++ rest) false) (length bs) dst = (mkStream rest false, map Some bs).
Proof.
  intros L. unfold readInto. cbn [failed left]. rewrite firstn_app, skipn_app, Nat.sub_diag, firstn_all, skipn_all. cbn [firstn skipn app]. rewrite app_nil_r, Nat.ltb_irrefl.
  rewrite skipn_all2 by lia. rewrite app_nil_r. reflexivity.
Qed.
Lemma readInt_be32 {T} n rest p (k : stream -> list (option Z) -> Z -> res T) : (0 <= n < 2 ^ 31)%Z -> length p = 4 ->
  readInt (mkStream (be32 n ++ rest) false) p k = k (mkStream rest false) (map Some (be32 n)) n.
Proof.
  intros H L. unfold readInt. rewrite <- (be32_length n) at 1. rewrite readInto_full by (rewrite L; apply be32_length). rewrite toInt32_be32 by exact H. reflexivity.
Qed.
Lemma defined_some {A} (l : list A) : defined (map Some l) = Some l.
Proof. induction l as [|x l IH]; [reflexivity|]. cbn. rewrite IH. reflexivity. Qed.

Definition scaled (img : list Z) : list R := map (fun d => (IZR d / 255)%R) img.
Lemma readImages_more : forall imgs n extra rest tmp, 0 < n -> length tmp = n -> Forall (fun im => length im = n) imgs ->
  readImages (length imgs + extra) n (mkStream (List.concat imgs ++ rest) false) tmp
  = rbind (readImages extra n (mkStream rest false) (match rev imgs with [] => tmp | im :: _ => map Some im end)) (fun l => Ok (map scaled imgs ++ l)).
Proof.
  induction imgs as [|im imgs IH]; intros n extra rest tmp Hn Lt HF.
  - cbn [length Nat.add List.concat app rev map]. destruct (readImages extra n _ tmp); reflexivity.
  - inversion_clear HF as [|? ? Li HF']. cbn [length Nat.add readImages List.concat]. rewrite <- app_assoc. rewrite <- Li at 1. rewrite readInto_full by lia. rewrite (proj2 (Nat.eqb_neq n 0)) by lia.
    rewrite defined_some. rewrite (IH n extra rest (map Some im)); [|exact Hn|rewrite map_length; exact Li|exact HF'].
    assert (E : match rev (im :: imgs) with [] => tmp | x :: _ => map Some x end = match rev imgs with [] => map Some im | x :: _ => map Some x end).
    { cbn [rev]. destruct (rev imgs); reflexivity. }
    rewrite E. destruct (readImages extra n _ _); reflexivity.
Qed.
Lemma readImages_all imgs n rest tmp : 0 < n -> length tmp = n -> Forall (fun im => length im = n) imgs ->
  readImages (length imgs) n (mkStream (List.concat imgs ++ rest) false) tmp = Ok (map scaled imgs).
Proof.
  intros Hn Lt HF. rewrite <- (Nat.add_0_r (length imgs)). rewrite readImages_more by assumption. cbn [readImages rbind]. rewrite app_nil_r. reflexivity.
Qed.
Lemma readImages_stuck : forall extra n im f rest, 0 < n -> length im = n -> (f = false -> rest = []) -> readImages extra n (mkStream rest f) (map Some im) = Ok (repeat (scaled im) extra).
Proof.
  induction extra as [|e IH]; intros n im f rest Hn L HR; [reflexivity|]. cbn [readImages].
  assert (E : readInto (mkStream rest f) n (map Some im) = (mkStream rest true, map Some im)).
  { unfold readInto. cbn [failed left]. destruct f; [reflexivity|]. rewrite (HR eq_refl). rewrite firstn_nil, skipn_nil. cbn [length skipn map app]. rewrite (proj2 (Nat.ltb_lt 0 n)) by exact Hn. reflexivity. }
  rewrite E. rewrite (proj2 (Nat.eqb_neq n 0)) by lia. rewrite defined_some. rewrite IH by (auto; discriminate). reflexivity.
Qed.
Lemma load_more h w imgs extra rest : 0 < h * w -> (Z.of_nat (length imgs + extra) < 2 ^ 31)%Z -> (Z.of_nat h < 2 ^ 31)%Z -> (Z.of_nat w < 2 ^ 31)%Z -> (Z.of_nat (h * w) < 2 ^ 31)%Z ->
  Forall (fun im => length im = h * w) imgs ->
  loadImages (Some (image_header (length imgs + extra) h w ++ List.concat imgs ++ rest))
  = rbind (readImages (length imgs + extra) (h * w) (mkStream (List.concat imgs ++ rest) false) (repeat None (h * w))) (fun l => Ok (l, Z.of_nat h, Z.of_nat w)).
Proof.
  intros Hn Ln Lh Lw Lp HF. unfold loadImages, image_header. rewrite <- !app_assoc.
  rewrite readInt_be32 by (try reflexivity; lia). cbn [Z.eqb Pos.eqb negb].
  rewrite readInt_be32 by (try reflexivity; lia). destruct (Z.ltb_spec (Z.of_nat (length imgs + extra)) 0); [lia|].
  rewrite readInt_be32 by (try reflexivity; lia). rewrite readInt_be32 by (try reflexivity; lia). cbv zeta. rewrite <- Nat2Z.inj_mul.
  destruct (Z.ltb_spec (Z.of_nat (h * w)) (- 2 ^ 31)); [lia|]. destruct (Z.leb_spec (2 ^ 31) (Z.of_nat (h * w))); [lia|]. cbn [orb].
  destruct (Z.ltb_spec (Z.of_nat (h * w)) 0); [lia|]. rewrite !Nat2Z.id. reflexivity.
Qed.
Lemma load_ok h w imgs rest : 0 < h * w -> (Z.of_nat (length imgs) < 2 ^ 31)%Z -> (Z.of_nat h < 2 ^ 31)%Z -> (Z.of_nat w < 2 ^ 31)%Z -> (Z.of_nat (h * w) < 2 ^ 31)%Z ->
  Forall (fun im => length im = h * w) imgs ->
  loadImages (Some (image_file h w imgs ++ rest)) = Ok (map scaled imgs, Z.of_nat h, Z.of_nat w).
Proof.
  intros Hn Ln Lh Lw Lp HF. unfold image_file. rewrite <- app_assoc. pose proof (load_more h w imgs 0 rest) as E. rewrite Nat.add_0_r in E. rewrite E by assumption.
  rewrite readImages_all by (try assumption; apply repeat_length). reflexivity.
Qed.
Lemma load_truncated h w imgs im extra : 0 < h * w -> (Z.of_nat (length (imgs ++ [im]) + extra) < 2 ^ 31)%Z -> (Z.of_nat h < 2 ^ 31)%Z -> (Z.of_nat w < 2 ^ 31)%Z -> (Z.of_nat (h * w) < 2 ^ 31)%Z ->
  Forall (fun im => length im = h * w) (imgs ++ [im]) ->
  loadImages (Some (image_header (length (imgs ++ [im]) + extra) h w ++ List.concat (imgs ++ [im]))) = Ok (map scaled (imgs ++ [im]) ++ repeat (scaled im) extra, Z.of_nat h, Z.of_nat w).
Proof.
  intros Hn Ln Lh Lw Lp HF. pose proof (load_more h w (imgs ++ [im]) extra []) as E. rewrite app_nil_r in E. rewrite E by assumption.
  rewrite <- (app_nil_r (List.concat (imgs ++ [im]))). rewrite readImages_more by (try assumption; apply repeat_length). rewrite rev_app_distr. cbn [rev app].
  apply Forall_app in HF as [_ HF]. inversion_clear HF as [|? ? Li _]. rewrite readImages_stuck by auto. reflexivity.
Qed.

Lemma readLabels_all : forall ls rest p, length p = 4 -> readLabels (length ls) (mkStream (ls ++ rest) false) p = Ok ls.
Proof.
  induction ls as [|d ls IH]; intros rest p L; [reflexivity|]. cbn [length readLabels].
  destruct p as [|x p]; [discriminate|]. cbn [readInto failed left app firstn length Nat.ltb Nat.leb skipn map]. unfold readInto. cbn [failed left app firstn length Nat.ltb Nat.leb skipn map].
  rewrite (IH rest) by (cbn in *; lia). reflexivity.
Qed.
Lemma labels_ok ls rest : (Z.of_nat (length ls) < 2 ^ 31)%Z -> loadLabels (Some (label_file ls ++ rest)) = Ok ls.
Proof.
  intros Ln. unfold loadLabels, label_file, label_header. rewrite <- !app_assoc. rewrite readInt_be32 by (try reflexivity; lia). cbn [Z.eqb Pos.eqb negb].
  rewrite readInt_be32 by (try reflexivity; lia). destruct (Z.ltb_spec (Z.of_nat (length ls)) 0); [lia|]. rewrite Nat2Z.id. apply readLabels_all. reflexivity.
Qed.

Lemma magic m f : (- 2 ^ 31 <= m < 2 ^ 31)%Z -> forall b, length b = 4 -> toInt32 (map Some b) = Some m ->
  (m <> 2051%Z -> loadImages (Some (b ++ f)) = Fail) /\ (m <> 2049%Z -> loadLabels (Some (b ++ f)) = Fail).
Proof.
  intros Hm b L E. assert (R : forall T (k : stream -> list (option Z) -> Z -> res T), readInt (mkStream (b ++ f) false) (repeat None 4) k = k (mkStream f false) (map Some b) m).
  { intros T k. unfold readInt. rewrite <- L at 1. rewrite readInto_full by (rewrite repeat_length; exact L). rewrite E. reflexivity. }
  unfold loadImages, loadLabels. rewrite !R. split; intros N.
  - destruct (Z.eqb_spec m 0x803); [contradiction|]. reflexivity.
  - destruct (Z.eqb_spec m 0x801); [contradiction|]. reflexivity.
Qed.

Lemma image_of_length h w P : length (image_of h w P) = h * w.
Proof.
  unfold image_of. assert (G : forall l : list nat, length (flat_map (fun y => map (P y) (seq 0 w)) l) = length l * w).
  { induction l as [|y l IH]; [reflexivity|]. cbn [flat_map]. rewrite app_length, map_length, seq_length, IH. reflexivity. }
  rewrite G, seq_length. reflexivity.
Qed.
Lemma images_of_length n h w P : length (images_of n h w P) = n.
Proof. unfold images_of. rewrite map_length, seq_length. reflexivity. Qed.
Lemma labels_of_length n L : length (labels_of n L) = n.
Proof. unfold labels_of. rewrite map_length, seq_length. reflexivity. Qed.
Lemma images_of_size n h w P : Forall (fun im => length im = h * w) (images_of n h w P).
Proof. apply Forall_forall. intros im H. apply in_map_iff in H as (i & <- & _). apply image_of_length. Qed.
Lemma nth_images n h w P i : i < n -> nth_error (map scaled (images_of n h w P)) i = Some (scaled (image_of h w (P i))).
Proof.
  intros H. unfold images_of. rewrite map_map. rewrite (nth_error_nth' _ (scaled (image_of h w (P 0)))) by (rewrite map_length, seq_length; exact H).
  rewrite (map_nth (fun i => scaled (image_of h w (P i)))). rewrite seq_nth by exact H. reflexivity.
Qed.
Lemma nth_labels n L i : i < n -> nth_error (labels_of n L) i = Some (L i).
Proof.
  intros H. unfold labels_of. rewrite (nth_error_nth' _ (L 0)) by (rewrite map_length, seq_length; exact H). rewrite (map_nth L). rewrite seq_nth by exact H. reflexivity.
Qed.
Lemma map_flat_map {A B C} (g : B -> C) (f : A -> list B) l : map g (flat_map f l) = flat_map (fun x => map g (f x)) l.
Proof. induction l as [|x l IH]; [reflexivity|]. cbn. rewrite map_app, IH. reflexivity. Qed.
Lemma flat_map_single {A B} (f : A -> B) l : flat_map (fun x => [f x]) l = map f l.
Proof. induction l as [|x l IH]; [reflexivity|]. cbn. rewrite IH. reflexivity. Qed.
Lemma image_tensor h w P (g : Z -> R) :
  mkT [1; h; w] (map g (image_of h w P)) = tensor_of [1; h; w] (fun idx => match idx with [_; y; x] => g (P y x) | _ => 0%R end).
Proof.
  unfold tensor_of. f_equal. unfold image_of. cbn [indices seq flat_map map]. rewrite app_nil_r. rewrite map_map, !map_flat_map.
  apply flat_map_ext. intros y. rewrite flat_map_single. rewrite !map_map. reflexivity.
Qed.

Fixpoint tr_size (tr : transform) : nat := match tr with Compose l => S (fold_right (fun t n => tr_size t + n) 0 l) | _ => 1 end.
Lemma process_stages : forall k tr t, tr_size tr <= k -> process tr t = mkT (tshape t) (map (normalized (stages tr)) (tdata t)).
Proof.
  induction k as [|k IH]; intros tr t Hk; [destruct tr; cbn in Hk; lia|]. destruct tr as [|l|mean std].
  - cbn. destruct t as [sh d]. cbn. f_equal. symmetry. unfold normalized. cbn. apply map_id.
  - cbn [process stages]. cbn [tr_size] in Hk. apply le_S_n in Hk. revert t Hk. induction l as [|x l IHl]; intros t Hk.
    + cbn. destruct t as [sh d]. cbn. f_equal. symmetry. apply map_id.
    + cbn [fold_left flat_map]. cbn [fold_right] in Hk. rewrite IHl by lia. rewrite (IH x) by lia. cbn [tshape tdata]. f_equal. rewrite map_map. apply map_ext. intros v.
      unfold normalized. rewrite fold_left_app. reflexivity.
  - cbn. unfold normalized. cbn. reflexivity.
Qed.
Lemma process_of tr sh F : process tr (tensor_of sh F) = tensor_of sh (fun idx => normalized (stages tr) (F idx)).
Proof. rewrite (process_stages (tr_size tr)) by lia. unfold tensor_of. cbn [tshape tdata]. rewrite map_map. reflexivity. Qed.

Lemma open_ok n k h w P L junk1 junk2 : 0 < h * w -> (Z.of_nat n < 2 ^ 31)%Z -> (Z.of_nat k < 2 ^ 31)%Z -> (Z.of_nat h < 2 ^ 31)%Z -> (Z.of_nat w < 2 ^ 31)%Z -> (Z.of_nat (h * w) < 2 ^ 31)%Z ->
  openMnist (Some (image_file h w (images_of n h w P) ++ junk1)) (Some (label_file (labels_of k L) ++ junk2))
  = Ok (mkSet (map scaled (images_of n h w P)) (labels_of k L) (Z.of_nat h) (Z.of_nat w) (Nat.min n k)).
Proof.
  intros Hn Ln Lk Lh Lw Lp. unfold openMnist. rewrite load_ok by (try assumption; try (rewrite images_of_length; assumption); apply images_of_size). cbn [rbind].
  rewrite labels_ok by (rewrite labels_of_length; assumption). cbn [rbind]. rewrite map_length, images_of_length, labels_of_length. reflexivity.
Qed.
Lemma item_ok n k h w P L i tr : i < Nat.min n k ->
  getItem (mkSet (map scaled (images_of n h w P)) (labels_of k L) (Z.of_nat h) (Z.of_nat w) (Nat.min n k)) tr i
  = Ok (tensor_of [1; h; w] (fun idx => match idx with [_; y; x] => normalized (match tr with Some tr => stages tr | None => [] end) (IZR (P i y x) / 255) | _ => normalized (match tr with Some tr => stages tr | None => [] end) 0 end)%R, L i).
Proof.
  intros H. unfold getItem. cbn [images labels height width]. rewrite nth_images, nth_labels by lia. rewrite !Nat2Z.id. unfold scaled.
  rewrite (image_tensor h w (P i) (fun d => (IZR d / 255)%R)). destruct tr as [tr|].
  - rewrite process_of. f_equal. f_equal. apply tensor_of_ext. intros idx V. destruct idx as [|a [|b [|c [|d idx]]]]; reflexivity.
  - reflexivity.
Qed.
