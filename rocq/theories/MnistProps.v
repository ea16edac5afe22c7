(* C82: the MNIST data set gives the images and labels that are in its files. *)
From Coq Require Import List Arith ZArith Bool Lia Reals.
From Verif Require Import ShapeModel ShapeSpec TensorModel TensorSpec BcastModel BufModel CutModel MnistModel MnistSpec MnistProofs.
Import ListNotations.
Local Open Scope nat_scope.

(* Item i of a data set over well-formed files (n images, k labels, perhaps followed by
   other bytes): image i with its pixels divided by 255 and put through the transform, and
   label i. *)
Theorem mnist_items_partial n k h w (P : nat -> nat -> nat -> Z) (L : nat -> Z) junk1 junk2 :
  0 < h * w -> (Z.of_nat n < 2 ^ 31)%Z -> (Z.of_nat k < 2 ^ 31)%Z -> (Z.of_nat h < 2 ^ 31)%Z -> (Z.of_nat w < 2 ^ 31)%Z -> (Z.of_nat (h * w) < 2 ^ 31)%Z ->
  exists ds, openMnist (Some (image_file h w (images_of n h w P) ++ junk1)) (Some (label_file (labels_of k L) ++ junk2)) = Ok ds /\ dsize ds = Nat.min n k /\
  forall i tr, i < dsize ds ->
  getItem ds (Some tr) i = Ok (tensor_of [1; h; w] (fun idx => normalized (stages tr) (match idx with [_; y; x] => IZR (P i y x) / 255 | _ => 0 end))%R, L i) /\
  getItem ds None i = Ok (tensor_of [1; h; w] (fun idx => match idx with [_; y; x] => IZR (P i y x) / 255 | _ => 0 end)%R, L i).
Proof.
  intros Hn Ln Lk Lh Lw Lp. eexists. split; [apply open_ok; assumption|]. split; [reflexivity|]. cbn [dsize]. intros i tr Hi. split.
  - rewrite item_ok by exact Hi. f_equal. f_equal. unfold tensor_of. f_equal. apply map_ext. intros idx. destruct idx as [|a [|b [|c [|d idx]]]]; reflexivity.
  - rewrite item_ok by exact Hi. reflexivity.
Qed.
Print Assumptions mnist_items_partial.

(* A transform changes neither shape nor places. *)
Theorem transform_pointwise tr sh (F : list nat -> R) : process tr (tensor_of sh F) = tensor_of sh (fun idx => normalized (stages tr) (F idx)).
Proof. exact (process_of tr sh F). Qed.
Print Assumptions transform_pointwise.

(* A file that starts with another magic number is rejected. *)
Theorem mnist_rejects_magic m rest : (0 <= m < 2 ^ 31)%Z ->
  (m <> 2051%Z -> forall labelFile, openMnist (Some (be32 m ++ rest)) labelFile = Fail) /\
  (m <> 2049%Z -> forall n h w P junk, 0 < h * w -> (Z.of_nat n < 2 ^ 31)%Z -> (Z.of_nat h < 2 ^ 31)%Z -> (Z.of_nat w < 2 ^ 31)%Z -> (Z.of_nat (h * w) < 2 ^ 31)%Z ->
    openMnist (Some (image_file h w (images_of n h w P) ++ junk)) (Some (be32 m ++ rest)) = Fail).
Proof.
  intros Hm. destruct (magic m rest ltac:(lia) (be32 m) eq_refl (toInt32_be32 m Hm)) as [A B]. split.
  - intros N lf. unfold openMnist. rewrite (A N). reflexivity.
  - intros N n h w P junk Hn Ln Lh Lw Lp. unfold openMnist. rewrite load_ok by (try assumption; try (rewrite images_of_length; assumption); apply images_of_size). cbn [rbind].
    rewrite (B N). reflexivity.
Qed.
Print Assumptions mnist_rejects_magic.

(* Without one of the files the set is empty. *)
Theorem mnist_missing_file n h w P junk lf ds : 0 < h * w -> (Z.of_nat n < 2 ^ 31)%Z -> (Z.of_nat h < 2 ^ 31)%Z -> (Z.of_nat w < 2 ^ 31)%Z -> (Z.of_nat (h * w) < 2 ^ 31)%Z ->
  (openMnist None lf = Ok ds -> dsize ds = 0) /\
  (openMnist (Some (image_file h w (images_of n h w P) ++ junk)) None = Ok ds -> dsize ds = 0).
Proof.
  intros Hn Ln Lh Lw Lp. unfold openMnist. split.
  - cbn [loadImages rbind]. destruct (loadLabels lf); try discriminate. intros E. injection E as <-. reflexivity.
  - rewrite load_ok by (try assumption; try (rewrite images_of_length; assumption); apply images_of_size). cbn [rbind loadLabels]. intros E. injection E as <-.
    cbn [dsize length]. apply Nat.min_0_r.
Qed.
Print Assumptions mnist_missing_file.

(* A file cut off after some of its images is accepted: the missing images are copies of the
   last one read, with the labels of the images they replace. *)
Theorem mnist_truncated_refuted n extra h w (P : nat -> nat -> nat -> Z) (L : nat -> Z) :
  0 < n -> 0 < h * w -> (Z.of_nat (n + extra) < 2 ^ 31)%Z -> (Z.of_nat h < 2 ^ 31)%Z -> (Z.of_nat w < 2 ^ 31)%Z -> (Z.of_nat (h * w) < 2 ^ 31)%Z ->
  exists ds, openMnist (Some (image_header (n + extra) h w ++ List.concat (images_of n h w P))) (Some (label_file (labels_of (n + extra) L))) = Ok ds /\ dsize ds = n + extra /\
  forall i, n <= i < n + extra ->
  getItem ds None i = Ok (tensor_of [1; h; w] (fun idx => match idx with [_; y; x] => IZR (P (n - 1)%nat y x) / 255 | _ => 0 end)%R, L i).
Proof.
  intros N Hn Ln Lh Lw Lp. assert (E : images_of n h w P = images_of (n - 1) h w P ++ [image_of h w (P (n - 1))]).
  { unfold images_of. replace n with (n - 1 + 1) at 1 by lia. rewrite seq_app, map_app. reflexivity. }
  pose proof (load_truncated h w (images_of (n - 1) h w P) (image_of h w (P (n - 1))) extra) as T. rewrite <- E in T. rewrite images_of_length in T.
  eexists. split.
  - unfold openMnist. rewrite T by (try assumption; apply images_of_size). cbn [rbind]. rewrite <- (app_nil_r (label_file _)), labels_ok by (rewrite labels_of_length; exact Ln). cbn [rbind]. reflexivity.
  - cbn [dsize]. rewrite app_length, map_length, images_of_length, repeat_length, labels_of_length. split; [lia|]. intros i Hi. unfold getItem. cbn [images labels height width].
    rewrite nth_labels by lia. rewrite nth_error_app2 by (rewrite map_length, images_of_length; lia). rewrite map_length, images_of_length.
    rewrite (nth_error_nth' _ (scaled (image_of h w (P (n - 1))))) by (rewrite repeat_length; lia). rewrite nth_repeat. rewrite !Nat2Z.id. unfold scaled.
    rewrite (image_tensor h w (P (n - 1)) (fun d => (IZR d / 255)%R)). reflexivity.
Qed.
Print Assumptions mnist_truncated_refuted.

(* A file of fewer than four bytes, and a file that holds only its magic number (which is
   then taken for the count and for both sizes), are read into undefined behaviour. *)
Theorem mnist_header_refuted labelFile : openMnist (Some []) labelFile = UB /\ openMnist (Some [0; 0; 8]%Z) labelFile = UB /\ openMnist (Some (be32 2051)) labelFile = UB.
Proof.
  split; [reflexivity|]. split; [reflexivity|]. assert (E : loadImages (Some (be32 2051)) = UB).
  2:{ unfold openMnist. rewrite E. reflexivity. }
  unfold loadImages. rewrite <- (app_nil_r (be32 2051)). rewrite readInt_be32 by (try reflexivity; lia). cbn [Z.eqb Pos.eqb negb].
  assert (S : forall T f p (k : stream -> list (option Z) -> Z -> res T), p = map Some (be32 2051) -> readInt (mkStream [] f) p k = k (mkStream [] true) p 2051%Z).
  { intros T f p k ->. destruct f; reflexivity. }
  rewrite S by reflexivity. cbn [Z.ltb Z.compare]. rewrite S by reflexivity. rewrite S by reflexivity. cbv zeta.
  replace ((2051 * 2051 <? - 2 ^ 31)%Z || (2 ^ 31 <=? 2051 * 2051)%Z)%bool with false by reflexivity. replace (2051 * 2051 <? 0)%Z with false by reflexivity.
  assert (U : forall c n, 0 < c -> 0 < n -> readImages c n (mkStream [] true) (repeat None n) = UB).
  { intros c n Hc Hn. destruct c as [|c]; [lia|]. destruct n as [|n]; [lia|]. reflexivity. }
  rewrite U by lia. reflexivity.
Qed.
Print Assumptions mnist_header_refuted.

(* Images without pixels are undefined behaviour, and so is an item past the end. *)
Theorem mnist_bounds_refuted n k h w P L : 0 < n -> h * w = 0 -> (Z.of_nat n < 2 ^ 31)%Z -> (Z.of_nat h < 2 ^ 31)%Z -> (Z.of_nat w < 2 ^ 31)%Z ->
  (forall labelFile, openMnist (Some (image_file h w (images_of n h w P))) labelFile = UB) /\
  (forall ds tr i, openMnist (Some (image_file 1 1 (images_of n 1 1 P))) (Some (label_file (labels_of k L))) = Ok ds -> (Z.of_nat k < 2 ^ 31)%Z -> dsize ds <= i -> getItem ds tr i = UB).
Proof.
  intros N Z0 Ln Lh Lw. split.
  - intros lf. unfold openMnist. assert (E : loadImages (Some (image_file h w (images_of n h w P))) = UB).
    2:{ rewrite E. reflexivity. }
    unfold loadImages, image_file, image_header. rewrite images_of_length. rewrite <- !app_assoc. rewrite readInt_be32 by (try reflexivity; lia). cbn [Z.eqb Pos.eqb negb].
    rewrite readInt_be32 by (try reflexivity; lia). destruct (Z.ltb_spec (Z.of_nat n) 0); [lia|].
    rewrite readInt_be32 by (try reflexivity; lia). rewrite readInt_be32 by (try reflexivity; lia). cbv zeta. rewrite <- Nat2Z.inj_mul, Z0. cbn [Z.of_nat].
    replace ((0 <? - 2 ^ 31)%Z || (2 ^ 31 <=? 0)%Z)%bool with false by reflexivity. cbn [Z.ltb Z.compare]. rewrite Nat2Z.id. destruct n as [|n]; [lia|]. reflexivity.
  - intros ds tr i E Lk Hi. rewrite <- (app_nil_r (image_file _ _ _)), <- (app_nil_r (label_file _)) in E. rewrite open_ok in E by (try assumption; cbn; lia).
    injection E as <-. cbn [dsize] in Hi. unfold getItem. cbn [images labels]. destruct (nth_error (map scaled _) i) as [im|] eqn:E1; [|reflexivity].
    destruct (nth_error (labels_of k L) i) as [lb|] eqn:E2; [|reflexivity]. exfalso.
    assert (i < n). { rewrite <- (images_of_length n 1 1 P), <- (map_length scaled). apply nth_error_Some. rewrite E1. discriminate. }
    assert (i < k). { rewrite <- (labels_of_length k L). apply nth_error_Some. rewrite E2. discriminate. } lia.
Qed.
Print Assumptions mnist_bounds_refuted.

(* Two 1 x 2 images with labels 7 and 5, normalized. *)
Example mnist_met : exists ds,
  openMnist (Some ([0; 0; 8; 3; 0; 0; 0; 2; 0; 0; 0; 1; 0; 0; 0; 2; 255; 0; 0; 51])%Z) (Some [0; 0; 8; 1; 0; 0; 0; 2; 7; 5]%Z) = Ok ds /\ dsize ds = 2 /\
  getItem ds (Some (Compose [Normalize 1 2; Identity])) 1 = Ok (mkT [1; 1; 2] [(0 / 255 - 1) / 2; (51 / 255 - 1) / 2]%R, 5%Z) /\
  image_file 1 2 (images_of 2 1 2 (fun i y x => match i, x with 0%nat, 0%nat => 255 | 1%nat, 1%nat => 51 | _, _ => 0 end)%Z) = [0; 0; 8; 3; 0; 0; 0; 2; 0; 0; 0; 1; 0; 0; 0; 2; 255; 0; 0; 51]%Z.
Proof. eexists. split; [reflexivity|]. split; [reflexivity|]. split; reflexivity. Qed.
