(* im2col and col2im on the GPU. *)
From Coq Require Import List Arith ZArith Bool Lia.
From Verif Require Import ShapeModel ShapeSpec ShapeProofs TensorModel TensorSpec TensorLemmas BcastModel BufModel LinalgModel LinalgSpec LinalgProofs3 LinalgProofs4 LinalgProps
  GpuModel GpuSpec GpuLemmas CudaModel CudaSpec CudaProofs CudaFillModel CudaReduceSpec CudaReduceProofs3 CudaMeanProofs CudaWindowModel CudaWindowProofs.
From Verif Require RopeProofs.
Import ListNotations.

Section Props.
Context {K : cring}.

(* Every entry of the matrix is the pixel under one cell of one window, or 0 where
   the window sticks out: on every schedule, and as on the CPU. *)
Theorem cuda_im2col_partial : forall n c h w kernel stride padding (X : list nat -> K) m input out, windows h w kernel stride padding ->
  let oh := positions h (dh kernel) (dh stride) (dh padding) in
  let ow := positions w (dw kernel) (dw stride) (dw padding) in
  let mat := [n * (oh * ow); c * dh kernel * dw kernel] in
  (0 < Z.of_nat (size mat) <= 2 ^ 32)%Z -> input <> out -> has m input [n; c; h; w] X -> room m out (size mat) ->
  exists l M, im2colCuda (mkD input [n; c; h; w]) kernel stride padding out = Ok (mat, l) /\ computes l m out mat M /\
    im2col (tensor_of [n; c; h; w] X) kernel stride padding = Ok (tensor_of mat M) /\
    forall b ch y x i j, b < n -> ch < c -> y < oh -> x < ow -> i < dh kernel -> j < dw kernel ->
      M [(b * oh + y) * ow + x; (ch * dh kernel + i) * dw kernel + j]
      = pixel h w X b ch (place (dh stride) (dh padding) y i) (place (dw stride) (dw padding) x j).
Proof.
  intros n c h w kernel stride padding X m input out HW oh ow mat HZ NE HX HR. rewrite size_numel in HZ, HR.
  destruct (im2col_launch n c h w kernel stride padding HW X input out m HZ NE HX HR) as (l & E & C).
  destruct (im2col_windows n c h w kernel stride padding X HW) as (M & EM & PM). fold oh ow mat in EM, PM.
  exists l, M. split; [exact E|]. split; [|split; [exact EM|exact PM]].
  pose proof (im2col_exact n c h w kernel stride padding HW X) as EX. fold oh ow mat in EX. rewrite EX in EM.
  apply (f_equal (fun r => match r with Ok t => tdata t | _ => [] end)) in EM. unfold tensor_of in EM. cbn [tdata] in EM.
  unfold computes in *. eapply always_mono; [exact C|]. intros m' [H S]. split; [|exact S].
  unfold has in *. rewrite <- EM. exact H.
Qed.

(* Every pixel of the image is the sum of the matrix entries whose window cell lies
   on it: on every schedule, and as on the CPU. *)
Theorem cuda_col2im_partial : forall n c h w kernel stride padding (Y : list nat -> K) m input out, windows h w kernel stride padding ->
  let oh := positions h (dh kernel) (dh stride) (dh padding) in
  let ow := positions w (dw kernel) (dw stride) (dw padding) in
  let mat := [n * (oh * ow); c * dh kernel * dw kernel] in
  (0 < Z.of_nat (size [n; c; h; w]) <= 2 ^ 32)%Z -> input <> out -> has m input mat Y -> room m out (size [n; c; h; w]) ->
  exists ls D, col2imCuda (mkD input mat) [n; c; h; w] kernel stride padding out = Ok ([n; c; h; w], ls) /\
    computes_all ls m out [] [n; c; h; w] D /\
    col2im (tensor_of mat Y) [n; c; h; w] kernel stride padding = Ok (tensor_of [n; c; h; w] D) /\
    forall b ch y x, valid [n; c; h; w] [b; ch; y; x] ->
      D [b; ch; y; x] = sum (fun q => match q with
        | [oy; ox; i; j] =>
          if ((place (dh stride) (dh padding) oy i =? Z.of_nat y) && (place (dw stride) (dw padding) ox j =? Z.of_nat x))%Z
          then Y [(b * oh + oy) * ow + ox; (ch * dh kernel + i) * dw kernel + j] else zero
        | _ => zero end) (indices [oh; ow; dh kernel; dw kernel]).
Proof.
  intros n c h w kernel stride padding Y m input out HW oh ow mat HZ NE HY HR. rewrite size_numel in HZ, HR.
  destruct (col2im_launch n c h w kernel stride padding HW Y input out m HZ NE HY HR) as (ls & E & C).
  destruct (col2im_collects n c h w kernel stride padding Y HW) as (D & ED & PD). fold oh ow mat in ED, PD.
  exists ls, D. split; [exact E|]. split; [|split; [exact ED|exact PD]].
  unfold computes_all in *. eapply always_all_mono; [|exact C]. intros m' [H S]. split; [|exact S].
  apply (has_eq _ _ _ _ _ H). intros idx V. pose proof V as V'. apply RopeProofs.valid4 in V. destruct V as (b & ch & y & x & -> & _). rewrite PD by exact V'. reflexivity.
Qed.

(* One image without its batch dimension is a batch of one. *)
Theorem cuda_windows_single : forall c h w kernel stride padding input out,
  im2colCuda (K := K) (mkD input [c; h; w]) kernel stride padding out = im2colCuda (mkD input [1; c; h; w]) kernel stride padding out /\
  (forall sh ls, col2imCuda (K := K) (mkD input sh) [1; c; h; w] kernel stride padding out = Ok ([1; c; h; w], ls) ->
     col2imCuda (mkD input sh) [c; h; w] kernel stride padding out = Ok ([c; h; w], ls)) /\
  forall m p (F : list nat -> K), has m p [c; h; w] F <-> has m p [1; c; h; w] (fun idx => F (tl idx)).
Proof.
  intros c h w kernel stride padding input out. split; [|split].
  - unfold im2colCuda. cbn [dshape dbuf]. rewrite geometry_3. reflexivity.
  - intros sh ls. unfold col2imCuda. rewrite <- geometry_3. destruct (geometry [c; h; w] kernel stride padding) as [| |g]; try discriminate.
    destruct g as [[[[[b' c'] h'] w'] oh] ow]. intros E. injection E as <-. do 2 f_equal.
  - intros m p F. unfold has. replace (map (fun idx => F (tl idx)) (indices [1; c; h; w])) with (map F (indices [c; h; w])); [reflexivity|].
    change (indices [1; c; h; w]) with (map (cons 0) (indices [c; h; w]) ++ []). rewrite app_nil_r, map_map. reflexivity.
Qed.

Theorem cuda_windows_reject_rank : forall kernel stride padding out,
  (forall t, length (dshape t) <> 3 -> length (dshape t) <> 4 -> im2colCuda (K := K) t kernel stride padding out = Fail) /\
  (forall t sh, length sh <> 3 -> length sh <> 4 -> col2imCuda (K := K) t sh kernel stride padding out = Fail).
Proof.
  intros kernel stride padding out. split.
  - intros t H3 H4. unfold im2colCuda, geometry. destruct (dshape t) as [|a [|b [|c [|d [|e s]]]]]; try reflexivity; cbn [length] in *; lia.
  - intros t sh H3 H4. unfold col2imCuda, geometry. destruct sh as [|a [|b [|c [|d [|e s]]]]]; try reflexivity; cbn [length] in *; lia.
Qed.

(* Nothing to compute, where the CPU returns an empty result: the kernel is still
   launched, with no blocks, which CUDA refuses. *)
Theorem cuda_windows_empty_refuted : forall n c h w kernel stride padding (X Y : list nat -> K) input out m, windows h w kernel stride padding ->
  let mat := [n * (positions h (dh kernel) (dh stride) (dh padding) * positions w (dw kernel) (dw stride) (dw padding)); c * dh kernel * dw kernel] in
  (numel mat = 0 -> (exists M, im2col (tensor_of [n; c; h; w] X) kernel stride padding = Ok (tensor_of mat M)) /\
     exists l, im2colCuda (K := K) (mkD input [n; c; h; w]) kernel stride padding out = Ok (mat, l) /\ ~ accepted l) /\
  (numel [n; c; h; w] = 0 -> (exists D, col2im (tensor_of mat Y) [n; c; h; w] kernel stride padding = Ok (tensor_of [n; c; h; w] D)) /\
     exists ls, col2imCuda (K := K) (mkD input mat) [n; c; h; w] kernel stride padding out = Ok ([n; c; h; w], ls) /\ forall Q, ~ always_all ls m Q).
Proof.
  intros n c h w kernel stride padding X Y input out m HW mat. split; intros HZ.
  - split; [eexists; apply (im2col_exact n c h w kernel stride padding HW X)|]. unfold im2colCuda. cbn [dshape]. rewrite geometry_4 by exact HW.
    eexists. split; [reflexivity|]. fold mat. rewrite HZ. intros (G & _). change (grid _) with 0 in G. lia.
  - split; [eexists; apply (col2im_exact n c h w kernel stride padding HW Y)|]. unfold col2imCuda. rewrite geometry_4 by exact HW.
    eexists. split; [reflexivity|]. intros Q A. cbn [always_all] in A. rewrite HZ in A. destruct A as [(G & _) _]. change (grid _) with 0 in G. lia.
Qed.
End Props.

Example cuda_windows_met : let m := mem_of [map (fun idx => Some (Z.of_nat (ravel [2; 3; 4; 5] idx))) (indices [2; 3; 4; 5]); repeat None 720; map (fun _ => Some 1%Z) (indices [40; 18]); repeat None 120] in
  windows 4 5 (D2 2 3) (D2 1 2) (D2 1 2) /\ positions 4 2 1 1 = 5 /\ positions 5 3 2 2 = 4 /\
  (0 < Z.of_nat (size [2 * (5 * 4); 3 * 2 * 3]%nat) <= 2 ^ 32)%Z /\ (0 < Z.of_nat (size [2; 3; 4; 5]%nat) <= 2 ^ 32)%Z /\
  has m 0 [2; 3; 4; 5] (fun idx => Z.of_nat (ravel [2; 3; 4; 5] idx)) /\ room m 1 (size [40; 18]) /\
  has m 2 [40; 18] (fun _ => 1%Z) /\ room m 3 (size [2; 3; 4; 5]).
Proof.
  intros m. split. { split; split; cbn; lia. } split; [reflexivity|]. split; [reflexivity|]. split. { cbn; lia. } split. { cbn; lia. }
  split. { apply holds_of. rewrite map_map. reflexivity. } split; [apply room_of; reflexivity|].
  split. { apply holds_of. rewrite map_map. reflexivity. } apply room_of. reflexivity.
Qed.

Print Assumptions cuda_im2col_partial.
Print Assumptions cuda_col2im_partial.
Print Assumptions cuda_windows_single.
Print Assumptions cuda_windows_reject_rank.
Print Assumptions cuda_windows_empty_refuted.
