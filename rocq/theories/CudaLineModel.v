(* Softmax, log-softmax, layer norm and RMS norm of CUDA tensors:
   src/Operation/OpNNLayerCuda.cuh.

   Elements are real numbers (no rounding, no half precision); exp overflows
   above a bound M, as in SoftmaxModel, and a thread that overflows traps.  The
   __shared__ arrays are numbered: 0 and 1 are those of the instances of
   cudaBlockReduce for maxima and for sums, 2 is the kernel's own. *)
From Coq Require Import List Arith ZArith NArith Bool Reals.
From Verif Require Import ShapeModel TensorModel BcastModel BufModel ReduceModel LineModel SoftmaxModel
  GpuModel CudaModel CudaFillModel CudaMoveModel CudaReduceModel CudaExtremeModel.
Import ListNotations.

(* ---- the launch ---- *)

(* MathUtils.h:16-26 nextPow2, of a 32-bit number. *)
Definition nextPow2 (v : N) : N :=
  if (v =? 0)%N then 1%N else
  let v := (v - 1)%N in
  let v := N.lor v (N.shiftr v 1) in
  let v := N.lor v (N.shiftr v 2) in
  let v := N.lor v (N.shiftr v 4) in
  let v := N.lor v (N.shiftr v 8) in
  let v := N.lor v (N.shiftr v 16) in
  ((v + 1) mod 2 ^ 32)%N.

(* OpNNLayerCuda.cuh:449, 492, 563: clamp(nextPow2(n), 32u, 1024u); the argument
   is converted to 32 bits. *)
Definition lineBlock (n : nat) : nat :=
  N.to_nat (N.min 1024 (N.max 32 (nextPow2 (N.of_nat n mod 2 ^ 32)))).

(* Model only: a grid of gx * gy * gz blocks, numbered along x first; refused
   (no blocks) if y or z exceeds 65535, the limit of every CUDA device.  Sizes
   that do not fit the 32 bits of a dim3 are not modelled. *)
Definition grid3 (gx gy gz : nat) : nat :=
  if ((Z.of_nat gy <=? 65535) && (Z.of_nat gz <=? 65535))%Z then (gx * gy * gz)%nat else 0%nat.

(* ---- within a block ---- *)

(* OpNNLayerCuda.cuh:19-34 cudaBlockReduce, thread t of bd, shared array sa. *)
Definition blockReduce {V} (sa : nat) (op : V -> V -> V) (bd t : nat) (val init : V) (k : V -> thr V) : thr V :=
  let last := Sync (SLd (sa, 0%Z) k) in
  let second val :=
    if (t / 32 =? 0)%nat
    then warpReduce op val (fun val => if (t =? 0)%nat then SSt (sa, 0%Z) val last else last)
    else last in
  let third := Sync (if (t <? bd / 32)%nat then SLd (sa, Z.of_nat (t mod 32)) second else second init) in
  warpReduce op val (fun val => if (t mod 32 =? 0)%nat then SSt (sa, Z.of_nat (t / 32)) val third else third).

(* OpNNLayerCuda.cuh:45, 53, 61, 93 and so on: the values of i in
   for (auto i = from; i < to; i += blockDim.x), at most fuel of them. *)
Fixpoint strided (fuel i step n : nat) : list nat :=
  match fuel with
  | O => []
  | S fuel => if (i <? n)%nat then i :: strided fuel (i + step) step n else []
  end.

(* Model only: the loop over them, with a local variable. *)
Fixpoint each {V A} (is : list nat) (body : nat -> A -> (A -> thr V) -> thr V) (acc : A) (k : A -> thr V) : thr V :=
  match is with
  | [] => k acc
  | i :: is => body i acc (fun acc => each is body acc k)
  end.

(* Model only: exp, which may overflow; as called at OpNNLayerCuda.cuh:55, 63, 165. *)
Definition expThen (M x : R) (k : R -> thr R) : thr R :=
  match expf M x with Some e => k e | None => Trap end.

(* CUDAMath.h:31-33 cuda::max and OpReduceCuda.cuh:37-40. *)
Definition maxR (a b : R) : R := maxOf (fun a b => if Rlt_dec a b then true else false) a b.

(* ---- softmax ---- *)

(* OpNNLayerCuda.cuh:58-71, 129-144: the results of one thread; the others'
   elements of the line are at address at_ i. *)
Definition softmaxWrite (M : R) (isLog : bool) (out self : nat) (at_ : nat -> Z) (is : list nat) (mx sum : R) : thr R :=
  if isLog then
    each is (fun i _ k => Ld (self, at_ i) (fun x => St (out, at_ i) (x - mx - ln sum)%R (k tt))) tt (fun _ => Done)
  else
    each is (fun i _ k => Ld (self, at_ i) (fun x => expThen M (x - mx) (fun e => St (out, at_ i) (e / sum)%R (k tt)))) tt (fun _ => Done).

(* OpNNLayerCuda.cuh:43-48, 91-95: the thread's maximum. *)
Definition localMax (lo : R) (self : nat) (at_ : nat -> Z) (is : list nat) (k : R -> thr R) : thr R :=
  each is (fun i mx k => Ld (self, at_ i) (fun x => k (maxR mx x))) lo k.
(* OpNNLayerCuda.cuh:51-56, 113-117: the thread's sum of exponentials. *)
Definition localExp (M : R) (self : nat) (at_ : nat -> Z) (is : list nat) (mx : R) (k : R -> thr R) : thr R :=
  each is (fun i sum k => Ld (self, at_ i) (fun x => expThen M (x - mx) (fun e => k (sum + e)%R))) 0%R k.

(* OpNNLayerCuda.cuh:41, 87, 174, 199: where element i of the line is. *)
Definition lineAt (n inner outer_ inner_ i : nat) : Z := Z.of_nat (lineOffset n inner outer_ inner_ i).

(* OpNNLayerCuda.cuh:36-72 kSoftmaxForward, launched by 448-452; lo is
   numeric_limits<float>::lowest(). *)
Definition kSoftmaxForward (lo M : R) (isLog : bool) (out self : nat) (outer n inner : nat) : launch R :=
  let bd := lineBlock n in
  mkLaunch (grid3 outer inner 1) bd (shared32 2) (fun b t =>
    let at_ := lineAt n inner (b mod outer) (b / outer) in
    let is := strided n t bd n in
    localMax lo self at_ is (fun mx =>
    blockReduce 0 maxR bd t mx lo (fun mx =>
    localExp M self at_ is mx (fun sum =>
    blockReduce 1 Rplus bd t sum 0%R (fun sum =>
    softmaxWrite M isLog out self at_ is mx sum))))).

(* OpNNLayerCuda.cuh:76: __shared__ float shared[2]; also 303. *)
Definition sharedLine (a : addr) : bool :=
  shared32 2 a || ((fst a =? 2)%nat && (0 <=? snd a) && (snd a <? 2))%Z.

(* OpNNLayerCuda.cuh:98-99, 108-110, 119-120, 326-327: thread 0 stores, all
   wait. *)
Definition publish (t : nat) (a : addr) (v : R) (k : thr R) : thr R :=
  if (t =? 0)%nat then SSt a v (Sync k) else Sync k.

(* OpNNLayerCuda.cuh:101-111, 122-132 with blockPerRow = 1, blockId = 0: combine
   the tiles' results, in shared[0], to shared[1] and read it back. *)
Definition combineTiles (sa : nat) (op : R -> R -> R) (init : R) (bd t : nat) (k : R -> thr R) : thr R :=
  each (strided 1 t bd 1) (fun i acc k => SLd (2%nat, Z.of_nat i) (fun x => k (op acc x))) init (fun v =>
  blockReduce sa op bd t v init (fun v =>
  publish t (2%nat, 1%Z) v (SLd (2%nat, 1%Z) k))).

(* OpNNLayerCuda.cuh:74-145 kSoftmaxForwardLargeDim, launched by 454-457 with
   one block per row, so that the tile is the whole row. *)
Definition kSoftmaxForwardLargeDim (lo M : R) (isLog : bool) (out self : nat) (outer n inner : nat) : launch R :=
  let bd := blockSize in
  mkLaunch (grid3 1 outer inner) bd sharedLine (fun b t =>
    let at_ := lineAt n inner (b mod outer) (b / outer) in
    let is := strided n t bd n in
    localMax lo self at_ is (fun mx =>
    blockReduce 0 maxR bd t mx lo (fun mx =>
    publish t (2%nat, 0%Z) mx (
    combineTiles 0 maxR lo bd t (fun mx =>
    localExp M self at_ is mx (fun sum =>
    blockReduce 1 Rplus bd t sum 0%R (fun sum =>
    publish t (2%nat, 0%Z) sum (
    combineTiles 1 Rplus 0%R bd t (fun sum =>
    softmaxWrite M isLog out self at_ is mx sum))))))))).

(* OpNNLayerCuda.cuh:439-460 softmaxForwardCudaImpl, with 462-472 and 513-524:
   the launch that fills the new tensor in buffer out. *)
Definition softmaxCuda (lo M : R) (isLog : bool) (t : dtensor) (dim : Z) (out : nat) : res (list nat * launch R) :=
  let sh := dshape t in
  match axis (length sh) dim with
  | None => Fail
  | Some k =>
    let n := nth k sh 0%nat in
    Ok (sh, (if (n <=? 1024)%nat then kSoftmaxForward else kSoftmaxForwardLargeDim)
              lo M isLog out (dbuf t) (outerSize sh k) n (innerSize sh k))
  end.

(* OpNNLayerCuda.cuh:149-151, 160-162 computePartialSum. *)
Definition backPartial (isLog : bool) (output grad : nat) (a : Z) (k : R -> thr R) : thr R :=
  if isLog then Ld (grad, a) k else Ld (output, a) (fun y => Ld (grad, a) (fun g => k (y * g)%R)).
(* OpNNLayerCuda.cuh:153-155, 164-166 computeResult. *)
Definition backResult (M : R) (isLog : bool) (output grad : nat) (a : Z) (total : R) (k : R -> thr R) : thr R :=
  if isLog then Ld (grad, a) (fun g => Ld (output, a) (fun y => expThen M y (fun e => k (g - e * total)%R)))
  else Ld (output, a) (fun y => Ld (grad, a) (fun g => k (y * (g - total))%R)).

(* OpNNLayerCuda.cuh:176-180, 206-210: the thread's partial sum. *)
Definition localBack (isLog : bool) (output grad : nat) (at_ : nat -> Z) (is : list nat) (k : R -> thr R) : thr R :=
  each is (fun i sum k => backPartial isLog output grad (at_ i) (fun p => k (sum + p)%R)) 0%R k.
(* OpNNLayerCuda.cuh:183-186, 225-228: the thread's results. *)
Definition backWrite (M : R) (isLog : bool) (out output grad : nat) (at_ : nat -> Z) (is : list nat) (total : R) : thr R :=
  each is (fun i _ k => backResult M isLog output grad (at_ i) total (fun r => St (out, at_ i) r (k tt))) tt (fun _ => Done).

(* OpNNLayerCuda.cuh:169-187 kSoftmaxBackward, launched by 491-494. *)
Definition kSoftmaxBackward (M : R) (isLog : bool) (out output grad : nat) (outer n inner : nat) : launch R :=
  let bd := lineBlock n in
  mkLaunch (grid3 outer inner 1) bd (shared32 2) (fun b t =>
    let at_ := lineAt n inner (b mod outer) (b / outer) in
    let is := strided n t bd n in
    localBack isLog output grad at_ is (fun sum =>
    blockReduce 1 Rplus bd t sum 0%R (fun sum =>
    backWrite M isLog out output grad at_ is sum))).

(* OpNNLayerCuda.cuh:201-203: the elements of block x of nb on a line that
   thread t of bd visits. *)
Definition tileOf (n nb bd x t : nat) : list nat :=
  let per := ((n + nb - 1) / nb)%nat in
  strided n (x * per + t) bd (Nat.min (x * per + per) n).

(* OpNNLayerCuda.cuh:189-227 kSoftmaxBackwardLarge, phase 1, launched by
   508-510 on a grid of nb * inner * outer blocks. *)
Definition kSoftmaxBackwardPhase1 (isLog : bool) (output grad part : nat) (outer n inner nb : nat) : launch R :=
  let bd := blockSize in
  mkLaunch (grid3 nb inner outer) bd (shared32 2) (fun b t =>
    let x := (b mod nb)%nat in let i_ := (b / nb mod inner)%nat in let o_ := (b / nb / inner)%nat in
    localBack isLog output grad (lineAt n inner o_ i_) (tileOf n nb bd x t) (fun sum =>
    blockReduce 1 Rplus bd t sum 0%R (fun sum =>
    if (t =? 0)%nat then St (part, Z.of_nat ((o_ * inner + i_) * nb + x)) sum Done else Done))).

(* OpNNLayerCuda.cuh:189-227, phase 2, launched by 513-514. *)
Definition kSoftmaxBackwardPhase2 (M : R) (isLog : bool) (out output grad part : nat) (outer n inner nb : nat) : launch R :=
  let bd := blockSize in
  mkLaunch (grid3 nb inner outer) bd (shared32 2) (fun b t =>
    let x := (b mod nb)%nat in let i_ := (b / nb mod inner)%nat in let o_ := (b / nb / inner)%nat in
    each (strided nb t bd nb) (fun i total k => Ld (part, Z.of_nat ((o_ * inner + i_) * nb + i)) (fun x => k (total + x)%R)) 0%R (fun total =>
    blockReduce 1 Rplus bd t total 0%R (fun sum =>
    backWrite M isLog out output grad (lineAt n inner o_ i_) (tileOf n nb bd x t) sum))).

(* OpNNLayerCuda.cuh:474-511 softmaxBackwardCudaImplDetail; part is the storage
   of partialSums. *)
Definition softmaxBackwardCuda (M : R) (isLog : bool) (grad output : dtensor) (dim : Z) (out part : nat) : res (list nat * list (launch R)) :=
  let sh := dshape output in
  if list_eq_dec Nat.eq_dec sh (dshape grad) then
    match axis (length sh) dim with
    | None => Fail
    | Some k =>
      let n := nth k sh 0%nat in
      let outer := outerSize sh k in
      let inner := innerSize sh k in
      Ok (sh,
        if (n <=? 1024)%nat then [kSoftmaxBackward M isLog out (dbuf output) (dbuf grad) outer n inner]
        else let nb := Nat.min 16 ((n + 1023) / 1024) in
             [kSoftmaxBackwardPhase1 isLog (dbuf output) (dbuf grad) part outer n inner nb;
              kSoftmaxBackwardPhase2 M isLog out (dbuf output) (dbuf grad) part outer n inner nb])
    end
  else Fail.

(* ---- layer norm and RMS norm ---- *)

(* OpNNLayerCuda.cuh:258-266, 311-319: the thread's sum. *)
Definition localSum (sq : bool) (input : nat) (at_ : nat -> Z) (is : list nat) (k : R -> thr R) : thr R :=
  each is (fun i sum k => Ld (input, at_ i) (fun x => k (sum + (if sq then x * x else x))%R)) 0%R k.
(* OpNNLayerCuda.cuh:274-278, 330-334. *)
Definition localVar (input : nat) (at_ : nat -> Z) (is : list nat) (mean : R) (k : R -> thr R) : thr R :=
  each is (fun i sum k => Ld (input, at_ i) (fun x => let diff := (x - mean)%R in k (sum + diff * diff)%R)) 0%R k.
(* OpNNLayerCuda.cuh:285, 343: if (weight) normed *= weight[i]. *)
Definition weightThen (w : option nat) (i : nat) (x : R) (k : R -> thr R) : thr R :=
  match w with None => k x | Some w => Ld (w, Z.of_nat i) (fun c => k (x * c)%R) end.
(* OpNNLayerCuda.cuh:286, 344: if (bias) normed += bias[i]. *)
Definition biasThen (b : option nat) (i : nat) (x : R) (k : R -> thr R) : thr R :=
  match b with None => k x | Some b => Ld (b, Z.of_nat i) (fun c => k (x + c)%R) end.
(* OpNNLayerCuda.cuh:283-288, 293-297, 341-346, 351-355; RMSNorm has no bias and
   subtracts nothing. *)
Definition normWrite (out input : nat) (w bs : option nat) (at_ : nat -> Z) (is : list nat) (mean invStd : R) : thr R :=
  each is (fun i _ k => Ld (input, at_ i) (fun x =>
    weightThen w i ((x - mean) * invStd)%R (fun y => biasThen bs i y (fun z => St (out, at_ i) z (k tt))))) tt (fun _ => Done).

(* OpNNLayerCuda.cuh:252-299 kNormSmall, launched by 566-573. *)
Definition kNormSmall (rms : bool) (out input : nat) (w bs : option nat) (rows n : nat) (eps : R) : launch R :=
  let bd := lineBlock n in
  mkLaunch rows bd (shared32 2) (fun b t =>
    let at_ := lineAt n 1 b 0 in
    let is := strided n t bd n in
    localSum rms input at_ is (fun sum =>
    blockReduce 1 Rplus bd t sum 0%R (fun sum =>
    let stat := (sum / INR n)%R in
    if rms then normWrite out input w None at_ is 0 (1 / sqrt (stat + eps))
    else
      localVar input at_ is stat (fun sum =>
      blockReduce 1 Rplus bd t sum 0%R (fun sum =>
      normWrite out input w bs at_ is stat (1 / sqrt (sum / INR n + eps))))))).

(* OpNNLayerCuda.cuh:301-357 kNormLarge, launched by 575-582. *)
Definition kNormLarge (rms : bool) (out input : nat) (w bs : option nat) (rows n : nat) (eps : R) : launch R :=
  let bd := lineBlock n in
  mkLaunch rows bd sharedLine (fun b t =>
    let at_ := lineAt n 1 b 0 in
    let is := strided n t bd n in
    localSum rms input at_ is (fun sum =>
    blockReduce 1 Rplus bd t sum 0%R (fun stat =>
    publish t (2%nat, 0%Z) (stat / INR n)%R (SLd (2%nat, 0%Z) (fun stat =>
    if rms then normWrite out input w None at_ is 0 (1 / sqrt (stat + eps))
    else
      localVar input at_ is stat (fun sum =>
      blockReduce 1 Rplus bd t sum 0%R (fun var =>
      publish t (2%nat, 1%Z) (var / INR n)%R (SLd (2%nat, 1%Z) (fun var =>
      normWrite out input w bs at_ is stat (1 / sqrt (var + eps))))))))))).

(* OpNNLayerCuda.cuh:544-585 normOpCudaImplDetail, with 587-596; shape().back()
   of a scalar and the division by a last dimension of 0 are undefined. *)
Definition normCuda (rms : bool) (t : dtensor) (ns : list nat) (w bs : option nat) (eps : R) (out : nat) : res (list nat * launch R) :=
  match dshape t with
  | [] => UB
  | sh =>
    let n := last sh 0%nat in
    if (n =? 0)%nat then UB else
    match ns with
    | [d] => if (d =? n)%nat then
        Ok (sh, (if (n <=? 1024)%nat then kNormSmall else kNormLarge) rms out (dbuf t) w bs (numel sh / n)%nat n eps)
      else Fail
    | _ => Fail
    end
  end.
