(** Drawing categories: src/Operation/OpSamplingCpu.h:69-128,
    [multinomialOpCpuImpl].  Floats are Flocq's IEEE binary32 with rounding to
    nearest even, infinities and NaN included.  The weights are the values after
    [static_cast<float>]; the random generator is an arbitrary sequence [us] of
    floats, the [s]-th draw of row [b] taking [us (b * numSamples + s)]. *)
From Coq Require Import ZArith List Bool Arith.
From Flocq Require Import IEEE754.BinarySingleNaN IEEE754.Binary IEEE754.Bits.
From Verif Require Import ShapeModel TensorModel BcastModel BufModel.
Import ListNotations.

Notation f32 := binary32.
(** Model only: 0.0f. *)
Definition f0 : f32 := b32_of_bits 0.
(** operator< of floats.  Model only: as in OpSamplingCpu.h:113-114. *)
Definition flt (a b : f32) : bool := match b32_compare a b with Some Lt => true | _ => false end.
(** OpSamplingCpu.h:107-108, std::partial_sum: the first element is copied. *)
Fixpoint runningSum (acc : f32) (l : list f32) : list f32 :=
  match l with [] => [] | x :: r => let s := b32_plus mode_NE acc x in s :: runningSum s r end.
(** OpSamplingCpu.h:107-108. *)
Definition partialSum (l : list f32) : list f32 := match l with [] => [] | x :: r => x :: runningSum x r end.
(** OpSamplingCpu.h:113-114, the distance to std::upper_bound: the number of
    elements not greater than [r] at the front.  The library requires those to come
    before all the others; otherwise the call is undefined. *)
Fixpoint upperBound (cdf : list f32) (r : f32) : res nat :=
  match cdf with
  | [] => Ok 0
  | c :: rest => if flt r c then (if forallb (flt r) rest then Ok 0 else UB)
                 else match upperBound rest r with Ok i => Ok (S i) | UB => UB | Fail => Fail end
  end.
(** OpSamplingCpu.h:106-125, one row: one index per draw, in the order written. *)
Fixpoint drawRow (replacement : bool) (prob : list f32) (us : list f32) : res (list nat) :=
  match us with
  | [] => Ok []
  | u :: us =>
    let cdf := partialSum prob in
    let total := last cdf f0 in
    if flt f0 total then
      match upperBound cdf (b32_mult mode_NE u total) with
      | Ok idx =>
        if replacement then match drawRow replacement prob us with Ok r => Ok (idx :: r) | UB => UB | Fail => Fail end
        else match wr prob idx f0 with
             | None => UB
             | Some prob => match drawRow replacement prob us with Ok r => Ok (idx :: r) | UB => UB | Fail => Fail end
             end
      | UB => UB
      | Fail => Fail
      end
    else Fail
  end.
(** OpSamplingCpu.h:94-126, the rows one after the other; results are collected in
    the order in which they are written. *)
Fixpoint drawRows (replacement : bool) (data : list f32) (n k : nat) (us : nat -> f32) (bs : list nat) : res (list nat) :=
  match bs with
  | [] => Ok []
  | b :: bs =>
    match tab n (fun i => rd data (b * n + i)) with
    | None => UB
    | Some prob =>
      match drawRow replacement prob (map (fun s => us (b * k + s)) (seq 0 k)) with
      | Ok r => match drawRows replacement data n k us bs with Ok rs => Ok (r ++ rs) | UB => UB | Fail => Fail end
      | UB => UB
      | Fail => Fail
      end
    end
  end.
(** OpSamplingCpu.h:69-128; with no category the result is returned as allocated. *)
Definition multinomial (t : tensor f32) (k : nat) (replacement : bool) (us : nat -> f32) : res (tensor nat) :=
  let run (batch n : nat) (sh : list nat) :=
    if n =? 0 then finish sh (Some (fresh (numel sh)))
    else match drawRows replacement (tdata t) n k us (seq 0 batch) with Ok d => Ok (mkT sh d) | UB => UB | Fail => Fail end in
  match tshape t with
  | [n] => run 1 n [k]
  | [batch; n] => run batch n [batch; k]
  | _ => Fail
  end.
