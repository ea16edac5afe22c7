(** Data loading: src/Data/DataLoader.h, src/Data/Sampler.h,
    src/Distributed/DistributedSampler.cpp.
    [size_t] is an integer modulo 2^64; [None] is undefined behaviour.  Float
    operations are Flocq's IEEE binary32 operations rounding to nearest even. *)
From Coq Require Import ZArith List Arith Bool.
From Flocq Require Import IEEE754.BinarySingleNaN IEEE754.Binary IEEE754.Bits.
Import ListNotations.
Open Scope Z_scope.

(** Model only: size_t arithmetic. *)
Definition u64 (x : Z) : Z := x mod 2 ^ 64.
(** [static_cast<float>] of an integer.  As at DataLoader.h:34,
    DistributedSampler.cpp:33. *)
Definition f32_of_Z (z : Z) : binary32 := binary_normalize 24 128 eq_refl eq_refl mode_NE z 0 false.
(** [std::ceil] of a float followed by the conversion to [size_t]; [None] when
    the result does not fit.  As at DataLoader.h:34, DistributedSampler.cpp:33.
    *)
Definition ceil_u64 (f : binary32) : option Z :=
  let v := match f with
           | B754_zero _ _ _ => Some 0
           | B754_finite _ _ s m e _ =>
             let n := if s then Z.neg m else Z.pos m in
             Some (if 0 <=? e then n * 2 ^ e else - ((- n) / 2 ^ (- e)))
           | _ => None
           end in
  match v with Some k => if (0 <=? k) && (k <? 2 ^ 64) then Some k else None | None => None end.
(** DataLoader.h:34 and DistributedSampler.cpp:33. *)
Definition ceilDivF (n b : Z) : option Z :=
  ceil_u64 (b32_div mode_NE (b32_mult mode_NE (f32_of_Z n) (f32_of_Z 1)) (f32_of_Z b)).

(** DataLoader.h:24-25, DistributedSampler.cpp:40-41. *)
Definition iota (n : nat) : list nat := seq 0 n.
(** [std::shuffle]: position i is exchanged with a position d(i) <= i drawn from
    the generator, for i = 1, ..., n-1; the draws are arbitrary here.  As called
    at DataLoader.h:27, DistributedSampler.cpp:46. *)
Definition swapAt (l : list nat) (i j : nat) : list nat :=
  map (fun k => nth (if k =? i then j else if k =? j then i else k)%nat l 0%nat) (seq 0 (length l)).
(** As called at DataLoader.h:27, DistributedSampler.cpp:46. *)
Definition shuffle (draw : nat -> nat) (l : list nat) : list nat :=
  fold_left (fun l i => swapAt l i (draw i mod S i)%nat) (seq 1 (length l - 1)) l.

(** Sampler.h:24-35, [SequentialSampler]. *)
Definition sequentialIndices (n : nat) : list nat := iota n.
(** Sampler.h:52-59, [RandomSampler::generateIndices]; [engine s] is the stream
    drawn from the generator seeded with [s]. *)
Definition randomIndices (engine : Z -> nat -> nat) (n : nat) (seed epoch : Z) : list nat :=
  shuffle (engine ((seed + epoch) mod 2 ^ 32)) (iota n).

(** DataLoader.h:18-36, the constructor. *)
Record loader := mkLoader { batchSize : Z; batchCnt : Z; indices : list nat }.
(** DataLoader.h:18-29: where the indices come from. *)
Inductive source := FromSampler (l : list nat) | Plain (datasetSize : nat) (doShuffle : bool) (draw : nat -> nat).
(** DataLoader.h:18-36. *)
Definition makeLoader (src : source) (bs : Z) (dropLast : bool) : option loader :=
  let idx := match src with
             | FromSampler l => l
             | Plain n sh draw => if sh then shuffle draw (iota n) else iota n
             end in
  let cnt := if dropLast then (if bs =? 0 then None else Some (Z.of_nat (length idx) / bs))
             else ceilDivF (Z.of_nat (length idx)) bs in
  match cnt with Some c => Some (mkLoader bs c idx) | None => None end.

Section Batches.
Context {T : Type}.
(** [std::vector::resize].  As called at DataLoader.h:55. *)
Definition resizeList {X} (d : X) (k : nat) (l : list X) : list X := firstn k (l ++ repeat d (k - length l)).
(** DataLoader.h:54-58: one more item, its j-th tensor appended to list j. *)
Definition addItem (cols : list (list T)) (item : list T) : list (list T) :=
  map (fun p => fst p ++ [snd p]) (combine (resizeList [] (length item) cols) item).
(** DataLoader.h:52-53: the loop variable, from [batchIdx * batchSize] while
    below both bounds. [fuel] bounds the iterations by the number of indices. *)
Fixpoint batchIndices (l : loader) (hi : Z) (fuel : nat) (i : Z) : list nat :=
  match fuel with
  | O => []
  | S fuel => if (i <? hi) && (i <? Z.of_nat (length (indices l)))
              then nth (Z.to_nat i) (indices l) 0%nat :: batchIndices l hi fuel (u64 (i + 1))
              else []
  end.
(** DataLoader.h:52-53. *)
Definition batchRange (l : loader) (batchIdx : Z) : list nat :=
  let lo := u64 (batchIdx * batchSize l) in
  batchIndices l (u64 (lo + batchSize l)) (length (indices l)) lo.
(** DataLoader.h:50-66, [Iterator::operator*]; [stack] is [op::stack]. *)
Definition batchAt (getItem : nat -> list T) (stack : list T -> T) (l : loader) (batchIdx : Z) : Z * list T :=
  (batchIdx, map stack (fold_left addItem (map getItem (batchRange l batchIdx)) [])).
(** DataLoader.h:43-48 and 73-75: [for (auto b : loader)]. *)
Definition epoch (getItem : nat -> list T) (stack : list T -> T) (l : loader) : list (Z * list T) :=
  map (fun i => batchAt getItem stack l (Z.of_nat i)) (seq 0 (Z.to_nat (batchCnt l))).
End Batches.

(** DistributedSampler.cpp:30-37 and 39-60. [vector(begin + offset, begin +
    offset + k)] beyond the end is undefined.  Inserting a range of a vector
    into itself (line 51) is taken to insert the values it had before. *)
Definition slice (l : list nat) (from len : Z) : option (list nat) :=
  if (0 <=? from) && (0 <=? len) && (from + len <=? Z.of_nat (length l))
  then Some (firstn (Z.to_nat len) (skipn (Z.to_nat from) l)) else None.
(** DistributedSampler.cpp:30-34. *)
Definition numSamples (n numReplicas : Z) (dropLast : bool) : option Z :=
  if dropLast then (if numReplicas =? 0 then None else Some (n / numReplicas)) else ceilDivF n numReplicas.
(** DistributedSampler.cpp:39-60. *)
Definition distIndices (engine : Z -> nat -> nat) (n : nat) (numReplicas rank : Z) (doShuffle : bool) (seed epoch : Z) (dropLast : bool) : option (list nat) :=
  match numSamples (Z.of_nat n) numReplicas dropLast with
  | None => None
  | Some ns =>
    let total := u64 (ns * numReplicas) in
    let all := if doShuffle then shuffle (engine ((seed + epoch) mod 2 ^ 32)) (iota n) else iota n in
    let all := if dropLast then Some (resizeList 0%nat (Z.to_nat total) all)
               else if Z.of_nat (length all) <? total
                    then match slice all 0 (total - Z.of_nat (length all)) with Some p => Some (all ++ p) | None => None end
                    else Some all in
    match all with
    | None => None
    | Some all => slice all (u64 (ns * rank)) ns
    end
  end.
