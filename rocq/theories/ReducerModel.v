(** The gradient reducer of data-parallel training:
    src/Distributed/Reducer.cpp.  Numbers are reals. *)
From Coq Require Import ZArith List Bool Arith Reals.
Import ListNotations.
Open Scope Z_scope.

(** A parameter as far as bucketing is concerned.  Reducer.cpp:42-47, 68-69:
    what is read of one. *)
Record param := mkParam { pid : nat; pnumel : nat; pdevice : Z; pdtype : Z }.
(** Reducer.h:35-46. *)
Record bucket := mkBucket { bparams : list param; bsizes : list nat; boffsets : list nat; btotal : nat }.
(** Reducer.cpp:63-81, [createBucket]. *)
Fixpoint layout (ps : list param) (offset : nat) : list nat * list nat * nat :=
  match ps with
  | [] => ([], [], offset)
  | p :: r => let '(sz, offs, tot) := layout r (offset + pnumel p) in (pnumel p :: sz, offset :: offs, tot)
  end.
(** Reducer.cpp:63-81. *)
Definition createBucket (ps : list param) : bucket :=
  let '(sz, offs, tot) := layout ps 0 in mkBucket ps sz offs tot.
(** Reducer.cpp:31-61, [buildBuckets]; [esz] is the size of an element, [cur] and
    [curBytes] the bucket being filled.  [None]: a failed assertion. *)
Fixpoint fill (esz : Z) (cap dev dt : Z) (ps : list param) (cur : list param) (curBytes : Z) : option (list bucket) :=
  match ps with
  | [] => Some (match cur with [] => [] | _ => [createBucket cur] end)
  | p :: r =>
    if negb (pdevice p =? dev) || negb (pdtype p =? dt) then None
    else
      let bytes := Z.of_nat (pnumel p) * esz in
      match cur with
      | [] => fill esz cap dev dt r [p] (curBytes + bytes)
      | _ => if cap <? curBytes + bytes
             then match fill esz cap dev dt r [p] (0 + bytes) with Some bs => Some (createBucket cur :: bs) | None => None end
             else fill esz cap dev dt r (cur ++ [p]) (curBytes + bytes)
      end
  end.
(** Reducer.cpp:31-61. *)
Definition buildBuckets (esz : Z) (cap : Z) (ps : list param) : option (list bucket) :=
  match ps with [] => Some [] | p :: _ => fill esz cap (pdevice p) (pdtype p) ps [] 0 end.

(** * One backward pass.  Model only: [v[i] = x]. *)
Definition update {A} (l : list A) (n : nat) (x : A) : list A := firstn n l ++ match skipn n l with [] => [] | _ :: r => x :: r end.
(** A rank: the flat buffers, how many gradients of each bucket have arrived,
    which buckets have been handed to allReduce, and what was handed over, in
    order.  Reducer.h:40-45, 63 of one process. *)
Record rank := mkRank { bufs : list (list R); readyCnt : list nat; started : list bool; issued : list (nat * list R) }.
(** Reducer.cpp:134-141, [prepareForBackward]; the buffers keep old values. *)
Definition prepare (bs : list bucket) (old : list (list R)) : rank := mkRank old (map (fun _ => O) bs) (map (fun _ => false) bs) [].
(** narrow(0, offset, size).copy_(grad): OpTransform.cpp:408-423 with its
    assertions; a slice shares the buffer's storage. *)
Definition copySlice (buf : list R) (off size : nat) (g : list R) : option (list R) :=
  if ((off <? length buf) && (off + size <=? length buf) && (length g =? size))%nat
  then Some (firstn off buf ++ g ++ skipn (off + size) buf) else None.
(** Reducer.cpp:100-132, [onGradReady] and [reduceBucket]. *)
Definition onGradReady (bs : list bucket) (st : rank) (b p : nat) (g : list R) : option rank :=
  match nth_error bs b with
  | None => None
  | Some bk =>
    if (btotal bk =? 0)%nat then None  (* flatBuffer.defined() *)
    else match nth_error (boffsets bk) p, nth_error (bsizes bk) p with
    | Some off, Some size =>
      match copySlice (nth b (bufs st) []) off size g with
      | None => None
      | Some buf =>
        let cnt := S (nth b (readyCnt st) O) in
        let st1 := mkRank (update (bufs st) b buf) (update (readyCnt st) b cnt) (started st) (issued st) in
        if nth b (started st) false then None
        else if (cnt =? length (bparams bk))%nat
        then Some (mkRank (bufs st1) (readyCnt st1) (update (started st1) b true) (issued st1 ++ [(b, buf)]))
        else Some st1
      end
    | _, _ => None
    end
  end.
(** The hooks of the parameters run in the order [order] of (bucket, parameter).
    Reducer.cpp:16-19, 83-98. *)
Fixpoint arrivals (bs : list bucket) (st : rank) (gs : nat -> nat -> list R) (order : list (nat * nat)) : option rank :=
  match order with
  | [] => Some st
  | (b, p) :: r => match onGradReady bs st b p (gs b p) with Some st' => arrivals bs st' gs r | None => None end
  end.
(** What a rank brings: its gradients (by bucket and parameter), the order in
    which they become ready, and old contents of the flat buffers.  Model only.
    *)
Record input := mkInput { grad : nat -> nat -> list R; order : list (nat * nat); stale : list (list R) }.
(** All ranks run their backward pass; they meet only in the collectives.  Model
    only. *)
Fixpoint passAll (bs : list bucket) (ins : list input) : option (list rank) :=
  match ins with
  | [] => Some []
  | i :: r => match arrivals bs (prepare bs (stale i)) (grad i) (order i), passAll bs r with
              | Some st, Some sts => Some (st :: sts)
              | _, _ => None
              end
  end.
(** ncclAllReduce with sum: the n-th call of every rank belong together; calls
    with different sizes do not match ([None]).  BackendNCCL.cpp, the call of
    ncclAllReduce made for Reducer.cpp:127. *)
Fixpoint vadd (a b : list R) : option (list R) :=
  match a, b with
  | [], [] => Some []
  | x :: a, y :: b => match vadd a b with Some c => Some ((x + y)%R :: c) | None => None end
  | _, _ => None
  end.
(** BackendNCCL.cpp:25-35, ncclAllReduce as called for Reducer.cpp:127. *)
Fixpoint reduceAll (ranks : list rank) (n : nat) : option (list R) :=
  match ranks with
  | [] => None
  | [r] => option_map snd (nth_error (issued r) n)
  | r :: rs => match nth_error (issued r) n, reduceAll rs n with
               | Some (_, x), Some y => vadd x y
               | _, _ => None
               end
  end.
(** Model only: the place of a bucket among the collectives issued. *)
Fixpoint position (b : nat) (l : list (nat * list R)) : option nat :=
  match l with [] => None | (b', _) :: r => if (b' =? b)%nat then Some O else option_map S (position b r) end.
(** Reducer.cpp:160-179, 219-231, [checkAllBucketsReady]: once all buckets are
    handed over, wait, divide by the number of ranks, copy back.  Otherwise the
    gradients stay. *)
Fixpoint slices (sizes : list nat) (l : list R) : list (list R) :=
  match sizes with [] => [] | s :: r => firstn s l :: slices r (skipn s l) end.
(** Reducer.cpp:160-179, 219-231. *)
Definition gradAfter (bs : list bucket) (ranks : list rank) (r : rank) (gs : nat -> nat -> list R) (b p : nat) : option (list R) :=
  if (length (issued r) <? length bs)%nat then Some (gs b p)
  else match position b (issued r) with
       | None => Some (gs b p)
       | Some n =>
         match reduceAll ranks n, nth_error bs b with
         | Some s, Some bk => Some (nth p (slices (bsizes bk) (map (fun x => (x / INR (length ranks))%R) s)) [])
         | _, _ => None
         end
       end.

(** Reducer.cpp:143-158, 181-204, [broadcastParameters] with the two copies:
    every rank fills its buffer from its parameters (by bucket and parameter),
    receives the root's buffer and copies the slices back. *)
Fixpoint copyParams (bk : bucket) (buf : list R) (vals : nat -> list R) (p n : nat) : option (list R) :=
  match n with
  | O => Some buf
  | S n =>
    match nth_error (boffsets bk) p, nth_error (bsizes bk) p with
    | Some off, Some size =>
      match copySlice buf off size (vals p) with Some buf' => copyParams bk buf' vals (S p) n | None => None end
    | _, _ => None
    end
  end.
(** Reducer.cpp:143-158, 181-204. *)
Definition broadcastParam (bs : list bucket) (root me : input) (b p : nat) : option (list R) :=
  match nth_error bs b with
  | None => None
  | Some bk =>
    if (btotal bk =? 0)%nat then None
    else match copyParams bk (nth b (stale me) []) (grad me b) 0 (length (bparams bk)),
               copyParams bk (nth b (stale root) []) (grad root b) 0 (length (bparams bk)) with
         | Some _, Some buf => Some (nth p (slices (bsizes bk) buf) [])
         | _, _ => None
         end
  end.
