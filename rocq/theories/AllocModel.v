(** Model of the caching allocator, src/Tensor/CachedAllocator.{h,cpp}.

    C++ [Block*] values are natural numbers (block identities, never reused);
    the C++ heap of [Block] objects is a finite partial function [nat -> option
    block].  Reading or writing a deleted block, a failed [ASSERT], or handing
    the base allocator a pointer it did not give out, is undefined behaviour
    and yields [None].  Byte addresses and sizes are [Z]; the only place where
    64-bit wrap-around can matter ([roundSize], [getAllocationSize]) has the
    wrap written out. *)
From Coq Require Import ZArith List Bool Arith.
Import ListNotations.
Local Open Scope Z_scope.

(** CachedAllocator.cpp:23-28, constants. *)
Definition kMinBlockSize : Z := 512.
(** CachedAllocator.cpp:24. *)
Definition kSmallSize : Z := 1048576.
(** CachedAllocator.cpp:25. *)
Definition kSmallBuffer : Z := 2097152.
(** CachedAllocator.cpp:26. *)
Definition kLargeBuffer : Z := 20971520.
(** CachedAllocator.cpp:27. *)
Definition kMinLargeAlloc : Z := 10485760.
(** CachedAllocator.cpp:28. *)
Definition kRoundLarge : Z := 2097152.

(** size_t arithmetic (64-bit).  Model only: the wrap of the sums in
    CachedAllocator.cpp:82-97. *)
Definition u64 (x : Z) : Z := x mod 18446744073709551616.

(** CachedAllocator.cpp:40-56, [struct Block]; [bsmall] stands for
    [pool->isSmall] (there are exactly two pools, 285-286). *)
Record block := mkB {
  bsize : Z; bsmall : bool; bptr : Z; balloc : bool;
  bprev : option nat; bnext : option nat }.

(** CachedAllocator.cpp:281-288, members of [CachedAllocatorImpl].
    [held] is the state of the base allocator: the regions (address, length) it
    has handed out and not received back. *)
Record st := mkSt {
  heap : nat -> option block;  (* live Block objects *)
  nxt : nat;                   (* next fresh block identity *)
  small : list nat;            (* smallBlocks.blocks *)
  large : list nat;            (* largeBlocks.blocks *)
  active : list (Z * nat);     (* activeBlocks *)
  total : Z;                   (* totalAllocatedSize_ *)
  held : list (Z * Z) }.

(** CachedAllocator.cpp:79-80, constructor. *)
Definition init : st := mkSt (fun _ => None) 0%nat [] [] [] 0 [].

(** Model only: writing or deleting one Block object of the C++ heap. *)
Definition upd (h : nat -> option block) (i : nat) (v : option block) : nat -> option block :=
  fun j => if Nat.eqb j i then v else h j.

(** Model only: record update. *)
Definition set_heap (s : st) (h : nat -> option block) : st :=
  mkSt h (nxt s) (small s) (large s) (active s) (total s) (held s).

(** Model only: which of the two pools, CachedAllocator.cpp:285-286. *)
Definition pool_of (s : st) (sm : bool) : list nat := if sm then small s else large s.
(** Model only: record update of one pool, CachedAllocator.cpp:285-286. *)
Definition set_pool (s : st) (sm : bool) (l : list nat) : st :=
  if sm then mkSt (heap s) (nxt s) l (large s) (active s) (total s) (held s)
  else mkSt (heap s) (nxt s) (small s) l (active s) (total s) (held s).

(** CachedAllocator.cpp:55 *)
Definition isSplit (b : block) : bool :=
  match bprev b, bnext b with None, None => false | _, _ => true end.

(** CachedAllocator.cpp:58-63, [BlockComparator] on (size, address) keys. *)
Definition keylt (s1 p1 s2 p2 : Z) : bool :=
  if s1 =? s2 then p1 <? p2 else s1 <? s2.

(** CachedAllocator.cpp:82-87 *)
Definition roundSize (size : Z) : Z :=
  if size <? kMinBlockSize then kMinBlockSize
  else u64 (kMinBlockSize * (u64 (size + kMinBlockSize - 1) / kMinBlockSize)).

(** CachedAllocator.cpp:89-97 *)
Definition getAllocationSize (size : Z) : Z :=
  if size <=? kSmallSize then kSmallBuffer
  else if size <? kMinLargeAlloc then kLargeBuffer
  else u64 (kRoundLarge * (u64 (size + kRoundLarge - 1) / kRoundLarge)).

(** CachedAllocator.cpp:112-117; [true] is the small pool. *)
Definition getPool (size : Z) : bool := size <=? kSmallSize.

(** [std::set<Block*, Comparison>] operations (CachedAllocator.cpp:36).  The
    set is a list of block identities; two blocks are "the same key" when
    neither compares below the other.  A pool that refers to a deleted block is
    undefined behaviour. *)
Definition key_equiv (h : nat -> option block) (i j : nat) : bool :=
  match h i, h j with
  | Some a, Some b => negb (keylt (bsize a) (bptr a) (bsize b) (bptr b))
                   && negb (keylt (bsize b) (bptr b) (bsize a) (bptr a))
  | _, _ => false
  end.
(** Model only: every block the comparator of CachedAllocator.cpp:58-63 would
    read still exists. *)
Definition alive (h : nat -> option block) (l : list nat) : bool :=
  forallb (fun i => match h i with Some _ => true | None => false end) l.

(** [std::set::insert], called at CachedAllocator.cpp:202, 222: a no-op when an
    equivalent key is present. *)
Definition pool_insert (s : st) (sm : bool) (i : nat) : option st :=
  if alive (heap s) (i :: pool_of s sm) then
    if existsb (key_equiv (heap s) i) (pool_of s sm) then Some s
    else Some (set_pool s sm (i :: pool_of s sm))
  else None.

(** [std::set::erase] by key, called at CachedAllocator.cpp:108, 148, 247. *)
Definition pool_erase (s : st) (sm : bool) (i : nat) : option st :=
  if alive (heap s) (i :: pool_of s sm) then
    Some (set_pool s sm (filter (fun j => negb (key_equiv (heap s) i j)) (pool_of s sm)))
  else None.

(** [lower_bound(&searchKey)]: the least element, in comparator order, that is
    not below (size, null); CachedAllocator.cpp:103. *)
Fixpoint lower_bound (h : nat -> option block) (l : list nat) (size : Z) : option nat :=
  match l with
  | [] => None
  | i :: r =>
    let m := lower_bound h r size in
    match h i with
    | None => m
    | Some b =>
      if keylt (bsize b) (bptr b) size 0 then m
      else match m with
           | None => Some i
           | Some j =>
             match h j with
             | Some c => if keylt (bsize c) (bptr c) (bsize b) (bptr b) then Some j else Some i
             | None => Some i
             end
           end
    end
  end.

(** CachedAllocator.cpp:99-110, [getFreeBlock]: finds and removes. *)
Definition getFreeBlock (s : st) (sm : bool) (size : Z) : option (st * option nat) :=
  if alive (heap s) (pool_of s sm) then
    match lower_bound (heap s) (pool_of s sm) size with
    | None => Some (s, None)
    | Some i => match pool_erase s sm i with
                | Some s' => Some (s', Some i)
                | None => None
                end
    end
  else None.

(** The base allocator ([Allocator::allocate]/[deallocate], Allocator.h:19-25).
    The environment proposes an address; a proposal that is null, or whose
    range meets a region still held, is not something an allocator may return,
    and counts as failure (null).  Thus every list of proposals is a legal
    environment and every legal behaviour is some list of proposals. *)
Definition disj (r1 r2 : Z * Z) : bool :=
  (fst r1 + snd r1 <=? fst r2) || (fst r2 + snd r2 <=? fst r1).
(** The call [base_->allocate] at CachedAllocator.cpp:121. *)
Definition base_alloc (s : st) (size : Z) (proposal : option Z) : option Z :=
  match proposal with
  | Some p => if (0 <? p) && forallb (disj (p, size)) (held s) then Some p else None
  | None => None
  end.
(** The call [base_->deallocate] at CachedAllocator.cpp:145. *)
Definition base_free (s : st) (p : Z) : option st :=
  if existsb (fun r => fst r =? p) (held s)
  then Some (mkSt (heap s) (nxt s) (small s) (large s) (active s) (total s)
                  (filter (fun r => negb (fst r =? p)) (held s)))
  else None.

(** CachedAllocator.cpp:119-129, [allocBlock]; the new block object has the
    fresh identity [nxt s]. *)
Definition allocBlock (s : st) (sm : bool) (allocSize : Z) (proposal : option Z)
  : st * option nat :=
  match base_alloc s allocSize proposal with
  | None => (s, None)
  | Some p =>
    (mkSt (upd (heap s) (nxt s) (Some (mkB allocSize sm p false None None)))
          (S (nxt s)) (small s) (large s) (active s) (total s + allocSize)
          ((p, allocSize) :: held s),
     Some (nxt s))
  end.

(** CachedAllocator.cpp:131-137 *)
Definition shouldSplit (b : block) (size : Z) : bool :=
  let remaining := u64 (bsize b - size) in
  if bsmall b then kMinBlockSize <=? remaining else kSmallSize <? remaining.

(** CachedAllocator.cpp:144-150, [releaseBlock]. *)
Definition releaseBlock (s : st) (i : nat) : option st :=
  match heap s i with
  | None => None
  | Some b =>
    match base_free s (bptr b) with
    | None => None
    | Some s1 =>
      let s2 := mkSt (heap s1) (nxt s1) (small s1) (large s1) (active s1)
                     (total s1 - bsize b) (held s1) in
      match pool_erase s2 (bsmall b) i with
      | None => None
      | Some s3 => Some (set_heap s3 (upd (heap s3) i None))
      end
    end
  end.

(** CachedAllocator.cpp:152-162, [releaseBlocks]: the iterator is advanced
    before the block is erased, so the loop visits the blocks present at the
    start (in set order; the order is not observable and list order is used). *)
Fixpoint releaseLoop (s : st) (l : list nat) : option st :=
  match l with
  | [] => Some s
  | i :: r =>
    match heap s i with
    | None => None
    | Some b =>
      match bprev b, bnext b with
      | None, None => match releaseBlock s i with
                      | Some s' => releaseLoop s' r
                      | None => None
                      end
      | _, _ => releaseLoop s r
      end
    end
  end.
(** CachedAllocator.cpp:152-162. *)
Definition releaseBlocks (s : st) (sm : bool) : option st := releaseLoop s (pool_of s sm).

(** CachedAllocator.cpp:139-142 *)
Definition releaseCachedBlocks (s : st) : option st :=
  match releaseBlocks s false with
  | Some s1 => releaseBlocks s1 true
  | None => None
  end.

(** CachedAllocator.cpp:189-203, the splitting branch of [mallocImpl]:
    [i] is the block found ([remaining] afterwards), the new front part gets a
    fresh identity. *)
Definition splitBlock (s : st) (sm : bool) (i : nat) (b : block) (size : Z) : option (st * nat) :=
  let n := nxt s in
  let front := mkB size sm (bptr b) false (bprev b) (Some i) in
  let h1 := upd (heap s) n (Some front) in
  let h2 := match bprev b with
            | None => Some h1
            | Some j => match h1 j with
                        | None => None
                        | Some c => Some (upd h1 j (Some (mkB (bsize c) (bsmall c) (bptr c) (balloc c) (bprev c) (Some n))))
                        end
            end in
  match h2 with
  | None => None
  | Some h2 =>
    let rest := mkB (u64 (bsize b - size)) (bsmall b) (bptr b + size) (balloc b) (Some n) (bnext b) in
    let h3 := upd h2 i (Some rest) in
    let s' := mkSt h3 (S n) (small s) (large s) (active s) (total s) (held s) in
    match pool_insert s' sm i with
    | Some s'' => Some (s'', n)
    | None => None
    end
  end.

(** CachedAllocator.cpp:205, [block->allocated = true]. *)
Definition set_allocated (s : st) (i : nat) (v : bool) : option st :=
  match heap s i with
  | None => None
  | Some b => Some (set_heap s (upd (heap s) i
                (Some (mkB (bsize b) (bsmall b) (bptr b) v (bprev b) (bnext b)))))
  end.

(** CachedAllocator.cpp:164-207, [mallocImpl].  [p1], [p2] are the base
    allocator's answers to the first and the second attempt. *)
Definition mallocImpl (s : st) (origSize : Z) (p1 p2 : option Z) : option (st * option nat) :=
  let size := roundSize (u64 origSize) in
  let sm := getPool size in
  let allocSize := getAllocationSize size in
  match getFreeBlock s sm size with
  | None => None
  | Some (s1, found) =>
    let got :=
      match found with
      | Some i => Some (s1, Some i)
      | None =>
        match allocBlock s1 sm allocSize p1 with
        | (s2, Some i) => Some (s2, Some i)
        | (s2, None) =>
          match releaseCachedBlocks s2 with
          | None => None
          | Some s3 => Some (allocBlock s3 sm allocSize p2)
          end
        end
      end in
    match got with
    | None => None
    | Some (s4, None) => Some (s4, None)
    | Some (s4, Some i) =>
      match heap s4 i with
      | None => None
      | Some b =>
        let sp := if shouldSplit b size then splitBlock s4 sm i b size else Some (s4, i) in
        match sp with
        | None => None
        | Some (s5, k) =>
          match set_allocated s5 k true with
          | None => None
          | Some s6 => Some (s6, Some k)
          end
        end
      end
    end
  end.

(** CachedAllocator.cpp:225-251, [tryMergeBlocks(dst, src, pool)]. *)
Definition tryMerge (s : st) (dst : nat) (src : option nat) (sm : bool) : option st :=
  match src with
  | None => Some s
  | Some j =>
    match heap s dst, heap s j with
    | Some d, Some c =>
      if balloc c then Some s
      else if negb (isSplit d && isSplit c) then None
      else
        let isPrev := match bprev d with Some k => Nat.eqb k j | None => false end in
        let h' :=
          if isPrev then
            let d' := mkB (bsize d) (bsmall d) (bptr c) (balloc d) (bprev c) (bnext d) in
            let h1 := upd (heap s) dst (Some d') in
            match bprev c with
            | None => Some h1
            | Some k => match h1 k with
                        | None => None
                        | Some e => Some (upd h1 k (Some (mkB (bsize e) (bsmall e) (bptr e) (balloc e) (bprev e) (Some dst))))
                        end
            end
          else
            let d' := mkB (bsize d) (bsmall d) (bptr d) (balloc d) (bprev d) (bnext c) in
            let h1 := upd (heap s) dst (Some d') in
            match bnext c with
            | None => Some h1
            | Some k => match h1 k with
                        | None => None
                        | Some e => Some (upd h1 k (Some (mkB (bsize e) (bsmall e) (bptr e) (balloc e) (Some dst) (bnext e))))
                        end
            end in
        match h' with
        | None => None
        | Some h' =>
          match h' dst with
          | None => None
          | Some d' =>
            let h'' := upd h' dst (Some (mkB (bsize d' + bsize c) (bsmall d') (bptr d') (balloc d') (bprev d') (bnext d'))) in
            match pool_erase (set_heap s h'') sm j with
            | None => None
            | Some s' => Some (set_heap s' (upd (heap s') j None))
            end
          end
        end
    | _, _ => None
    end
  end.

(** CachedAllocator.cpp:214-223, [freeBlock]. *)
Definition freeBlock (s : st) (i : nat) : option st :=
  match heap s i with
  | None => None
  | Some b =>
    if balloc b then None
    else
      match tryMerge s i (bprev b) (bsmall b) with
      | None => None
      | Some s1 =>
        match tryMerge s1 i (bnext b) (bsmall b) with
        | None => None
        | Some s2 => pool_insert s2 (bsmall b) i
        end
      end
  end.

(** CachedAllocator.cpp:209-212 *)
Definition freeImpl (s : st) (i : nat) : option st :=
  match set_allocated s i false with
  | None => None
  | Some s1 => freeBlock s1 i
  end.

(** activeBlocks, an address-keyed hash map.  The lookup at
    CachedAllocator.cpp:265. *)
Fixpoint find_active (l : list (Z * nat)) (p : Z) : option nat :=
  match l with
  | [] => None
  | (q, i) :: r => if q =? p then Some i else find_active r p
  end.
(** The erasure at CachedAllocator.cpp:268. *)
Definition erase_active (l : list (Z * nat)) (p : Z) : list (Z * nat) :=
  filter (fun e => negb (fst e =? p)) l.
(** Model only: record update of the map declared at CachedAllocator.cpp:287. *)
Definition set_active (s : st) (l : list (Z * nat)) : st :=
  mkSt (heap s) (nxt s) (small s) (large s) l (total s) (held s).

(** CachedAllocator.cpp:253-262, [allocate]; the result is the returned address
    ([None] for null). *)
Definition allocate (s : st) (nbytes : Z) (p1 p2 : option Z) : option (st * option Z) :=
  match mallocImpl s nbytes p1 p2 with
  | None => None
  | Some (s1, None) => Some (s1, None)
  | Some (s1, Some i) =>
    match heap s1 i with
    | None => None
    | Some b => Some (set_active s1 ((bptr b, i) :: erase_active (active s1) (bptr b)), Some (bptr b))
    end
  end.

(** CachedAllocator.cpp:264-272, [deallocate]. *)
Definition deallocate (s : st) (p : Z) : option st :=
  match find_active (active s) p with
  | None => Some s
  | Some i => match freeImpl s i with
              | None => None
              | Some s1 => Some (set_active s1 (erase_active (active s1) p))
              end
  end.

(** CachedAllocator.cpp:274-279, destructor; a failed ASSERT is [None]. *)
Definition destroy (s : st) : option st :=
  match releaseCachedBlocks s with
  | None => None
  | Some s1 =>
    match active s1, large s1, small s1 with
    | [], [], [] => Some s1
    | _, _, _ => None
    end
  end.

(** The public operations and their observable results.  Calls of
    CachedAllocator.cpp:250-272; [p1], [p2] are the base allocator's answers. *)
Inductive op := Alloc (nbytes : Z) (p1 p2 : option Z) | Free (p : Z).
(** Model only: what the caller of CachedAllocator.cpp:250-272 observes. *)
Inductive event := EAlloc (nbytes : Z) (result : option Z) | EFree (p : Z).

(** Model only: one call of CachedAllocator.cpp:250-272 and what it returns. *)
Definition step (s : st) (o : op) : option (st * event) :=
  match o with
  | Alloc n p1 p2 => match allocate s n p1 p2 with
                     | None => None
                     | Some (s', r) => Some (s', EAlloc n r)
                     end
  | Free p => match deallocate s p with
              | None => None
              | Some s' => Some (s', EFree p)
              end
  end.

(** Model only: a sequence of calls. *)
Fixpoint run (s : st) (ops : list op) : option (st * list event) :=
  match ops with
  | [] => Some (s, [])
  | o :: r => match step s o with
              | None => None
              | Some (s', e) => match run s' r with
                                | None => None
                                | Some (s'', es) => Some (s'', e :: es)
                                end
              end
  end.

(** CachedAllocator.h:13-36, the outer class with its static on/off switch:
    with the cache disabled both calls go straight to the base allocator. *)
Inductive cop := COp (o : op) | CSetEnabled (b : bool).
(** CachedAllocator.h:17-32: one call through the switch. *)
Definition cstep (se : st * bool) (o : cop) : option (st * bool * option event) :=
  let '(s, en) := se in
  match o with
  | CSetEnabled b => Some (s, b, None)
  | COp o =>
    if en then match step s o with
               | None => None
               | Some (s', e) => Some (s', en, Some e)
               end
    else match o with
         | Alloc n p1 _ =>
           match base_alloc s (u64 n) p1 with
           | None => Some (s, en, Some (EAlloc n None))
           | Some p => Some (mkSt (heap s) (nxt s) (small s) (large s) (active s) (total s)
                                  ((p, u64 n) :: held s), en, Some (EAlloc n (Some p)))
           end
         | Free p => match base_free s p with
                     | None => None
                     | Some s' => Some (s', en, Some (EFree p))
                     end
         end
  end.
(** Model only: a sequence of calls through the switch. *)
Fixpoint crun (se : st * bool) (ops : list cop) : option (st * bool * list event) :=
  match ops with
  | [] => Some (fst se, snd se, [])
  | o :: r => match cstep se o with
              | None => None
              | Some (s', en', e) =>
                match crun (s', en') r with
                | None => None
                | Some (s'', en'', es) => Some (s'', en'', match e with Some e => e :: es | None => es end)
                end
              end
  end.
