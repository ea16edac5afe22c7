(** Vocabulary for the allocator properties: what a client sees. *)
From Coq Require Import ZArith List Bool.
From Verif Require Import AllocModel.
Import ListNotations.
Local Open Scope Z_scope.

(** The allocations a client holds after a history of events: (address,
    requested bytes) for each successful allocation not freed since. *)
Definition live_step (l : list (Z * Z)) (e : event) : list (Z * Z) :=
  match e with
  | EAlloc n (Some p) => (p, n) :: l
  | EAlloc n None => l
  | EFree p => filter (fun a => negb (fst a =? p)) l
  end.
Definition live (es : list event) : list (Z * Z) := fold_left live_step es [].

(** Byte-range vocabulary: [covers (p,n) x] — byte [x] belongs to range (p,n). *)
Definition covers (r : Z * Z) (x : Z) : Prop := fst r <= x < fst r + snd r.
Definition disjoint (r1 r2 : Z * Z) : Prop := forall x, ~ (covers r1 x /\ covers r2 x).
Definition inside (r big : Z * Z) : Prop :=
  fst big <= fst r /\ fst r + snd r <= fst big + snd big.

(** Requests a C++ caller can make with a non-negative [int64_t]. *)
Definition legal (o : op) : Prop :=
  match o with Alloc n _ _ => 0 <= n < 9223372036854775808 | Free _ => True end.

(** A region of the base allocator as the client may picture it: consecutive
    tiles (address, length, in use). *)
Definition tile : Type := Z * Z * bool.
Fixpoint tiles (from upto : Z) (l : list tile) : Prop :=
  match l with
  | [] => from = upto
  | (q, m, _) :: r => q = from /\ 0 < m /\ tiles (from + m) upto r
  end.
(** No two neighbouring tiles are both free. *)
Definition coalesced (l : list tile) : Prop :=
  forall pre q1 m1 u1 q2 m2 u2 post,
    l = pre ++ (q1, m1, u1) :: (q2, m2, u2) :: post -> u1 = true \/ u2 = true.

(** A block that sits in one of the allocator's pools, ready for reuse. *)
Definition cached (s : st) (sm : bool) (q m : Z) : Prop :=
  exists i b, In i (pool_of s sm) /\ heap s i = Some b /\ bptr b = q /\ bsize b = m.

(** A complete account of the memory held from the base allocator. *)
Record account (s : st) (lv : list (Z * Z)) (lay : list ((Z * Z) * list tile)) : Prop := {
  acc_regions : map fst lay = held s;
  acc_tiled : forall r ts, In (r, ts) lay -> tiles (fst r) (fst r + snd r) ts;
  acc_coalesced : forall r ts, In (r, ts) lay -> coalesced ts;
  acc_live : forall p n, In (p, n) lv ->
      exists r ts m, In (r, ts) lay /\ In (p, m, true) ts /\ n <= m;
  acc_used : forall r ts p m, In (r, ts) lay -> In (p, m, true) ts -> exists n, In (p, n) lv;
  acc_free : forall r ts p m, In (r, ts) lay -> In (p, m, false) ts -> exists sm, cached s sm p m;
  acc_cached : forall sm p m, cached s sm p m -> exists r ts, In (r, ts) lay /\ In (p, m, false) ts }.

(** Two requests compete for the same kind of region: up to 1 MiB from 2 MiB
    regions, anything larger from dedicated regions of 10 MiB and more. *)
Definition same_class (n z : Z) : Prop := n <= 1048576 <-> z = 2097152.
