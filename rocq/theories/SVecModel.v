(** SmallVector: src/Utils/VectorUtils.h.  Memory is modelled cell by cell: a
    cell is dead (no object), moved from (an object without a known value) or
    holds a value.  [None] is undefined behaviour: constructing over a live
    object, destroying or assigning a dead one, reading a cell that holds no
    value, leaving the allocated storage, using freed storage.  [N] is the inline
    capacity.  Allocation does not fail; sizes are unbounded. *)
From Coq Require Import List Bool Arith.
Import ListNotations.

Section SVec.
  Context {A : Type} (dflt : A) (eqb : A -> A -> bool) (N : nat).

  Inductive cell := Dead | Moved | Val (a : A).
  (** VectorUtils.h:213-216, the members; [vptr = None]: data_ is the inline storage. *)
  Record vec := mkVec { vsize : nat; vcap : nat; vptr : option nat; vinl : list cell }.
  (** All vectors of the program by name, and the heap blocks. *)
  Record state := mkState { vecs : nat -> option vec; heap : nat -> option (list cell); nextb : nat }.
  Definition upd {B} (f : nat -> B) (k : nat) (x : B) : nat -> B := fun j => if j =? k then x else f j.

  (** * Single objects *)
  Definition putc (c : list cell) (i : nat) (x : cell) : list cell := firstn i c ++ match skipn i c with [] => [] | _ :: r => x :: r end.
  Definition construct (c : list cell) (i : nat) (a : A) : option (list cell) :=
    match nth_error c i with Some Dead => Some (putc c i (Val a)) | _ => None end.
  Definition destroy (c : list cell) (i : nat) : option (list cell) :=
    match nth_error c i with Some (Val _) | Some Moved => Some (putc c i Dead) | _ => None end.
  Definition assign (c : list cell) (i : nat) (a : A) : option (list cell) :=
    match nth_error c i with Some (Val _) | Some Moved => Some (putc c i (Val a)) | _ => None end.
  Definition read (c : list cell) (i : nat) : option A := match nth_error c i with Some (Val a) => Some a | _ => None end.
  Definition moveOut (c : list cell) (i : nat) : option (A * list cell) :=
    match nth_error c i with Some (Val a) => Some (a, putc c i Moved) | _ => None end.
  (** * Ranges: std::destroy, uninitialized_copy/fill, uninitialized_move *)
  Fixpoint destroyN (c : list cell) (i n : nat) : option (list cell) :=
    match n with O => Some c | S n => match destroy c i with Some c' => destroyN c' (S i) n | None => None end end.
  Fixpoint constructAll (c : list cell) (i : nat) (l : list A) : option (list cell) :=
    match l with [] => Some c | a :: l => match construct c i a with Some c' => constructAll c' (S i) l | None => None end end.
  Fixpoint readN (c : list cell) (i n : nat) : option (list A) :=
    match n with
    | O => Some []
    | S n => match read c i, readN c (S i) n with Some a, Some l => Some (a :: l) | _, _ => None end
    end.
  Fixpoint moveN (c : list cell) (i n : nat) : option (list A * list cell) :=
    match n with
    | O => Some ([], c)
    | S n => match moveOut c i with
             | Some (a, c') => match moveN c' (S i) n with Some (l, c'') => Some (a :: l, c'') | None => None end
             | None => None
             end
    end.

  (** * Where a vector's elements are *)
  Definition cells (s : state) (x : vec) : option (list cell) := match vptr x with None => Some (vinl x) | Some h => heap s h end.
  (** Vector [v] becomes [x] with elements [c]. *)
  Definition store (s : state) (v : nat) (x : vec) (c : list cell) : state :=
    match vptr x with
    | None => mkState (upd (vecs s) v (Some (mkVec (vsize x) (vcap x) None c))) (heap s) (nextb s)
    | Some h => mkState (upd (vecs s) v (Some x)) (upd (heap s) h (Some c)) (nextb s)
    end.
  Definition withSize (x : vec) (n : nat) : vec := mkVec n (vcap x) (vptr x) (vinl x).
  Definition freeData (s : state) (x : vec) : state :=
    match vptr x with None => s | Some h => mkState (vecs s) (upd (heap s) h None) (nextb s) end.
  (** References to elements, taken before a call and used during it. *)
  Inductive arg := Lit (a : A) | Ref (w i : nat).
  Inductive loc := LLit (a : A) | LInl (w i : nat) | LHeap (h i : nat).
  Definition locOf (s : state) (r : arg) : option loc :=
    match r with
    | Lit a => Some (LLit a)
    | Ref w i => match vecs s w with
                 | Some x => Some (match vptr x with None => LInl w i | Some h => LHeap h i end)
                 | None => None
                 end
    end.
  Definition deref (s : state) (l : loc) : option A :=
    match l with
    | LLit a => Some a
    | LInl w i => match vecs s w with Some x => read (vinl x) i | None => None end
    | LHeap h i => match heap s h with Some c => read c i | None => None end
    end.

  (** * Member functions *)
  (** VectorUtils.h:24, the default constructor. *)
  Definition fresh : vec := mkVec 0 N None (repeat Dead N).
  (** VectorUtils.h:202-211, [growTo]. *)
  Definition growTo (s : state) (v newCap : nat) : option state :=
    match vecs s v with
    | None => None
    | Some x =>
      match cells s x with
      | None => None
      | Some c =>
        match moveN c 0 (vsize x) with
        | None => None
        | Some (l, c1) =>
          match constructAll (repeat Dead newCap) 0 l, destroyN c1 0 (vsize x) with
          | Some c', Some c2 =>
            let s1 := freeData (store s v x c2) x in
            let inl := match vptr x with None => c2 | Some _ => vinl x end in
            let b := nextb s1 in
            Some (mkState (upd (vecs s1) v (Some (mkVec (vsize x) newCap (Some b) inl))) (upd (heap s1) b (Some c')) (S b))
          | _, _ => None
          end
        end
      end
    end.
  (** VectorUtils.h:136-140. *)
  Definition reserve (s : state) (v n : nat) : option state :=
    match vecs s v with None => None | Some x => if vcap x <? n then growTo s v n else Some s end.
  (** VectorUtils.h:201, called when the vector is full (124-126, 164-166). *)
  Definition growIfFull (s : state) (v : nat) : option state :=
    match vecs s v with None => None | Some x => if vsize x =? vcap x then growTo s v (vcap x * 2) else Some s end.
  (** VectorUtils.h:131-134. *)
  Definition clear (s : state) (v : nat) : option state :=
    match vecs s v with
    | None => None
    | Some x => match cells s x with
                | None => None
                | Some c => match destroyN c 0 (vsize x) with Some c' => Some (store s v (withSize x 0) c') | None => None end
                end
    end.
  (** Construct the values [l] behind the [from] elements present; size becomes [n]. *)
  Definition fillFrom (s : state) (v from : nat) (l : list A) (n : nat) : option state :=
    match vecs s v with
    | None => None
    | Some x => match cells s x with
                | None => None
                | Some c => match constructAll c from l with Some c' => Some (store s v (withSize x n) c') | None => None end
                end
    end.
  Definition newVec (s : state) (v : nat) : option state :=
    match vecs s v with Some _ => None | None => Some (mkState (upd (vecs s) v (Some fresh)) (heap s) (nextb s)) end.
  Definition bind {B C} (o : option B) (f : B -> option C) : option C := match o with Some x => f x | None => None end.
  (** VectorUtils.h:38-58, construction from an initializer list, a std::vector or
      a view of other storage; 26-30 with the default value; 32-36 with a value. *)
  Definition newList (s : state) (v : nat) (l : list A) : option state :=
    bind (newVec s v) (fun s => bind (reserve s v (length l)) (fun s => fillFrom s v 0 l (length l))).
  Definition newFill (s : state) (v n : nat) (r : arg) : option state :=
    bind (locOf s r) (fun p => bind (newVec s v) (fun s => bind (reserve s v n) (fun s =>
    bind (deref s p) (fun a => fillFrom s v 0 (repeat a n) n)))).
  (** The elements of another vector. *)
  Definition contents (s : state) (w : nat) : option (list A) :=
    bind (vecs s w) (fun y => bind (cells s y) (fun c => readN c 0 (vsize y))).
  (** VectorUtils.h:60-64. *)
  Definition copyNew (s : state) (v w : nat) : option state :=
    bind (newVec s v) (fun s => bind (vecs s w) (fun y => bind (reserve s v (vsize y)) (fun s =>
    bind (contents s w) (fun l => fillFrom s v 0 l (vsize y))))).
  (** VectorUtils.h:80-88. *)
  Definition copyAssign (s : state) (v w : nat) : option state :=
    if v =? w then Some s else
    bind (clear s v) (fun s => bind (vecs s w) (fun y => bind (reserve s v (vsize y)) (fun s =>
    bind (contents s w) (fun l => fillFrom s v 0 l (vsize y))))).
  (** VectorUtils.h:68-77 and 98-107, the common part of the two moves: [v] has no
      storage of its own any more (its inline cells are [inl]). *)
  Definition takeOver (s : state) (v w : nat) (inl : list cell) : option state :=
    bind (vecs s w) (fun y =>
    match vptr y with
    | None =>
      bind (moveN (vinl y) 0 (vsize y)) (fun lc =>
      bind (constructAll inl 0 (fst lc)) (fun c =>
      let s1 := mkState (upd (vecs s) v (Some (mkVec (vsize y) (vcap y) None c))) (heap s) (nextb s) in
      clear (store s1 w y (snd lc)) w))
    | Some h =>
      Some (mkState (upd (upd (vecs s) v (Some (mkVec (vsize y) (vcap y) (Some h) inl))) w (Some (mkVec 0 N None (vinl y))))
                    (heap s) (nextb s))
    end).
  (** VectorUtils.h:67-78. *)
  Definition moveNew (s : state) (v w : nat) : option state :=
    match vecs s v with Some _ => None | None => takeOver s v w (repeat Dead N) end.
  (** VectorUtils.h:90-110. *)
  Definition moveAssign (s : state) (v w : nat) : option state :=
    if v =? w then Some s else
    bind (clear s v) (fun s => bind (vecs s v) (fun x => takeOver (freeData s x) v w (vinl x))).
  (** VectorUtils.h:115-120. *)
  Definition delete (s : state) (v : nat) : option state :=
    bind (clear s v) (fun s => bind (vecs s v) (fun x => let s1 := freeData s x in Some (mkState (upd (vecs s1) v None) (heap s1) (nextb s1)))).
  (** VectorUtils.h:122-129. *)
  Definition pushBack (s : state) (v : nat) (r : arg) : option state :=
    bind (locOf s r) (fun p => bind (growIfFull s v) (fun s => bind (vecs s v) (fun x =>
    bind (deref s p) (fun a => fillFrom s v (vsize x) [a] (S (vsize x)))))).
  (** VectorUtils.h:142-160. *)
  Definition resizeWith (s : state) (v n : nat) (p : loc) : option state :=
    bind (vecs s v) (fun x =>
    if n <? vsize x then bind (cells s x) (fun c => bind (destroyN c n (vsize x - n)) (fun c' => Some (store s v (withSize x n) c')))
    else if vsize x <? n then
      bind (reserve s v n) (fun s => bind (deref s p) (fun a => fillFrom s v (vsize x) (repeat a (n - vsize x)) n))
    else Some s).
  (** VectorUtils.h:169-171: for i = from; i > idx; i--, [n] = from - idx. *)
  Fixpoint shift (c : list cell) (i n : nat) : option (list cell) :=
    match n with
    | O => Some c
    | S n => bind (moveOut c (i - 1)) (fun ac => bind (assign (snd ac) i (fst ac)) (fun c' => shift c' (i - 1) n))
    end.
  (** VectorUtils.h:162-178, with idx = pos - data_.  An assignment reads the
      referenced value when it is executed. *)
  Definition insert (s : state) (v idx : nat) (r : arg) : option state :=
    bind (locOf s r) (fun p => bind (growIfFull s v) (fun s => bind (vecs s v) (fun x =>
    let n := vsize x in
    if idx <? n then
      bind (cells s x) (fun c => bind (moveOut c (n - 1)) (fun ac => bind (construct (snd ac) n (fst ac)) (fun c1 =>
      bind (shift c1 (n - 1) (n - 1 - idx)) (fun c2 =>
      let s1 := store s v x c2 in
      bind (deref s1 p) (fun a => bind (assign c2 idx a) (fun c3 => Some (store s1 v (withSize x (S n)) c3)))))))
    else bind (deref s p) (fun a => fillFrom s v n [a] (S n))))).
  (** VectorUtils.h:185, v[i] = value and v[i]; 255-265, comparison through views. *)
  Definition setAt (s : state) (v i : nat) (r : arg) : option state :=
    bind (locOf s r) (fun p => bind (deref s p) (fun a => bind (vecs s v) (fun x => bind (cells s x) (fun c =>
    bind (assign c i a) (fun c' => Some (store s v x c')))))).
  Definition getAt (s : state) (v i : nat) : option A := bind (vecs s v) (fun x => bind (cells s x) (fun c => read c i)).
  Fixpoint eqLoop (c d : list cell) (i n : nat) : option bool :=
    match n with
    | O => Some true
    | S n => bind (read c i) (fun a => bind (read d i) (fun b => if eqb a b then eqLoop c d (S i) n else Some false))
    end.
  Definition equal (s : state) (v w : nat) : option bool :=
    bind (vecs s v) (fun x => bind (vecs s w) (fun y =>
    if negb (vsize x =? vsize y) then Some false
    else bind (cells s x) (fun c => bind (cells s y) (fun d => eqLoop c d 0 (vsize x))))).

  (** * Programs *)
  Inductive cmd :=
  | CNew (v : nat) | CNewFill (v n : nat) (r : arg) | CNewSize (v n : nat) | CNewList (v : nat) (l : list A)
  | CCopyNew (v w : nat) | CMoveNew (v w : nat) | CCopy (v w : nat) | CMove (v w : nat) | CDelete (v : nat)
  | CPush (v : nat) (r : arg) | CClear (v : nat) | CReserve (v n : nat) | CResize (v n : nat) | CResizeFill (v n : nat) (r : arg)
  | CInsert (v i : nat) (r : arg) | CSet (v i : nat) (r : arg)
  | CGet (v i : nat) | CSize (v : nat) | CEq (v w : nat).
  Inductive out := ONone | OVal (a : A) | ONat (n : nat) | OBool (b : bool).
  Definition quiet (o : option state) : option (state * out) := option_map (fun s => (s, ONone)) o.
  Definition exec (s : state) (c : cmd) : option (state * out) :=
    match c with
    | CNew v => quiet (newVec s v)
    | CNewFill v n r => quiet (newFill s v n r)
    | CNewSize v n => quiet (newFill s v n (Lit dflt))
    | CNewList v l => quiet (newList s v l)
    | CCopyNew v w => quiet (copyNew s v w)
    | CMoveNew v w => quiet (moveNew s v w)
    | CCopy v w => quiet (copyAssign s v w)
    | CMove v w => quiet (moveAssign s v w)
    | CDelete v => quiet (delete s v)
    | CPush v r => quiet (pushBack s v r)
    | CClear v => quiet (clear s v)
    | CReserve v n => quiet (reserve s v n)
    | CResize v n => quiet (resizeWith s v n (LLit dflt))
    | CResizeFill v n r => quiet (bind (locOf s r) (resizeWith s v n))
    | CInsert v i r => quiet (insert s v i r)
    | CSet v i r => quiet (setAt s v i r)
    | CGet v i => option_map (fun a => (s, OVal a)) (getAt s v i)
    | CSize v => option_map (fun x => (s, ONat (vsize x))) (vecs s v)
    | CEq v w => option_map (fun b => (s, OBool b)) (equal s v w)
    end.
  Fixpoint execs (s : state) (l : list cmd) : option (state * list out) :=
    match l with
    | [] => Some (s, [])
    | c :: r => match exec s c with
                | Some (s', o) => match execs s' r with Some (s'', os) => Some (s'', o :: os) | None => None end
                | None => None
                end
    end.
  Definition start : state := mkState (fun _ => None) (fun _ => None) 0.
End SVec.
