(** What a program on scalar tensors computes, and which programs the library
    differentiates correctly. *)
From Coq Require Import List Bool Arith Reals.
From Verif Require Import ProgModel.
Import ListNotations.
Open Scope R_scope.

Definition un_math (u : unop) (a : R) : R := match u with USin => sin a | UCos => cos a | UReshape => a end.
Definition bin_math (b : binop) (x y : R) : R :=
  match b with BAdd => x + y | BSub => x - y | BMul => x * y | BDiv => x / y | BPow => Rpower x y end.

(** What a program knows of a tensor: its value; the value it would have if the
    leaves that require grad were moved, with everything made in no-grad mode
    held fixed; and whether it depends on those leaves. *)
Record point := Point { base : R; moved : R; needs : bool }.
Definition no_point : point := Point 0 0 false.
Definition at_ (ps : list point) (v : nat) : point := nth v ps no_point.
Fixpoint set_at (ps : list point) (v : nat) (q : point) : list point :=
  match ps, v with [], _ => [] | _ :: ps, 0%nat => q :: ps | x :: ps, S v => x :: set_at ps v q end.
(** [theta]: the values of the leaves; [phi]: their values when moved.  A tensor
    changed in place in no-grad mode keeps its distance from its unmoved value. *)
Definition run1 (theta phi : nat -> R) (en : bool) (s : stmt) (ps : list point) : list point :=
  let keep (q : point) (v : R) := Point v (v + (moved q - base q)) (needs q) in
  let result (v m : R) (n : bool) := ps ++ [Point v (if n then m else v) n] in
  match s with
  | SLeaf r => result (theta (length ps)) (phi (length ps)) r
  | SUn u x => result (un_math u (base (at_ ps x))) (un_math u (moved (at_ ps x))) (en && needs (at_ ps x))
  | SBin b x y =>
    result (bin_math b (base (at_ ps x)) (base (at_ ps y))) (bin_math b (moved (at_ ps x)) (moved (at_ ps y)))
      (en && (needs (at_ ps x) || needs (at_ ps y)))
  | SSum x => result (base (at_ ps x)) (moved (at_ ps x)) (en && needs (at_ ps x))
  | SIn b x y =>
    let p := at_ ps x in let q := at_ ps y in
    set_at ps x (if en then Point (bin_math b (base p) (base q)) (bin_math b (moved p) (moved q)) (needs p || needs q)
                 else keep p (bin_math b (base p) (base q)))
  | SFill x v => set_at ps x (if en then Point v v (needs (at_ ps x)) else keep (at_ ps x) v)
  end.
Fixpoint run (theta phi : nat -> R) (p : program) (ps : list point) : list point :=
  match p with [] => ps | (en, s) :: p => run theta phi p (run1 theta phi en s ps) end.

(** The tensors used exist; no division by zero; powers of positive numbers. *)
Definition arg_ok (b : binop) (x y : R) : Prop := match b with BDiv => y <> 0 | BPow => 0 < x | _ => True end.
Definition domain1 (s : stmt) (ps : list point) : Prop :=
  let ok v := (v < length ps)%nat in
  match s with
  | SLeaf _ => True
  | SUn _ x | SSum x | SFill x _ => ok x
  | SBin b x y | SIn b x y => ok x /\ ok y /\ arg_ok b (base (at_ ps x)) (base (at_ ps y))
  end.
(** The operands an operation saves; a reduction of a scalar also returns one. *)
Definition operands (s : stmt) : list nat :=
  match s with SUn _ x | SSum x => [x] | SBin _ x y => [x; y] | _ => [] end.
(** In-place statements that keep the gradients right ([used]: the tensors saved
    so far): operators in no-grad mode, on tensors that need no gradient, or
    adding and subtracting one that needs none; [fill_] of a tensor that was not
    an operand yet, in no-grad mode or if it needs no gradient.  And no
    reductions of scalars that need a gradient; no reshapes of tensors that need
    one in no-grad mode. *)
Definition gentle1 (en : bool) (s : stmt) (used : list nat) (ps : list point) : Prop :=
  match s with
  | SUn UReshape x => en = true \/ needs (at_ ps x) = false
  | SSum x => needs (at_ ps x) = false
  | SIn b x y => en = false \/ needs (at_ ps y) = false /\ (needs (at_ ps x) = false \/ b = BAdd \/ b = BSub)
  | SFill x _ => ~ In x used /\ (en = false \/ needs (at_ ps x) = false)
  | _ => True
  end.
Definition used1 (s : stmt) (used : list nat) (ps : list point) : list nat :=
  (match s with SSum _ => [length ps] | _ => [] end) ++ operands s ++ used.
Fixpoint gentle (theta : nat -> R) (p : program) (used : list nat) (ps : list point) : Prop :=
  match p with
  | [] => True
  | (en, s) :: p =>
    domain1 s ps /\ gentle1 en s used ps /\ gentle theta p (used1 s used ps) (run1 theta theta en s ps)
  end.
(** How often a tensor is an operand. *)
Definition uses (v : nat) (p : program) : nat := count_occ Nat.eq_dec (flat_map (fun s => operands (snd s)) p) v.
(** Operands of a sum (and the first of a difference) are used only there. *)
Definition sums_once (p : program) : Prop := forall en b x y, In (en, SBin b x y) p ->
  (b = BAdd -> uses x p = 1%nat /\ uses y p = 1%nat) /\ (b = BSub -> uses x p = 1%nat).
(** Leaf [l] moved to [t]. *)
Definition move (theta : nat -> R) (l : nat) (t : R) : nat -> R := fun i => if (i =? l)%nat then t else theta i.
(** Tensor [l] of the program is a leaf that requires grad. *)
Definition grad_leaf (p : program) (l : nat) : Prop :=
  exists p1 en p2, p = p1 ++ (en, SLeaf true) :: p2
  /\ l = length (filter (fun s => match snd s with SIn _ _ _ | SFill _ _ => false | _ => true end) p1).

(** What the program sees of its tensors: the value, [requiresGrad()] and the
    function that made it; how many there are. *)
Definition valueOf (st : hstate) (v : nat) : option R := option_map (getVal st) (nth_error (vars st) v).
Definition requiresGradOf (st : hstate) (v : nat) : option bool := option_map (getReq st) (nth_error (vars st) v).
Definition tensors (st : hstate) : nat := length (vars st).
(** Nothing happened to tensor [v]. *)
Definition untouched (st st' : hstate) (v : nat) : Prop :=
  valueOf st' v = valueOf st v /\ requiresGradOf st' v = requiresGradOf st v /\ gradFnOf st' v = gradFnOf st v.
(** The state after some program. *)
Definition reachable (st : hstate) : Prop := exists theta p, execProg theta p start = Some st.
Definition no_reductions (p : program) : Prop := forall en x, ~ In (en, SSum x) p.
