(** The same programs on plain lists.  [None]: the program is outside the
    contract (a vector used before its construction or after its destruction, an
    index out of range, or a value passed as a reference into the very vector
    that the call changes). *)
From Coq Require Import List Bool Arith.
From Verif Require Import SVecModel.
Import ListNotations.

Section Spec.
  Context {A : Type} (dflt : A) (eqb : A -> A -> bool).
  Definition lists := nat -> option (list A).
  Definition value (m : lists) (v : nat) (r : @arg A) : option A :=
    match r with
    | Lit a => Some a
    | Ref w i => if w =? v then None else match m w with Some l => nth_error l i | None => None end
    end.
  (** [v[i] = w[j]] may read from the same vector. *)
  Definition value' (m : lists) (r : @arg A) : option A :=
    match r with Lit a => Some a | Ref w i => match m w with Some l => nth_error l i | None => None end end.
  Definition absent (m : lists) (v : nat) : option unit := match m v with Some _ => None | None => Some tt end.
  Fixpoint same (a b : list A) : bool :=
    match a, b with [], [] => true | x :: a, y :: b => eqb x y && same a b | _, _ => false end.
  Definition sput (m : lists) (v : nat) (l : list A) : option (lists * @out A) := Some (upd m v (Some l), ONone).
  Definition sexec (m : lists) (c : @cmd A) : option (lists * @out A) :=
    match c with
    | CNew v => bind (absent m v) (fun _ => sput m v [])
    | CNewFill v n r => bind (absent m v) (fun _ => bind (value m v r) (fun a => sput m v (repeat a n)))
    | CNewSize v n => bind (absent m v) (fun _ => sput m v (repeat dflt n))
    | CNewList v l => bind (absent m v) (fun _ => sput m v l)
    | CCopyNew v w => bind (absent m v) (fun _ => bind (m w) (fun l => sput m v l))
    | CMoveNew v w => bind (absent m v) (fun _ => bind (m w) (fun l => sput (upd m w (Some [])) v l))
    | CCopy v w => bind (m v) (fun _ => bind (m w) (fun l => sput m v l))
    | CMove v w => bind (m v) (fun _ => bind (m w) (fun l => sput (upd m w (Some [])) v l))
    | CDelete v => bind (m v) (fun _ => Some (upd m v None, ONone))
    | CPush v r => bind (m v) (fun l => bind (value m v r) (fun a => sput m v (l ++ [a])))
    | CClear v => bind (m v) (fun _ => sput m v [])
    | CReserve v n => bind (m v) (fun l => sput m v l)
    | CResize v n => bind (m v) (fun l => sput m v (firstn n l ++ repeat dflt (n - length l)))
    | CResizeFill v n r => bind (m v) (fun l => bind (value m v r) (fun a => sput m v (firstn n l ++ repeat a (n - length l))))
    | CInsert v i r => bind (m v) (fun l => bind (value m v r) (fun a =>
        if i <=? length l then sput m v (firstn i l ++ [a] ++ skipn i l) else None))
    | CSet v i r => bind (m v) (fun l => bind (value' m r) (fun a =>
        if i <? length l then sput m v (firstn i l ++ [a] ++ skipn (S i) l) else None))
    | CGet v i => bind (m v) (fun l => option_map (fun a => (m, OVal a)) (nth_error l i))
    | CSize v => bind (m v) (fun l => Some (m, ONat (length l)))
    | CEq v w => bind (m v) (fun l => bind (m w) (fun k => Some (m, OBool (same l k))))
    end.
  Fixpoint sexecs (m : lists) (l : list (@cmd A)) : option (lists * list (@out A)) :=
    match l with
    | [] => Some (m, [])
    | c :: r => match sexec m c with
                | Some (m', o) => match sexecs m' r with Some (m'', os) => Some (m'', o :: os) | None => None end
                | None => None
                end
    end.
  Definition none : lists := fun _ => None.
End Spec.
