(** Tensors as values: every tensor object owns its elements. *)
From Coq Require Import List Bool Arith.
From Verif Require Import CowModel.
Import ListNotations.

Section Values.
Context {A : Type}.
(** Which object each handle names, and the elements of each object. *)
Record values := mkV { names : nat -> option nat; obj : nat -> list (option A); fresh_obj : nat }.
Definition no_values : values := mkV (fun _ => None) (fun _ => []) 0.
Definition set {X} (f : nat -> X) (k : nat) (x : X) : nat -> X := fun j => if j =? k then x else f j.
Definition new_object (v : values) (h : nat) (d : list (option A)) : values :=
  mkV (set (names v) h (Some (fresh_obj v))) (set (obj v) (fresh_obj v) d) (S (fresh_obj v)).
Definition vstep (v : values) (o : op A) : values :=
  match o with
  | OEmpty h n => new_object v h (repeat None n)
  | OCreate h d => new_object v h (map Some d)
  | OCopy h h' => match names v h with Some i => mkV (set (names v) h' (Some i)) (obj v) (fresh_obj v) | None => v end
  | ODrop h => mkV (set (names v) h None) (obj v) (fresh_obj v)
  | OClone h h' => match names v h with Some i => new_object v h' (obj v i) | None => v end
  | OSlice h h' start len =>
    match names v h with
    | Some i => if start + len <=? length (obj v i) then new_object v h' (firstn len (skipn start (obj v i))) else v
    | None => v
    end
  | OTouch _ => v
  | OWrite h d | OWriteShared h d =>
    match names v h with
    | Some i => if length d =? length (obj v i) then mkV (names v) (set (obj v) i (map Some d)) (fresh_obj v) else v
    | None => v
    end
  end.
Definition vrun (ops : list (op A)) : values := fold_left vstep ops no_values.
Definition value (v : values) (h : nat) : option (list (option A)) :=
  match names v h with Some i => Some (obj v i) | None => None end.
End Values.
(** The operation goes through copy-on-write. *)
Definition isolated {A} (o : op A) : Prop := match o with OWriteShared _ _ => False | _ => True end.
