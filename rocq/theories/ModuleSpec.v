(** What C50 means: a tensor sits in a module tree at a path of names. *)
From Coq Require Import List Bool Arith String Ascii.
From Verif Require Import ModuleModel.
Import ListNotations.
Local Open Scope string_scope.

(** [sub_at m path m']: following the registered names [path] from [m] leads to [m']. *)
Inductive sub_at : mtree -> list string -> mtree -> Prop :=
| at_root : forall m, sub_at m [] m
| at_sub : forall m name m1 path m2, In (name, m1) (msubs m) -> sub_at m1 path m2 -> sub_at m (name :: path) m2.
(** The module at [path] itself has the tensor [p] under [name]. *)
Definition owns (own : mtree -> list (string * nat)) (m : mtree) (path : list string) (name : string) (p : nat) : Prop :=
  exists m', sub_at m path m' /\ In (name, p) (own m').
(** "a.b.name" *)
Definition dotted (path : list string) (name : string) : string := fold_right (fun a s => a ++ "." ++ s) name path.
Fixpoint dot_free (s : string) : Prop :=
  match s with EmptyString => True | String c s => c <> "."%char /\ dot_free s end.
(** In every module of the tree sibling names are distinct and without dots. *)
Definition well_named (own : mtree -> list (string * nat)) (m : mtree) : Prop :=
  forall path m', sub_at m path m' ->
    NoDup (map fst (own m')) /\ NoDup (map fst (msubs m')) /\ (forall n, In n (map fst (own m') ++ map fst (msubs m'))%list -> dot_free n).
(** The module with this address is in the tree. *)
Definition reachable (m : mtree) (a : nat) : Prop := exists path m', sub_at m path m' /\ maddr m' = a.
