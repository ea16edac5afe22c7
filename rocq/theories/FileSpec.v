(** What a map kept in files should do. *)
From Coq Require Import ZArith List Bool Arith.
From Verif Require Import StoreModel StoreSpec FileModel.
Import ListNotations.
Open Scope Z_scope.

(** Setting and getting; a key never written reads as empty. *)
Definition file_step (m : amap) (o : op) (r : res) (m' : amap) : Prop :=
  match o with
  | OSet k v => r = RDone /\ m' k = Some v /\ changed_only m m' k
  | OGet k => unchanged m m' /\ (m k = None /\ r = RValue [] \/ exists v, m k = Some v /\ r = RValue v)
  | _ => False
  end.
Inductive file_run (m : amap) : list (op * res) -> amap -> Prop :=
| file_nil : forall m', unchanged m m' -> file_run m [] m'
| file_snoc : forall l m1 o r m2, file_run m l m1 -> file_step m1 o r m2 -> file_run m (l ++ [(o, r)]) m2.
Definition file_linearizable (tr : list event) : Prop :=
  exists l, visible l = tr /\ (forall c, exists p, phases c l p) /\ exists m, file_run (fun _ => None) (points l) m.

(** Inodes in use are distinct and old; nobody is calling, nobody holds a lock. *)
Record dok (d : disk) : Prop := {
  dk_fresh : forall k i, lookup (dir d) k = Some i -> (i < fresh d)%nat;
  dk_inj : forall k k' i, lookup (dir d) k = Some i -> lookup (dir d) k' = Some i -> k = k';
  dk_lock : forall i p, lock d i = Some p -> (i < fresh d)%nat
}.
Record quiet (s : fsys) : Prop := {
  q_proc : forall p, proc s p = PReady;
  q_lock : forall i, lock (disk_ s) i = None;
  q_disk : dok (disk_ s);
  q_nodup : NoDup (map fst (dir (disk_ s)))
}.
(** What the files hold. *)
Definition content (d : disk) (k : key) : option value := option_map (data d) (lookup (dir d) k).
Definition contents (s : fsys) : amap := content (disk_ s).
