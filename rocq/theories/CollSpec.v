(** What a collective has to do. *)
From Coq Require Import List Bool Arith Reals.
From Verif Require Import CollModel.
Import ListNotations.

(** [v] is the reduction of the ranks' values [vals]. *)
Definition reduction (op : reduceOpType) (vals : list R) (v : R) : Prop :=
  match op with
  | SUM => v = fold_right Rplus 0%R vals
  | AVG => (v * INR (length vals))%R = fold_right Rplus 0%R vals
  | PRODUCT => v = fold_right Rmult 1%R vals
  | MIN => In v vals /\ forall x, In x vals -> (v <= x)%R
  | MAX => In v vals /\ forall x, In x vals -> (x <= v)%R
  | UNUSED => False
  end.
(** Every rank passes a tensor of [n] elements. *)
Definition passes (n : nat) (ranks : list (mem * nat)) (bufs : list (list R)) : Prop :=
  Forall2 (fun ra b => nth_error (fst ra) (snd ra) = Some b /\ length b = n) ranks bufs.
(** In [m'] the tensor at [a] holds [b], and everything else is as in [m]. *)
Definition changed (m : mem) (a : nat) (b : list R) (m' : mem) : Prop :=
  nth_error m' a = Some b /\ forall a', a' <> a -> nth_error m' a' = nth_error m a'.
(** The same, but new tensors may have been made. *)
Definition changed_old (m : mem) (a : nat) (b : list R) (m' : mem) : Prop :=
  nth_error m' a = Some b /\ forall a', a' < length m -> a' <> a -> nth_error m' a' = nth_error m a'.
(** The rank's list of tensors holds [l], each of [n] elements. *)
Definition lists (n : nat) (m : mem) (addrs : list nat) (l : list (list R)) : Prop :=
  Forall2 (fun a b => nth_error m a = Some b /\ length b = n) addrs l.
(** Each of the ranks of a world of size [w] passes its input of [n] elements and
    a list of [w] output tensors of that size. *)
Definition gathers (w n : nat) (ranks : list gargs) (inputs : list (list R)) : Prop :=
  Forall2 (fun g b => nth_error (gmem g) (gin g) = Some b /\ length b = n /\ length (gouts g) = w /\ exists l, lists n (gmem g) (gouts g) l) ranks inputs.
(** Each rank passes [w] inputs of [n] elements and an output of that size;
    [ins] are all ranks' lists of inputs. *)
Definition scatters (w n : nat) (ranks : list gargs) (ins : list (list (list R))) : Prop :=
  Forall2 (fun g l => lists n (gmem g) (gouts g) l /\ length (gouts g) = w /\ exists old, nth_error (gmem g) (gin g) = Some old /\ length old = n) ranks ins.
