(* What it means that a kernel launch is right under every schedule. *)
From Coq Require Import List Arith ZArith Bool.
From Verif Require Import GpuModel.
Import ListNotations.

Section Spec.
Context {V : Type}.

(* Whatever order the device runs the threads in: no access is undefined, no
   thread waits for ever, the launch ends, and the memory it leaves satisfies Q. *)
Definition always (l : launch V) (m : addr -> cell V) (Q : (addr -> cell V) -> Prop) : Prop :=
  accepted l /\
  Acc (fun s' s => step l s s') (start l m) /\
  (forall s, reach l (start l m) s ->
     ~ bad l s /\
     (finished l s \/ exists s', step l s s') /\
     (finished l s -> Q (mem s))).

(* Launches on one stream, one after the other. *)
Fixpoint always_all (ls : list (launch V)) (m : addr -> cell V) (Q : (addr -> cell V) -> Prop) : Prop :=
  match ls with
  | [] => Q m
  | l :: ls => always l m (fun m' => always_all ls m' Q)
  end.

(* Some order of the threads leaves a memory that satisfies Q. *)
Definition sometimes (l : launch V) (m : addr -> cell V) (Q : (addr -> cell V) -> Prop) : Prop :=
  exists s, reach l (start l m) s /\ finished l s /\ Q (mem s).

(* Some order of the threads makes an access with no defined effect. *)
Definition may_crash (l : launch V) (m : addr -> cell V) : Prop :=
  exists s, reach l (start l m) s /\ bad l s.

(* Buffer p of the memory holds exactly the elements xs. *)
Definition holds (m : addr -> cell V) (p : nat) (xs : list V) : Prop :=
  forall i, m (p, i) = if (i <? 0)%Z then None
                       else match nth_error xs (Z.to_nat i) with Some x => Some (Some x) | None => None end.

(* Buffer p of the memory has n elements, whatever they are. *)
Definition room (m : addr -> cell V) (p : nat) (n : nat) : Prop :=
  forall i, m (p, i) = None <-> ~ (0 <= i < Z.of_nat n)%Z.

(* The memories agree on every buffer but p. *)
Definition same_but (p : nat) (m m' : addr -> cell V) : Prop :=
  forall q i, q <> p -> m' (q, i) = m (q, i).
End Spec.
