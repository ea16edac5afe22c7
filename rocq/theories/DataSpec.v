(** Specification of an epoch of a data loader. *)
From Coq Require Import ZArith List.
From Verif Require Import DataModel.
Import ListNotations.
Open Scope Z_scope.

(** The order in which a loader has to deliver the samples. *)
Definition order (src : source) : list nat :=
  match src with FromSampler l => l | Plain n sh draw => if sh then shuffle draw (iota n) else iota n end.
(** How many batches of [bs] there are among [n] samples. *)
Definition batches (n : nat) (bs : Z) (dropLast : bool) : Z :=
  if dropLast then Z.of_nat n / bs else (Z.of_nat n + bs - 1) / bs.
(** The samples delivered by the batches of one pass, in order. *)
Definition visited (l : loader) : list nat :=
  concat (map (fun k => batchRange l (Z.of_nat k)) (seq 0 (Z.to_nat (batchCnt l)))).
