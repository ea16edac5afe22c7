(** Specification of loading. *)
From Coq Require Import ZArith List.
From Verif Require Import SerialModel.
Import ListNotations.
Open Scope Z_scope.

(** A tensor as the library keeps it: element type known, dimensions that fit,
    as many bytes as elements need, all of them bytes. *)
Definition is_byte (b : Z) : Prop := 0 <= b < 256.
Definition good_tensor (t : tensor) : Prop :=
  0 <= tdtype t <= 5 /\ Forall (fun d => 0 <= d < 2 ^ 63) (tshape t) /\
  Z.of_nat (length (tdata t)) = numel (tshape t) * dtypeSize (tdtype t) /\ Z.of_nat (length (tdata t)) < 2 ^ 63 /\ Forall is_byte (tdata t).
(** A module that can be saved: distinct names, good tensors, and a file that
    fits the address space. *)
Definition good_module (mem : memory) (ms : states) : Prop :=
  NoDup (map fst ms) /\ Forall (fun p => good_tensor (mem (snd p))) ms.
(** How many bytes the headers take. *)
Definition header_bytes (mem : memory) (ms : states) : nat :=
  (24 + list_sum (map (fun p => 40 + length (fst p) + 8 * length (tshape (mem (snd p)))) ms))%nat.
Definition fits (mem : memory) (ms : states) : Prop :=
  Z.of_nat (header_bytes mem ms + list_sum (map (fun p => length (tdata (mem (snd p)))) ms)) < 2 ^ 63.
Definition same_type (t t' : tensor) : Prop := tshape t = tshape t' /\ tdtype t = tdtype t'.
(** The data of [p], written after all headers and the data of the tensors before
    it, lies within the first [k] bytes of the file. *)
Definition ends_by (mem : memory) (ms : states) (p : name * nat) (k : nat) : Prop :=
  exists pre post : states, ms = pre ++ p :: post /\
    (header_bytes mem ms + list_sum (map (fun q => length (tdata (mem (snd q)))) pre) + length (tdata (mem (snd p))) <= k)%nat.
