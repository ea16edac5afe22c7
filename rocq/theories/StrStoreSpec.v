(** Strings. *)
From Coq Require Import ZArith List.
Open Scope Z_scope.

(** Strings: lists of signed bytes. *)
Definition isString (s : list Z) : Prop := Forall (fun c => -128 <= c <= 127) s.
