(** Strings in the store: src/Distributed/Store.cpp.  A string is a list of chars,
    which are signed bytes (x86-64 and AArch64 Darwin; where char is unsigned both conversions are
    the identity). *)
From Coq Require Import ZArith List.
From Verif Require Import StoreModel.
Import ListNotations.
Open Scope Z_scope.

(** Store.cpp:12, the conversion of each char to uint8_t. *)
Definition toBytes (s : list Z) : value := map (fun c => c mod 256) s.
(** Store.cpp:17, the conversion of each uint8_t to char. *)
Definition fromBytes (v : value) : list Z := map (fun b => if b <? 128 then b else b - 256) v.
(** Store.cpp:11-13: the operation that set of a string calls. *)
Definition setString (k : key) (s : list Z) : op := OSet k (toBytes s).
(** Store.cpp:15-18: the string for an answer to get; none if there is no value. *)
Definition getString (r : res) : option (list Z) := match r with RValue v => Some (fromBytes v) | _ => None end.
