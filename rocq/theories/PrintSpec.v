(** What a printed tensor has to look like. *)
From Coq Require Import ZArith Reals List Bool Arith String Ascii.
From Flocq Require Import IEEE754.Binary IEEE754.Bits.
From Verif Require Import DispatchModel CastModel StoreSpec PrintModel.
Import ListNotations.
Open Scope Z_scope.

(** Pieces with a comma and a space between them. *)
Fixpoint joined (l : list text) : text := match l with [] => [] | [x] => x | x :: r => x ++ [44; 32] ++ joined r end.
(** A number [v] to six decimals: sign, digits, a point and six digits, not more
    than half a unit of the last digit away. *)
Definition sixDecimals (s : bool) (v : R) (t : text) : Prop := exists i f n,
  t = (if s then [45] else []) ++ i ++ [46] ++ f /\ is_decimal i n /\ 0 <= n /\ Forall is_digit f /\ List.length f = 6%nat /\
  (Rabs (IZR (n * 1000000 + number_of f) / 1000000 - Rabs v) <= / 2 / 1000000)%R.
(** The text of a floating-point number. *)
Definition floatShown (x : binary32) (t : text) : Prop :=
  match x with
  | B754_infinity _ _ s => t = (if s then [45] else []) ++ [105; 110; 102]
  | B754_nan _ _ s _ _ => t = (if s then [45] else []) ++ [110; 97; 110]
  | _ => sixDecimals (Bsign 24 128 x) (B2R 24 128 x) t
  end.
(** The text of an element: a whole number for the integer types and Bool. *)
Definition elementShown (t : dtype) (w : Z) (s : text) : Prop := if isInt t then is_decimal s w else floatShown (toFloat t w) s.
(** Numbers of the size of an int64, and what a tensor contains. *)
Definition int64 (z : Z) : Prop := - 2 ^ 63 <= z < 2 ^ 63.
Definition wellTyped (t : tens) : Prop := Forall int64 (shape t) /\ int64 (index t) /\ (isInt (dty t) = true -> Forall int64 (data t)).
(** The elements of which the text is shown: all, or the first and the last eight
    with dots between them. *)
Definition shownAs (t : dtype) (full : bool) (l : list Z) (items : list text) : Prop :=
  if (full || (List.length l <=? 16)%nat)%bool then Forall2 (elementShown t) l items
  else exists a b, items = a ++ [[46; 46; 46; 32]] ++ b /\ Forall2 (elementShown t) (firstn 8 l) a /\ Forall2 (elementShown t) (skipn (List.length l - 8) l) b.
(** What of two tensors is the same if all is shown that is shown. *)
Definition seenElements (full : bool) (l : list Z) : list Z := if (full || (List.length l <=? 16)%nat)%bool then l else firstn 8 l ++ skipn (List.length l - 8) l.
(** Texts without the character 0, as C strings are. *)
Definition cString (t : text) : Prop := Forall (fun c => c <> 0) t.
(** The calls of thread [i] in a history. *)
Definition callsOf (i : nat) (h : list (nat * (level * text))) : list (level * text) := map snd (filter (fun p => Nat.eqb (fst p) i) h).
(** The line one call writes: the level, the first 1022 characters of the text, up to
    a null character, and an end of line. *)
Definition levelName (l : level) : text := match l with Info => str "[INFO] " | Debug => str "[DEBUG] " | Warning => str "[WARNING] " | Error => str "[ERROR] " end.
Fixpoint untilNull (t : text) : text := match t with [] => [] | c :: r => if c =? 0 then [] else c :: untilNull r end.
Definition line (c : level * text) : text := levelName (fst c) ++ firstn 1022 (untilNull (snd c)) ++ [10].
(** The whole lines of a history, in its order; errors go to stderr. *)
Definition stdoutOf (h : list (nat * (level * text))) : text := flat_map (fun p => match fst (snd p) with Error => [] | _ => line (snd p) end) h.
Definition stderrOf (h : list (nat * (level * text))) : text := flat_map (fun p => match fst (snd p) with Error => line (snd p) | _ => [] end) h.
(** The text of a tensor, from its parts. *)
Definition layout (dims device index type grad pin elements : text) : text :=
  str "Tensor {" ++ [10] ++ str "  shape: [" ++ dims ++ str "]," ++ [10] ++ str "  options: { device:{ type:" ++ device ++ str ", index:" ++ index ++ str " }, dtype:" ++ type ++
  str ", requiresGrad:" ++ grad ++ str ", pinnedMemory:" ++ pin ++ str " }," ++ [10] ++ str "  data: [" ++ elements ++ str "]" ++ [10] ++ str "}".
(** Names. *)
Definition deviceName (cuda : bool) : text := if cuda then str "CUDA" else str "CPU".
Definition typeName (t : dtype) : text := match t with Float32 => str "Float32" | Float16 => str "Float16" | BFloat16 => str "BFloat16" | Int32 => str "Int32" | Int64 => str "Int64" | Bool => str "Bool" end.
Definition yesNo (b : bool) : text := if b then str "1" else str "0".
(** The tag, before the text, between quotes. *)
Definition tagShown (tag : option text) : text := match tag with Some g => str "[" ++ [34] ++ g ++ [34] ++ str "] " | None => [] end.
