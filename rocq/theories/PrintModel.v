(** Printing tensors and the log: src/Tensor/TensorPrinter.cpp,
    src/Utils/Logger.cpp.  A text is a list of characters, as numbers. *)
From Coq Require Import ZArith List Bool Arith String Ascii.
From Flocq Require Import IEEE754.BinarySingleNaN IEEE754.Binary IEEE754.Bits.
From Verif Require Import DispatchModel StoreModel CastModel.
Import ListNotations.
Open Scope Z_scope.

(** Model only: texts. *)
Definition text := list Z.
(** Model only: the characters of a literal. *)
Definition str (s : string) : text := map (fun c => Z.of_N (N_of_ascii c)) (list_ascii_of_string s).
(** Model only: the end of a line, character 10. *)
Definition nl : text := [10].

(** The C library's "%f" of a finite number m * 2^e, which [std::to_string] of a
    float uses (TensorPrinter.cpp:23, 30, 37): in units of 10^-6, to nearest, ties to even. *)
Definition micros (m e : Z) : Z :=
  if 0 <=? e then m * 2 ^ e * 10 ^ 6
  else let q := m * 10 ^ 6 / 2 ^ (- e) in let r := (m * 10 ^ 6) mod 2 ^ (- e) in
       if (2 ^ (- e) <? 2 * r) || ((2 ^ (- e) =? 2 * r) && Z.odd q) then q + 1 else q.
(** "%f": the decimal digits of a number below 10^60; as called at
    TensorPrinter.cpp:23, 30, 37. *)
Definition whole (n : Z) : text := digits 59 n [].
(** "%f": six digits; as called at TensorPrinter.cpp:23, 30, 37. *)
Definition six (n : Z) : text := map (fun p => 48 + n / p mod 10) [100000; 10000; 1000; 100; 10; 1].
(** "%f": as called at TensorPrinter.cpp:23, 30, 37. *)
Definition sgn (s : bool) : text := if s then str "-" else [].
(** "%f" with glibc's names of infinities and NaN; as called at TensorPrinter.cpp:23, 30, 37. *)
Definition floatText (x : binary32) : text :=
  match x with
  | B754_zero _ _ s => sgn s ++ str "0.000000"
  | B754_infinity _ _ s => sgn s ++ str "inf"
  | B754_nan _ _ s _ _ => sgn s ++ str "nan"
  | B754_finite _ _ s m e _ => let n := micros (Zpos m) e in sgn s ++ whole (n / 10 ^ 6) ++ str "." ++ six (n mod 10 ^ 6)
  end.
(** TensorPrinter.cpp:23, 30, 37, [std::to_string] of an element; Half and BFloat16 by
    their conversion to float, Bool (uint8_t) as an int. *)
Definition elementText (t : dtype) (w : Z) : text := if isInt t then to_string w else floatText (toFloat t w).

(** TensorPrinter.cpp:22-27, 29-34, 36-41: the elements i, ..., i + n - 1, each
    followed by a comma unless it is the one at [last]; undefined outside the array. *)
Fixpoint elements {A} (f : A -> text) (v : list A) (i n last : nat) : option text :=
  match n with
  | O => Some []
  | S n => match nth_error v i, elements f v (S i) n last with
           | Some x, Some r => Some (f x ++ (if (i =? last)%nat then [] else str ", ") ++ r)
           | _, _ => None
           end
  end.
(** TensorPrinter.cpp:16-45.  For no elements size - 1 wraps around, but is not used. *)
Definition printArray {A} (f : A -> text) (v : list A) (full : bool) : option text :=
  let size := List.length v in
  match (if full || (size <=? 16)%nat then elements f v 0 size (size - 1)
         else match elements f v 0 8 7, elements f v (size - 8) 8 (size - 1) with
              | Some a, Some b => Some (a ++ str ", ... , " ++ b)
              | _, _ => None
              end) with
  | Some r => Some (str "[" ++ r ++ str "]")
  | None => None
  end.
(** Tensor.h, Options.h: what is printed of a tensor; the device is CUDA or not, with an
    index. *)
Record tens := Tens { shape : list Z; cuda : bool; index : Z; dty : dtype; requiresGrad : bool; pinned : bool; data : list Z }.
(** Device.h:19-30, TensorPrinter.cpp:53-59. *)
Definition printDevice (c : bool) (i : Z) : text := str "{ type:" ++ (if c then str "CUDA" else str "CPU") ++ str ", index:" ++ to_string i ++ str " }".
(** DType.h:48-67. *)
Definition dtypeToString (t : dtype) : text :=
  match t with Float32 => str "Float32" | Float16 => str "Float16" | BFloat16 => str "BFloat16" | Int32 => str "Int32" | Int64 => str "Int64" | Bool => str "Bool" end.
(** TensorPrinter.cpp:65-66: [std::to_string] of a bool. *)
Definition flag (b : bool) : text := to_string (if b then 1 else 0).
(** TensorPrinter.cpp:61-69. *)
Definition printOptions (t : tens) : text :=
  str "{ device:" ++ printDevice (cuda t) (index t) ++ str ", dtype:" ++ dtypeToString (dty t) ++ str ", requiresGrad:" ++ flag (requiresGrad t) ++ str ", pinnedMemory:" ++ flag (pinned t) ++ str " }".
(** TensorPrinter.cpp:91-98, with printData (71-89). *)
Definition printTensorImpl (t : tens) (full : bool) : option text :=
  match printArray to_string (shape t) true, printArray (elementText (dty t)) (data t) full with
  | Some s, Some d => Some (str "Tensor {" ++ nl ++ str "  shape: " ++ s ++ str "," ++ nl ++ str "  options: " ++ printOptions t ++ str "," ++ nl ++ str "  data: " ++ d ++ nl ++ str "}")
  | _, _ => None
  end.
(** TensorPrinter.cpp:102-104, 112-114: the tag between brackets and quotes. *)
Definition tagText (tag : option text) : text := match tag with Some g => str "[" ++ [34] ++ g ++ [34] ++ str "] " | None => [] end.

(** Logger.h:20-25: levels, in this order. *)
Inductive level := Info | Debug | Warning | Error.
(** Logger.h:20-25, the numbers of the levels. *)
Definition levelNum (l : level) : Z := match l with Info => 0 | Debug => 1 | Warning => 2 | Error => 3 end.
(** The string up to its first null character, as "%s" prints it; TensorPrinter.cpp:107, 120. *)
Fixpoint cstr (t : text) : text := match t with [] => [] | c :: r => if c =? 0 then [] else c :: cstr r end.
(** Logger.cpp:29-33 with MAX_LOG_LENGTH (Logger.h:17): [vsnprintf] writes at most
    1023 - 1 characters into the buffer. *)
Definition filled (t : text) : text := firstn (Z.to_nat (1024 - 1 - 1)) (cstr t).
(** Logger.cpp:56-69 (LOG_FILE_LINE is not defined). *)
Definition written (l : level) (buf : text) : text :=
  (match l with Info => str "[INFO] " | Debug => str "[DEBUG] " | Warning => str "[WARNING] " | Error => str "[ERROR] " end) ++ buf ++ nl.
(** Logger.cpp:66-68. *)
Definition toStderr (l : level) : bool := match l with Error => true | _ => false end.
(** TensorPrinter.cpp:110-121 print: the call of the log; [None] for an undefined
    tensor. *)
Definition print (t : option tens) (tag : option text) (full : bool) : option (level * text) :=
  match t with
  | None => Some (Debug, str "Tensor { undefined }")
  | Some t => match printTensorImpl t full with Some r => Some (Debug, tagText tag ++ r) | None => None end
  end.

(** A thread inside Logger::log: before it, with the lock (Logger.cpp:24), with the
    buffer filled (Logger.cpp:31). *)
Inductive place := Outside | Locked (c : level * text) | Filled (l : level).
(** Logger.cpp:14-18 (logFunc_ is private, null and never set, so its branch at 35-38 is left out): the buffer and the lock of all threads, and what has been written to stdout
    and stderr; each thread has its place and the calls it has still to make. *)
Record state := State { buffer : text; owner : option nat; out : text; err : text; threads : nat -> place * list (level * text) }.
(** Model only: thread [i] changed. *)
Definition setThread (f : nat -> place * list (level * text)) (i : nat) (x : place * list (level * text)) : nat -> place * list (level * text) :=
  fun j => if (j =? i)%nat then x else f j.
(** One step of thread [i], if it can make one: take the lock (Logger.cpp:24); return
    for a level that is too low (25-27; the least level is LOG_INFO and cannot be set) or fill
    the buffer (29-33); write the buffer out and give the lock back (56-73). *)
Definition step (s : state) (i : nat) : option state :=
  match threads s i with
  | (Outside, c :: r) => match owner s with None => Some (State (buffer s) (Some i) (out s) (err s) (setThread (threads s) i (Locked c, r))) | Some _ => None end
  | (Outside, []) => None
  | (Locked (l, t), r) =>
      if levelNum l <? levelNum Info then Some (State (buffer s) None (out s) (err s) (setThread (threads s) i (Outside, r)))
      else Some (State (filled t) (owner s) (out s) (err s) (setThread (threads s) i (Filled l, r)))
  | (Filled l, r) =>
      let w := written l (buffer s) in
      Some (State (buffer s) None (if toStderr l then out s else out s ++ w) (if toStderr l then err s ++ w else err s) (setThread (threads s) i (Outside, r)))
  end.
(** Model only: the threads move in the order of a schedule; a thread that cannot move waits. *)
Fixpoint run (s : state) (sched : list nat) : state := match sched with [] => s | i :: r => run (match step s i with Some s' => s' | None => s end) r end.
(** Model only: before any call. *)
Definition start (calls : nat -> list (level * text)) : state := State [] None [] [] (fun i => (Outside, calls i)).
