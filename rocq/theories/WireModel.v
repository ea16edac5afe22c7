(** Messages of the TCP store: src/Distributed/TCPStore.cpp, on a little-endian
    host.  A connection's incoming bytes are the list of pieces successive calls
    of recv return. *)
From Coq Require Import ZArith List Bool Arith.
From Verif Require SerialModel.
From Verif Require Import StoreModel.
Import ListNotations.
Open Scope Z_scope.

(** Model only: how the structs and words of TCPStore.cpp:410-601 lie in memory. *)
Definition le64 : Z -> list byte := SerialModel.le64.
(** Model only: the inverse of [le64]. *)
Definition from_le : list byte -> Z := SerialModel.from_le.
(** Model only: the same bits as int64_t. *)
Definition s64 : Z -> Z := SerialModel.s64.
(** TCPStore.cpp:58-84, [sendBytes]: the kernel takes [amounts] bytes in
    successive calls of send; what goes onto the wire, [None] when a call fails. *)
Fixpoint sendBytes (data : list byte) (amounts : list nat) : option (list byte) :=
  match data with
  | [] => Some []
  | _ => match amounts with
         | [] => None
         | O :: _ => None
         | a :: r => match sendBytes (skipn a data) r with Some w => Some (firstn a data ++ w) | None => None end
         end
  end.
(** TCPStore.cpp:86-117, [recvBytes] of [n] bytes: what was read and the pieces
    left; [None] when the connection ends (recv returns 0). *)
Fixpoint recvBytes (cs : list (list byte)) (n : nat) : option (list byte * list (list byte)) :=
  match n with
  | O => Some ([], cs)
  | _ =>
    match cs with
    | [] => None
    | [] :: _ => None
    | c :: r =>
      if (length c <=? n)%nat
      then match recvBytes r (n - length c) with Some (b, r') => Some (c ++ b, r') | None => None end
      else Some (firstn n c, skipn n c :: r)
    end
  end.

(** TCPStore.cpp:41-51. *)
Inductive request := QOp (o : op) | QRegister | QUnregister.
(** What the client sends: TCPStore.cpp:410-601. *)
Definition sendString (s : list byte) : list byte := le64 (Z.of_nat (length s)) ++ s.
(** TCPStore.cpp:410-601. *)
Definition encode (q : request) : list byte :=
  match q with
  | QOp (OSet k v) => [0] ++ sendString k ++ sendString v
  | QOp (OGet k) => [1] ++ sendString k
  | QOp (OAdd k n) => [2] ++ sendString k ++ le64 n
  | QOp (OCheck ks) => [3] ++ le64 (Z.of_nat (length ks)) ++ flat_map sendString ks
  | QOp (OWait ks) => [4] ++ le64 (Z.of_nat (length ks)) ++ flat_map sendString ks
  | QOp (ODelete k) => [5] ++ sendString k
  | QOp ONumKeys => [6]
  | QRegister => [7]
  | QUnregister => [8]
  end.
(** What the server answers; nothing to [QUnregister] and when it closes.
    TCPStore.cpp:892-1240, the sending parts. *)
Definition answer (q : request) (r : res) : list byte :=
  match q, r with
  | QOp (OSet _ _), _ => [1]
  | QOp (OGet _), RValue v => sendString v
  | QOp (OAdd _ _), RInt n | QOp ONumKeys, RInt n => le64 n
  | QOp (OCheck _), RBool b | QOp (OWait _), RBool b | QOp (ODelete _), RBool b => [if b then 1 else 0]
  | QRegister, _ => [1]
  | _, _ => []
  end.

(** The readers, over any stream with a way to receive [n] bytes. *)
Section Readers.
Context {St : Type} (recv : St -> nat -> option (list byte * St)).
(** Model only: reading one 64-bit word, as at TCPStore.cpp:892-912. *)
Definition rdWord (s : St) : option (Z * St) := match recv s 8 with Some (b, s) => Some (from_le b, s) | None => None end.
(** A size, then as many bytes.  Model only: as at TCPStore.cpp:892-912. *)
Definition rdString (s : St) : option (list byte * St) :=
  match rdWord s with Some (n, s) => recv s (Z.to_nat n) | None => None end.
(** Model only: as at TCPStore.cpp:1051-1071. *)
Fixpoint rdStrings (n : nat) (s : St) : option (list (list byte) * St) :=
  match n with
  | O => Some ([], s)
  | S n => match rdString s with
           | None => None
           | Some (k, s) => match rdStrings n s with Some (ks, s) => Some (k :: ks, s) | None => None end
           end
  end.
(** Model only: as at TCPStore.cpp:1051-1071. *)
Definition rdKeys (s : St) : option (list (list byte) * St) :=
  match rdWord s with Some (n, s) => rdStrings (Z.to_nat n) s | None => None end.
(** Model only: apply a function to what was read. *)
Definition onSnd {A B} (f : A -> B) (x : option (A * St)) : option (B * St) := match x with Some (a, s) => Some (f a, s) | None => None end.
(** The server: TCPStore.cpp:853-890 handleClient and the reading parts of the
    handlers, 892-1200. *)
Definition serverRead (s : St) : option (request * St) :=
  match recv s 1 with
  | Some ([c], s) =>
    if c =? 0 then match rdString s with Some (k, s) => onSnd (fun v => QOp (OSet k v)) (rdString s) | None => None end
    else if c =? 1 then onSnd (fun k => QOp (OGet k)) (rdString s)
    else if c =? 2 then match rdString s with Some (k, s) => onSnd (fun n => QOp (OAdd k (s64 n))) (rdWord s) | None => None end
    else if c =? 3 then onSnd (fun ks => QOp (OCheck ks)) (rdKeys s)
    else if c =? 4 then onSnd (fun ks => QOp (OWait ks)) (rdKeys s)
    else if c =? 5 then onSnd (fun k => QOp (ODelete k)) (rdString s)
    else if c =? 6 then Some (QOp ONumKeys, s)
    else if c =? 7 then Some (QRegister, s)
    else if c =? 8 then Some (QUnregister, s)
    else None
  | _ => None
  end.
(** Model only: the loop of TCPStore.cpp:819-851, several requests. *)
Fixpoint serverReads (n : nat) (s : St) : option (list request * St) :=
  match n with
  | O => Some ([], s)
  | S n => match serverRead s with
           | None => None
           | Some (q, s) => match serverReads n s with Some (qs, s) => Some (q :: qs, s) | None => None end
           end
  end.
(** The client reading the answer to [q]: TCPStore.cpp:410-601.  [None]: the call
    fails. *)
Definition clientRead (q : request) (s : St) : option (res * St) :=
  match q with
  | QOp (OSet _ _) | QRegister => match recv s 1 with Some ([b], s) => if b =? 1 then Some (RDone, s) else None | _ => None end
  | QOp (OGet _) => onSnd RValue (rdString s)
  | QOp (OAdd _ _) | QOp ONumKeys => onSnd (fun n => RInt (s64 n)) (rdWord s)
  | QOp (OCheck _) | QOp (OWait _) | QOp (ODelete _) => match recv s 1 with Some ([b], s) => Some (RBool (b =? 1), s) | _ => None end
  | QUnregister => Some (RDone, s)
  end.
End Readers.
