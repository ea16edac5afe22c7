(** Saving and loading modules: src/Serializer.cpp, src/Serializer.h, on a
    little-endian host.
    Files are lists of bytes.  [None] is undefined behaviour: reading outside
    the mapped file.  A module is the list [namedStates()] of names and tensor
    identities; tensors on the CPU, each with its own storage.  Writing the file
    is assumed not to fail (save does not check). *)
From Coq Require Import ZArith List Bool Arith.
Import ListNotations.
Open Scope Z_scope.

(** Model only: a byte, 0 to 255. *)
Definition byte := Z.
(** Model only: uint64_t arithmetic. *)
Definition u64 (x : Z) : Z := x mod 2 ^ 64.
(** Model only: int64_t arithmetic. *)
Definition s64 (x : Z) : Z := let y := u64 x in if y <? 2 ^ 63 then y else y - 2 ^ 64.
(** The bytes of a 64-bit word and back.  Model only: the memory order assumed
    by Serializer.cpp:27-33, 46-62, 91-110. *)
Definition le64 (x : Z) : list byte := map (fun k => (u64 x / 256 ^ Z.of_nat k) mod 256) (seq 0 8).
(** Model only: the inverse of [le64]. *)
Definition from_le (l : list byte) : Z := fold_right (fun b a => b + 256 * a) 0 l.

(** TensorImpl.h:88-95: the parts Serializer.cpp uses. *)
Record tensor := mkT { tshape : list Z; tdtype : Z; tdata : list byte }.
(** Model only: the bytes of a std::string. *)
Definition name := list byte.
(** Module.h:43-55, [namedStates]: names and tensor objects. *)
Definition states := list (name * nat).
(** Model only: the tensor objects. *)
Definition memory := nat -> tensor.
(** TensorImpl.cpp:243-248. *)
Definition numel (sh : list Z) : Z := fold_right Z.mul 1 sh.
(** Tensor/DType.h:30-46, [dtypeSize]. *)
Definition dtypeSize (t : Z) : Z :=
  if t =? 0 then 4 else if (t =? 1) || (t =? 2) then 2 else if t =? 3 then 4 else if t =? 4 then 8 else if t =? 5 then 1 else 0.
(** TensorImpl.h:41. *)
Definition nbytes (t : tensor) : Z := u64 (numel (tshape t) * dtypeSize (tdtype t)).

(** Serializer.h:21. *)
Definition MAGIC : Z := 0x54494E59.
(** Serializer.h:22. *)
Definition VERSION : Z := 1.
(** Serializer.cpp:35-40. *)
Definition headerSize (mem : memory) (ms : states) : Z :=
  fold_left (fun s p => u64 (s + 40 + Z.of_nat (length (fst p)) + Z.of_nat (length (tshape (mem (snd p)))) * 8)) ms 24.
(** Serializer.cpp:45-62. *)
Fixpoint headers (mem : memory) (ms : states) (dataOffset : Z) : list byte :=
  match ms with
  | [] => []
  | (n, id) :: r =>
    let t := mem id in
    (le64 (Z.of_nat (length n)) ++ le64 (Z.of_nat (length (tshape t))) ++ le64 (tdtype t) ++ le64 dataOffset ++ le64 (nbytes t))
    ++ n ++ flat_map le64 (tshape t) ++ headers mem r (u64 (dataOffset + nbytes t))
  end.
(** Serializer.cpp:18-78, [Serializer::save]. *)
Definition save (mem : memory) (ms : states) : list byte :=
  (le64 MAGIC ++ le64 VERSION ++ le64 (Z.of_nat (length ms)))
  ++ headers mem ms (headerSize mem ms)
  ++ flat_map (fun p => firstn (Z.to_nat (nbytes (mem (snd p)))) (tdata (mem (snd p)))) ms.

(** Reading from the mapped file.  Model only: a read outside the mapping of
    Serializer.cpp:81-87 is [None]. *)
Definition rdBytes (f : list byte) (off n : Z) : option (list byte) :=
  if (0 <=? off) && (0 <=? n) && (off + n <=? Z.of_nat (length f)) then Some (firstn (Z.to_nat n) (skipn (Z.to_nat off) f)) else None.
(** Model only: as at Serializer.cpp:91-110. *)
Definition rdU64 (f : list byte) (off : Z) : option Z :=
  match rdBytes f off 8 with Some l => Some (from_le l) | None => None end.
(** Model only: the dimensions read at Serializer.cpp:128-133. *)
Fixpoint words (n : nat) (l : list byte) : list Z :=
  match n with O => [] | S n => s64 (from_le (firstn 8 l)) :: words n (skipn 8 l) end.
(** Serializer.cpp:121-133: what the loop reads of one tensor. *)
Record entry := mkE { eName : name; eShape : list Z; eDtype : Z; eOffset : Z; eSize : Z }.
(** Serializer.cpp:121-133: one header with its name and dimensions, and the
    offset after it.  The loop over the dimensions reads 8 bytes each, so it
    reads outside the file unless they all fit. *)
Definition readEntry (f : list byte) (off : Z) : option (entry * Z) :=
  match rdU64 f off, rdU64 f (off + 8), rdU64 f (off + 16), rdU64 f (off + 24), rdU64 f (off + 32) with
  | Some nl, Some nd, Some dt, Some dofs, Some dsz =>
    match rdBytes f (off + 40) nl with
    | None => None
    | Some nm =>
      match rdBytes f (off + 40 + nl) (8 * nd) with
      | None => None
      | Some ds => Some (mkE nm (words (Z.to_nat nd) ds) dt dofs dsz, off + 40 + nl + 8 * nd)
      end
    end
  | _, _, _, _, _ => None
  end.
(** Model only: equality of names. *)
Definition name_eqb (a b : name) : bool := if list_eq_dec Z.eq_dec a b then true else false.
(** Model only: equality of shapes. *)
Definition shape_eqb (a b : list Z) : bool := if list_eq_dec Z.eq_dec a b then true else false.
(** Serializer.cpp:112-115, [name2tensor]: the last tensor of a name. *)
Fixpoint lookup (ms : states) (n : name) : option nat :=
  match ms with
  | [] => None
  | (m, id) :: r => match lookup r n with Some i => Some i | None => if name_eqb m n then Some id else None end
  end.
(** Model only: the tensor's bytes replaced, Serializer.cpp:176-180. *)
Definition setData (mem : memory) (id : nat) (d : list byte) : memory :=
  fun j => if (j =? id)%nat then mkT (tshape (mem id)) (tdtype (mem id)) d else mem j.
(** Serializer.cpp:135-179: what is done with an entry: the new success flag and
    memory.  [static_cast<DType>] keeps the low byte. *)
Definition applyEntry (f : list byte) (ms : states) (strict : bool) (e : entry) (st : bool * memory) : option (bool * memory) :=
  let '(ok, mem) := st in
  match lookup ms (eName e) with
  | None => Some (if strict then false else ok, mem)
  | Some id =>
    let t := mem id in
    if negb (shape_eqb (eShape e) (tshape t)) then Some (false, mem)
    else if negb (eDtype e mod 256 =? tdtype t) then Some (false, mem)
    else if negb (eSize e =? nbytes t) then Some (false, mem)
    else if Z.of_nat (length f) <? u64 (eOffset e + eSize e) then Some (false, mem)
    else if eSize e =? 0 then Some (ok, mem)
    else match rdBytes f (eOffset e) (eSize e) with
         | None => None
         | Some d => Some (ok, setData mem id d)
         end
  end.
(** Serializer.cpp:120-180, the loop over the tensors of the file; the names
    read are collected.  Every round reads at least 40 bytes, so [fuel] =
    length of the file suffices. *)
Fixpoint loadLoop (fuel : nat) (f : list byte) (ms : states) (strict : bool) (count off : Z) (keys : list name) (st : bool * memory)
  : option (list name * (bool * memory)) :=
  if count <=? 0 then Some (keys, st)
  else match fuel with
  | O => None
  | S fuel =>
    match readEntry f off with
    | None => None
    | Some (e, off) =>
      match applyEntry f ms strict e st with
      | None => None
      | Some st => loadLoop fuel f ms strict (count - 1) off (eName e :: keys) st
      end
    end
  end.
(** Serializer.cpp:80-194, [Serializer::load].  Mapping an empty file fails. *)
Definition load (f : list byte) (ms : states) (mem : memory) (strict : bool) : option (bool * memory) :=
  if (length f =? 0)%nat then Some (false, mem)
  else match rdU64 f 0 with
  | None => None
  | Some magic => if negb (magic =? MAGIC) then Some (false, mem) else
    match rdU64 f 8 with
    | None => None
    | Some version => if negb (version =? VERSION) then Some (false, mem) else
      match rdU64 f 16 with
      | None => None
      | Some count =>
        match loadLoop (length f) f ms strict count 24 [] (true, mem) with
        | None => None
        | Some (keys, (ok, mem)) =>
          let missing := existsb (fun p => negb (existsb (name_eqb (fst p)) keys)) ms in
          Some (if strict && missing then false else ok, mem)
        end
      end
    end
  end.
