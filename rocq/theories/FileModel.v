(** The file store: src/Distributed/FileStore.cpp.  Every key is a file in one
    directory; processes, one thread each, take file-system steps in any order.
    Keys are plain file names.  A POSIX record lock belongs to a process and an
    inode and goes away when the process closes any descriptor of that inode.
    System calls do not fail; writing may take several calls. *)
From Coq Require Import ZArith List Bool Arith.
From Verif Require Import StoreModel.
Import ListNotations.
Open Scope Z_scope.

(** The directory: which inode a name has.  Operating system, as FileStore.cpp
    uses it. *)
Definition dirmap := list (key * nat).
(** Operating system: [access] at FileStore.cpp:207, [fopen] at 120, 168. *)
Fixpoint lookup (d : dirmap) (k : key) : option nat :=
  match d with [] => None | (k', i) :: r => if key_eqb k k' then Some i else lookup r k end.
(** Operating system: part of [unlink]. *)
Definition drop (d : dirmap) (k : key) : dirmap := filter (fun p => negb (key_eqb k (fst p))) d.
(** Operating system: names, file contents, locks, and the next new inode. *)
Record disk := mkDisk { dir : dirmap; data : nat -> list byte; lock : nat -> option nat; fresh : nat }.
(** FileStore.cpp:63-69: a new directory. *)
Definition emptyDisk : disk := mkDisk [] (fun _ => []) (fun _ => None) 0.
(** Model only: function update. *)
Definition upd {A} (f : nat -> A) (i : nat) (x : A) : nat -> A := fun j => if (j =? i)%nat then x else f j.

(** System calls. *)
(** open with O_CREAT.  FileStore.cpp:27. *)
Definition openCreate (d : disk) (k : key) : disk * nat :=
  match lookup (dir d) k with
  | Some i => (d, i)
  | None => (mkDisk ((k, fresh d) :: dir d) (upd (data d) (fresh d) []) (lock d) (S (fresh d)), fresh d)
  end.
(** fopen "wb": create or truncate.  FileStore.cpp:81, 179. *)
Definition openTrunc (d : disk) (k : key) : disk * nat :=
  let (d1, i) := openCreate d k in (mkDisk (dir d1) (upd (data d1) i []) (lock d1) (fresh d1), i).
(** fcntl F_SETLKW: blocks ([None]) while another process holds the lock.
    FileStore.cpp:33-42. *)
Definition setLock (d : disk) (p : nat) (i : nat) : option disk :=
  match lock d i with
  | Some q => if (q =? p)%nat then Some d else None
  | None => Some (mkDisk (dir d) (data d) (upd (lock d) i (Some p)) (fresh d))
  end.
(** close, and F_UNLCK.  FileStore.cpp:46-54, 93, 174; closing any descriptor of
    the file drops the process's lock on it, as POSIX says. *)
Definition closeFile (d : disk) (p : nat) (i : nat) : disk :=
  match lock d i with
  | Some q => if (q =? p)%nat then mkDisk (dir d) (data d) (upd (lock d) i None) (fresh d) else d
  | None => d
  end.
(** write at an offset; a gap left by a truncation in between reads as zeros.
    FileStore.cpp:88, 188. *)
Definition writeAt (l : list byte) (off : nat) (b : list byte) : list byte :=
  firstn off l ++ repeat 0 (off - length l) ++ b ++ skipn (off + length b) l.
(** FileStore.cpp:88, 188. *)
Definition writeFile (d : disk) (i : nat) (off : nat) (b : list byte) : disk :=
  mkDisk (dir d) (upd (data d) i (writeAt (data d i) off b)) (lock d) (fresh d).
(** FileStore.cpp:202. *)
Definition unlink (d : disk) (k : key) : disk * bool :=
  match lookup (dir d) k with
  | Some _ => (mkDisk (drop (dir d) k) (data d) (lock d) (fresh d), true)
  | None => (d, false)
  end.

(** Where a process is in a call.  [i] is the inode its FileLock opened, [j] the
    one opened for reading or writing.  FileStore.cpp:73-232, the points between
    which other processes may run. *)
Inductive pstate :=
| PReady
| PCalled (o : op)
| PChecking (o : op) (ks : list key)
| POpened (o : op) (i : nat)
| PLocked (o : op) (i : nat)
| PWriting (o : op) (i j : nat) (off : nat) (rest : list byte) (r : res)
| PReading (o : op) (i j : nat)
| PSized (o : op) (i j : nat) (size : nat)
| PRead (o : op) (i j : nat) (v : list byte)
| PAdded (o : op) (i : nat) (n : Z)
| PClosing (o : op) (i : nat) (r : res)
| PReturn (o : op) (r : res).
(** Model only: the disk and where each process is. *)
Record fsys := mkFsys { disk_ : disk; proc : nat -> pstate }.
(** Model only: a new directory and no calls. *)
Definition finit : fsys := mkFsys emptyDisk (fun _ => PReady).
(** Model only: one process moves. *)
Definition go (s : fsys) (d : disk) (p : nat) (t : pstate) : fsys := mkFsys d (upd (proc s) p t).

(** FileStore.cpp:170-172: up to 63 bytes, as a C string, read by std::stoll. *)
Fixpoint cstring (l : list byte) : list byte := match l with [] => [] | b :: r => if b =? 0 then [] else b :: cstring r end.
(** FileStore.cpp:170-173. *)
Definition readNumber63 (v : list byte) : option Z := match firstn 63 v with [] => Some 0 | b => stoll (cstring b) end.

(** One step of process [p]; [n] is how many bytes a write call takes.  [None]:
    not possible now (blocked), or a crash.  FileStore.cpp:73-232; the lines are
    beside each case. *)
Definition fstep (s : fsys) (p : nat) (n : nat) : option fsys :=
  let d := disk_ s in
  match proc s p with
  | PReady | PReturn _ _ => None
  | PCalled o =>
    match o with
    (* :73-75, :159-161, :195-197 FileLock: open *)
    | OSet k _ | OAdd k _ | ODelete k => let (d1, i) := openCreate d k in Some (go s d1 p (POpened o i))
    (* :103-114: wait until the file is there, then FileLock *)
    | OGet k => match lookup (dir d) k with
                | Some _ => let (d1, i) := openCreate d k in Some (go s d1 p (POpened o i))
                | None => Some s
                end
    (* :210-212, one key at a time *)
    | OCheck ks => Some (go s d p (PChecking o ks))
    (* :214-232 *)
    | ONumKeys => Some (go s d p (PReturn o (RInt (Z.of_nat (length (dir d))))))
    (* :234-244 wait is check in a loop; not modelled *)
    | OWait _ => None
    end
  | PChecking o [] => Some (go s d p (PReturn o (RBool true)))
  | PChecking o (k :: ks) => match lookup (dir d) k with Some _ => Some (go s d p (PChecking o ks)) | None => Some (go s d p (PReturn o (RBool false))) end
  (* :38 *)
  | POpened o i => match setLock d p i with Some d1 => Some (go s d1 p (PLocked o i)) | None => None end
  | PLocked o i =>
    match o with
    (* :81 fopen "wb" *)
    | OSet k v => let (d1, j) := openTrunc d k in Some (go s d1 p (PWriting o i j 0 v RDone))
    (* :120, :168 fopen "rb" *)
    | OGet k | OAdd k _ => match lookup (dir d) k with
                           | Some j => Some (go s d p (PReading o i j))
                           | None => match o with OAdd _ a => Some (go s d p (PAdded o i a)) | _ => Some (go s d p (PClosing o i (RValue []))) end
                           end
    (* :202 unlink *)
    | ODelete k => let (d1, b) := unlink d k in Some (go s d1 p (PClosing o i (RBool b)))
    | _ => None
    end
  | PReading o i j =>
    match o with
    (* :171-175 *)
    | OAdd k a =>
      match readNumber63 (data d j) with
      | Some z => if in64 (z + a) then Some (go s (closeFile d p j) p (PAdded o i (z + a))) else None
      | None => None
      end
    (* :129-134 *)
    | _ => Some (go s d p (PSized o i j (length (data d j))))
    end
  (* :148-156 *)
  | PSized o i j sz => let v := firstn sz (data d j) in Some (go s d p (PRead o i j (if (length v =? sz)%nat then v else [])))
  | PRead o i j v => Some (go s (closeFile d p j) p (PClosing o i (RValue v)))
  (* :179 fopen "wb" *)
  | PAdded o i z => match o with OAdd k _ => let (d1, j) := openTrunc d k in Some (go s d1 p (PWriting o i j 0 (to_string z) (RInt z))) | _ => None end
  (* :88, :93, :188: writing, then fclose *)
  | PWriting o i j off rest r =>
    match rest with
    | [] => Some (go s (closeFile d p j) p (PClosing o i r))
    | _ => let b := firstn (S n) rest in Some (go s (writeFile d j off b) p (PWriting o i j (off + length b) (skipn (S n) rest) r))
    end
  (* :45-55 *)
  | PClosing o i r => Some (go s (closeFile d p i) p (PReturn o r))
  end.

(** Model only: a call begins, a process moves, a waiting get gives up
    (FileStore.cpp:104-110), a call returns. *)
Inductive faction := FCall (p : nat) (o : op) | FStep (p : nat) (n : nat) | FTimeout (p : nat) | FReturn (p : nat).
(** Model only: one step of some process. *)
Definition fact (s : fsys) (a : faction) : option (fsys * list event) :=
  match a with
  | FCall p o => match proc s p with PReady => Some (go s (disk_ s) p (PCalled o), [EInv p o]) | _ => None end
  | FStep p n => match fstep s p n with Some s' => Some (s', []) | None => None end
  (* :104-110 *)
  | FTimeout p => match proc s p with
                  | PCalled (OGet k) => match lookup (dir (disk_ s)) k with None => Some (go s (disk_ s) p (PReturn (OGet k) (RValue [])), []) | Some _ => None end
                  | _ => None
                  end
  | FReturn p => match proc s p with PReturn o r => Some (go s (disk_ s) p PReady, [ERes p o r]) | _ => None end
  end.
(** Model only: a schedule. *)
Fixpoint frun (s : fsys) (l : list faction) : option (fsys * list event) :=
  match l with
  | [] => Some (s, [])
  | a :: r => match fact s a with
              | None => None
              | Some (s1, e1) => match frun s1 r with Some (s2, e2) => Some (s2, e1 ++ e2) | None => None end
              end
  end.
(** A call with nobody else running: steps until it returns; [ns] are the sizes
    the write calls take.  Model only. *)
Fixpoint finishCall (ns : list nat) (s : fsys) (p : nat) : option (fsys * res) :=
  match ns with
  | [] => None
  | n :: ns' =>
    match fact s (FReturn p) with
    | Some (s', [ERes _ _ r]) => Some (s', r)
    | _ => match fact s (FTimeout p) with
           | Some (s', _) => finishCall ns' s' p
           | None => match fact s (FStep p n) with Some (s', _) => finishCall ns' s' p | None => None end
           end
    end
  end.
(** Model only: a call made while nobody else runs. *)
Definition callAlone (ns : list nat) (s : fsys) (p : nat) (o : op) : option (fsys * res) :=
  match fact s (FCall p o) with Some (s', _) => finishCall ns s' p | None => None end.
