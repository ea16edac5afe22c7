(** Setting up the process group: src/Distributed/DistributedProcessGroup.{h,cpp}
    and ProcessGroup.cpp.  A store is represented by the arguments it is made
    with; that its constructor succeeds is assumed (TCPStore is StoreModel). *)
From Coq Require Import List Bool ZArith Ascii String.
Import ListNotations.
Open Scope Z_scope.

(** * Strings *)
(** C library, isdigit (std::stoi, and \d of the regular expressions). *)
Definition digit (c : ascii) : option Z := let n := Z.of_nat (nat_of_ascii c) in if (48 <=? n) && (n <=? 57) then Some (n - 48) else None.
(** C library, isspace. *)
Definition space (c : ascii) : bool := let n := Z.of_nat (nat_of_ascii c) in (n =? 32) || ((9 <=? n) && (n <=? 13)).
(** strtol: the digits at the front; how many, and their value after [v]. *)
Fixpoint digits (s : string) (k : nat) (v : Z) : nat * Z :=
  match s with
  | EmptyString => (k, v)
  | String c r => match digit c with Some d => digits r (S k) (10 * v + d) | None => (k, v) end
  end.
(** strtol: leading spaces. *)
Fixpoint skipSpaces (s : string) : string := match s with String c r => if space c then skipSpaces r else s | EmptyString => s end.
(** strtol: an optional sign. *)
Definition sign (s : string) : Z * string := match s with String "-" r => (-1, r) | String "+" r => (1, r) | _ => (1, s) end.
(** C++ library, std::stoi; [None]: it throws. *)
Definition stoi (s : string) : option Z :=
  let '(sg, r) := sign (skipSpaces s) in
  let '(k, v) := digits r 0 0 in
  if (k =? 0)%nat then None else if (-2147483648 <=? sg * v) && (sg * v <=? 2147483647) then Some (sg * v) else None.
(** Model only: the part before the first colon, and the part after it. *)
Fixpoint atColon (s : string) : string * option string :=
  match s with
  | EmptyString => (EmptyString, None)
  | String c r => if (c =? ":")%char then (EmptyString, Some r) else let '(a, b) := atColon r in (String c a, b)
  end.
(** Model only: \d+ matches all of it. *)
Fixpoint allDigits (s : string) : bool := match s with EmptyString => true | String c r => match digit c with Some _ => allDigits r | None => false end end.
(** DistributedProcessGroup.cpp:109-115: the regular expressions tcp://([^:]+):(\d+)
    and tcp://([^:]+), applied to what follows tcp://; [None]: no match. *)
Definition matchTcp (s : string) : option (string * option string) :=
  match atColon s with
  | (EmptyString, _) => None
  | (host, None) => Some (host, None)
  | (host, Some EmptyString) => None
  | (host, Some port) => if allDigits port then Some (host, Some port) else None
  end.
(** Model only: the rest after a prefix, if it is one ([initString.substr(0, 6) ==
    "tcp://"], DistributedProcessGroup.cpp:105, 122). *)
Fixpoint after (p s : string) : option string :=
  match p, s with
  | EmptyString, _ => Some s
  | String a p, String b s => if (a =? b)%char then after p s else None
  | _, _ => None
  end.

(** * parseInitString *)
(** DistributedProcessGroup.h:14-19. *)
Inductive initMethod := UNKNOWN | ENV | TCP | FILE.
(** DistributedProcessGroup.h:119-138 without the timeout and [waitWorkers], which
    nobody reads. *)
Record config := mkCfg { method : initMethod; masterAddr : string; masterPort : Z; filePath : string; rank : Z; worldSize : Z }.
(** DistributedProcessGroup.h:129-137; TCPStore.h:17. *)
Definition noConfig : config := mkCfg UNKNOWN "" 29500 "" (-1) (-1).
(** DistributedProcessGroup.cpp:73-130; [env] is the environment.  [None]: an
    exception of std::stoi. *)
Definition parseInitString (env : string -> option string) (s : string) (r ws : Z) : option config :=
  if (s =? "env://")%string then
    match env "MASTER_ADDR"%string with
    | None => Some noConfig
    | Some addr =>
      match (match env "MASTER_PORT"%string with Some p => stoi p | None => Some 29500 end) with
      | None => None
      | Some port =>
        match (match env "WORLD_SIZE"%string with Some e => if ws =? -1 then stoi e else Some ws | None => Some ws end) with
        | None => None
        | Some ws' =>
          match (match env "RANK"%string with Some e => if r =? -1 then stoi e else Some r | None => Some r end) with
          | None => None
          | Some r' => Some (mkCfg ENV addr port "" r' ws')
          end
        end
      end
    end
  else
    match after "tcp://" s with
    | Some t =>
      match matchTcp t with
      | Some (host, Some p) => match stoi p with Some port => Some (mkCfg TCP host port "" r ws) | None => None end
      | Some (host, None) => Some (mkCfg TCP host 29500 "" r ws)
      | None => Some noConfig
      end
    | None => match after "file://" s with Some path => Some (mkCfg FILE "" 29500 path r ws) | None => Some noConfig end
    end.

(** * initProcessGroup *)
(** The store of a group: its constructor's arguments.  TCPStore.h:19-21,
    FileStore.cpp:63. *)
Inductive store := TcpStore (host : string) (port : Z) (isServer waitWorkers : bool) (numWorkers timeout : Z) | FileStoreAt (path : string).
(** DistributedProcessGroup.cpp:132-168; the port is a uint16_t in both calls, the
    timeout that of Backend.h:20. *)
Definition createStore (c : config) : option store :=
  match method c with
  | ENV | TCP => Some (TcpStore (masterAddr c) (masterPort c mod 65536) (rank c =? 0) true (worldSize c) 1800000)
  | FILE => Some (FileStoreAt (filePath c))
  | UNKNOWN => None
  end.
(** Backend.h:22-25. *)
Inductive backendType := UNDEFINED | NCCL.
(** A backend: its rank and size, its timeout, the device it is bound to.
    Backend.h:44-52, 131-137; BackendNCCL.h:31, 37-42. *)
Record backend := mkB { brank : Z; bsize : Z; btimeout : Z; bbound : option Z }.
(** Tensor/Device.h:13-17. *)
Inductive deviceType := CPU | CUDA.
(** ProcessGroup.h:21-22, 78-89.  The default backend type; the backends by type
    and by device type; the device the group is bound to. *)
Record group := mkGr { gstore : option store; grank : Z; gsize : Z; gdefault : backendType; byType : list (backendType * backend); byDevice : list (deviceType * backendType); gbound : option Z }.
(** Model only. *)
Definition bt_eqb (a b : backendType) : bool := match a, b with UNDEFINED, UNDEFINED | NCCL, NCCL => true | _, _ => false end.
(** Model only. *)
Definition dt_eqb (a b : deviceType) : bool := match a, b with CPU, CPU | CUDA, CUDA => true | _, _ => false end.
(** ProcessGroup.cpp:11-15. *)
Definition setTimeout (g : group) (t : Z) : group :=
  mkGr (gstore g) (grank g) (gsize g) (gdefault g) (map (fun kb => (fst kb, mkB (brank (snd kb)) (bsize (snd kb)) t (bbound (snd kb)))) (byType g)) (byDevice g) (gbound g).
(** ProcessGroup.cpp:70-85, for a type that has no backend yet (the only call is
    DistributedProcessGroup.cpp:61). *)
Definition setBackend (g : group) (d : deviceType) (t : backendType) (b : backend) : group :=
  mkGr (gstore g) (grank g) (gsize g) (gdefault g) ((t, mkB (brank b) (bsize b) (btimeout b) (gbound g)) :: byType g) ((d, t) :: byDevice g) (gbound g).
(** What initProcessGroup does: an exception, or its result and the group
    afterwards. *)
Inductive outcome := Throws | Returns (ok : bool) (g : option group).
(** DistributedProcessGroup.cpp:18-71.  [timeout] and [waitWorkers] are written into
    the configuration, which is not read for them. *)
Definition initProcessGroup (env : string -> option string) (cur : option group) (b : backendType) (s : string) (r ws timeout : Z) (waitWorkers : bool) : outcome :=
  match cur with
  | Some _ => Returns false cur
  | None =>
    match parseInitString env s r ws with
    | None => Throws
    | Some c =>
      if (rank c =? -1) || (worldSize c =? -1) then Returns false None
      else match method c with
           | UNKNOWN => Returns false None
           | _ =>
             let g := setTimeout (mkGr (createStore c) (rank c) (worldSize c) UNDEFINED [] [] None) timeout in
             let g := mkGr (gstore g) (grank g) (gsize g) b (byType g) (byDevice g) (gbound g) in
             match b with
             | NCCL => Returns true (Some (setBackend g CUDA NCCL (mkB (rank c) (worldSize c) 600000 None)))
             | UNDEFINED => Returns false (Some g)
             end
           end
    end
  end.
(** DistributedProcessGroup.h:56-61. *)
Definition destroyProcessGroup (cur : option group) : option group := None.
(** ProcessGroup.cpp:95-112; [None]: a failed assertion. *)
Definition getBackend (g : group) (d : deviceType) : option backend :=
  match find (fun kt => dt_eqb (fst kt) d) (byDevice g) with
  | Some (_, t) => option_map snd (find (fun kb => bt_eqb (fst kb) t) (byType g))
  | None => None
  end.
(** ProcessGroup.cpp:87-91. *)
Definition getDefaultBackend (g : group) : option backend := option_map snd (find (fun kb => bt_eqb (fst kb) (gdefault g)) (byType g)).
(** BackendNCCL.cpp:104-115 with DistributedProcessGroup.h:105-108 (no device in the
    options): the device of the barrier; [None]: a failed assertion. *)
Definition barrierDevice (g : group) (ids : list Z) : option Z :=
  match getDefaultBackend g with
  | None => None
  | Some b =>
    let d := match ids with i :: _ => i | [] => match bbound b with Some i => i | None => -1 end end in
    if 0 <=? d then Some d else None
  end.
