(** Operator dispatch: src/Tensor/Dispatch.h. *)
From Coq Require Import List Bool Arith.
From Verif Require Import TensorModel BcastModel.
Import ListNotations.

(** src/Tensor/DType.h:20-28, src/Tensor/Device.h:13-17, with their numbers. *)
Inductive device := CPU | CUDA.
(** DType.h:20-28. *)
Inductive dtype := Float32 | Float16 | BFloat16 | Int32 | Int64 | Bool.
(** Device.h:13-17. *)
Definition deviceNum (d : device) : nat := match d with CPU => 0 | CUDA => 1 end.
(** DType.h:20-28. *)
Definition dtypeNum (t : dtype) : nat :=
  match t with Float32 => 0 | Float16 => 1 | BFloat16 => 2 | Int32 => 3 | Int64 => 4 | Bool => 5 end.
(** Device.h:13-17. *)
Definition deviceTypeCount := 2.
(** DType.h:20-28. *)
Definition dtypeCount := 6.
(** Dispatch.h:21-23. *)
Record key := mkKey { kdev : device; kdt : dtype }.
(** Dispatch.h:32-36. *)
Definition keyToIndex (k : key) : nat := deviceNum (kdev k) * dtypeCount + dtypeNum (kdt k).
(** Dispatch.h:35-36. *)
Definition numKeys := deviceTypeCount * dtypeCount.
(** Dispatch.h:38-48: one table per operator, of null pointers at first. *)
Definition emptyTable {F} : list (option F) := repeat None numKeys.
(** Dispatch.h:43. *)
Definition registerImpl {F} (table : list (option F)) (k : key) (fn : F) : option (list (option F)) := wr table (keyToIndex k) (Some fn).
(** Dispatch.h:44. *)
Definition lookup {F} (table : list (option F)) (k : key) : option (option F) := rd table (keyToIndex k).
(** Dispatch.h:111-118: for every device, for every type. *)
Definition registerOp {F} (table : list (option F)) (devices : list device) (dtypes : list dtype) (fn : F) : option (list (option F)) :=
  loop devices table (fun table d => loop dtypes table (fun table t => registerImpl table (mkKey d t) fn)).
(** Static initialisation: a sequence of registrations.  Dispatch.h:119-125. *)
Record registration F := mkReg { rdevices : list device; rdtypes : list dtype; rfn : F }.
Arguments mkReg {F}. Arguments rdevices {F}. Arguments rdtypes {F}. Arguments rfn {F}.
(** Model only: all registrations of one operator, in the order they run. *)
Definition registerAll {F} (rs : list (registration F)) : option (list (option F)) :=
  loop rs emptyTable (fun table r => registerOp table (rdevices r) (rdtypes r) (rfn r)).
(** Dispatch.h:97-108. *)
Definition allDevices := [CPU; CUDA].
(** Dispatch.h:101-108. *)
Definition allDtypes := [Float32; Float16; BFloat16; Int32; Int64; Bool].
(** Dispatch.h:59-75: an argument of the call.  [None] is an undefined tensor
    (reading its device is undefined), [Other] an argument of another type. *)
Inductive arg := AOptions (k : key) | ATensor (k : option key) | ATensors (l : list (option key)) | Other.
(** Dispatch.h:59-74. *)
Fixpoint keyFromArgs (args : list arg) : res key :=
  match args with
  | [] => Fail (* does not compile: the static_assert *)
  | AOptions k :: _ => Ok k
  | ATensor (Some k) :: _ => Ok k
  | ATensor None :: _ => UB
  | ATensors (Some k :: _) :: _ => Ok k
  | ATensors _ :: _ => Fail
  | Other :: rest => keyFromArgs rest
  end.
(** Dispatch.h:77-91: the function that is called. *)
Definition callOp {F} (table : list (option F)) (args : list arg) : res F :=
  match keyFromArgs args with
  | Ok k => match lookup table k with None => UB | Some None => Fail | Some (Some fn) => Ok fn end
  | UB => UB
  | Fail => Fail
  end.
