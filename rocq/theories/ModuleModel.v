(** Module trees: src/Module/Module.h. *)
From Coq Require Import List Bool Arith String DecimalString.
From Verif Require Import TensorModel BcastModel DispatchModel.
Import ListNotations.
Local Open Scope string_scope.

(** A module object (src/Module/Module.h:13-133): its address, what its
    [namedParameters_] and [namedStates_] return (a [TensorPtr] is a number),
    whether its class overrides [resetParameters], and its registered submodules
    in order.  Submodules are references; the tree here is what following them
    gives, so a module registered twice occurs twice with the same address.  A
    module reachable from itself (endless recursion in the code) is not modelled. *)
Inductive mtree := Mod (addr : nat) (params states : list (string * nat)) (overrides : bool) (subs : list (string * mtree)).
(** Model only: projection. *)
Definition maddr (m : mtree) := match m with Mod a _ _ _ _ => a end.
(** Module.h:128. *)
Definition mparams (m : mtree) := match m with Mod _ p _ _ _ => p end.
(** Module.h:129. *)
Definition mstates (m : mtree) := match m with Mod _ _ s _ _ => s end.
(** Model only: projection. *)
Definition moverrides (m : mtree) := match m with Mod _ _ _ o _ => o end.
(** Module.h:132. *)
Definition msubs (m : mtree) := match m with Mod _ _ _ _ s => s end.

(** Module.h:25-27, 18-23. *)
Definition registerModule (m : mtree) (name : string) (sub : mtree) : mtree :=
  Mod (maddr m) (mparams m) (mstates m) (moverrides m) (msubs m ++ [(name, sub)])%list.
(** Module.h:30-40. *)
Fixpoint namedParameters (prefix : string) (m : mtree) : list (string * nat) :=
  match m with Mod _ params _ _ subs =>
    map (fun np => ((prefix ++ fst np)%string, snd np)) params
    ++ flat_map (fun nm => namedParameters (prefix ++ fst nm ++ ".")%string (snd nm)) subs
  end%list.
(** Module.h:43-53. *)
Fixpoint namedStates (prefix : string) (m : mtree) : list (string * nat) :=
  match m with Mod _ _ states _ subs =>
    map (fun np => ((prefix ++ fst np)%string, snd np)) states
    ++ flat_map (fun nm => namedStates (prefix ++ fst nm ++ ".")%string (snd nm)) subs
  end%list.
(** Module.h:55-73. *)
Definition parameters (m : mtree) : list nat := map snd (namedParameters "" m).
(** Module.h:65-73. *)
Definition states (m : mtree) : list nat := map snd (namedStates "" m).
(** Module.h:77-82: the modules whose own [resetParameters] runs, in order. *)
Fixpoint resetParameters (m : mtree) : list nat :=
  match m with Mod a _ _ overrides subs =>
    if overrides then [a] else flat_map (fun nm => resetParameters (snd nm)) subs
  end.
(** Module.h:116-127: the [training_] flags, by address. *)
Fixpoint setTraining (mode : bool) (m : mtree) (flags : nat -> bool) : nat -> bool :=
  match m with Mod a _ _ _ subs =>
    fold_left (fun flags nm => setTraining mode (snd nm) flags) subs (fun x => if Nat.eqb x a then mode else flags x)
  end.

(** A tensor object: type, device, elements, and its gradient data, absent
    unless the tensor requires a gradient ([gradMeta_]); the gradient itself may
    not be there yet.  TensorImpl.h:88-95, AutogradMeta.h:40. *)
Record ptensor V := mkP { pdt : dtype; pdev : device; pdata : list V; pmeta : option (option (list V)) }.
Arguments mkP {V}. Arguments pdt {V}. Arguments pdev {V}. Arguments pdata {V}. Arguments pmeta {V}.
(** Model only: equality of types, as at Tensor.cpp:225. *)
Definition dtypeEqb (a b : dtype) : bool := Nat.eqb (dtypeNum a) (dtypeNum b).
(** Model only: equality of devices, as at Tensor.cpp:235. *)
Definition deviceEqb (a b : device) : bool := Nat.eqb (deviceNum a) (deviceNum b).
Section Tensors.
Context {V : Type} (vzero : V) (cast : dtype -> dtype -> V -> V).
(** Model only: the tensor objects, by address. *)
Definition heap := nat -> ptensor V.
(** Model only: function update. *)
Definition upd (h : heap) (p : nat) (t : ptensor V) : heap := fun q => if Nat.eqb q p then t else h q.
(** src/Tensor/Tensor.cpp:176-179, src/Tensor/AutogradMeta.cpp:45-50 (the
    gradient of a parameter is taken to be its own, not shared). *)
Definition zeroGradT (t : ptensor V) : res (ptensor V) :=
  match pmeta t with
  | None => Fail
  | Some _ => Ok (mkP (pdt t) (pdev t) (pdata t) (Some (Some (map (fun _ => vzero) (pdata t)))))
  end.
(** Module.h:85-90. *)
Definition zeroGradAll (ps : list nat) (h : heap) : res heap :=
  fold_left (fun r p => match r with Ok h => match zeroGradT (h p) with Ok t => Ok (upd h p t) | Fail => Fail | UB => UB end | e => e end) ps (Ok h).
(** Module.h:85-90. *)
Definition zeroGrad (m : mtree) (h : heap) : res heap := zeroGradAll (map snd (namedParameters "" m)) h.
(** src/Tensor/Tensor.cpp:224-233: a new tensor, with the same options, so
    with an empty gradient if it requires one. *)
Definition toType (ty : dtype) (t : ptensor V) : ptensor V :=
  if dtypeEqb (pdt t) ty then t
  else mkP ty (pdev t) (map (cast (pdt t) ty) (pdata t)) (match pmeta t with None => None | Some _ => Some None end).
(** Tensor.cpp:235-245. *)
Definition toDevice (d : device) (t : ptensor V) : ptensor V :=
  if deviceEqb d (pdev t) then t
  else mkP (pdt t) d (pdata t) (match pmeta t with None => None | Some _ => Some None end).
(** Module.h:95-114: [*state = state->to(...)] for every state. *)
Definition toAll (f : ptensor V -> ptensor V) (m : mtree) (h : heap) : heap :=
  fold_left (fun h p => upd h p (f (h p))) (map snd (namedStates "" m)) h.
(** Module.h:95-100. *)
Definition moduleToType (ty : dtype) := toAll (toType ty).
(** Module.h:102-107. *)
Definition moduleToDevice (d : device) := toAll (toDevice d).
(** Module.h:109-114. *)
Definition moduleToBoth (ty : dtype) (d : device) := toAll (fun t => toDevice d (toType ty t)).
End Tensors.

(** [std::to_string] of an index.  As called at Module.h:143, 151, 156. *)
Definition toString (n : nat) : string := NilEmpty.string_of_uint (Nat.to_uint n).
(** Module.h:139-160: a module list after the given modules were pushed. *)
Definition emptyList (addr : nat) : mtree := Mod addr [] [] false [].
(** Module.h:155-158. *)
Definition pushBack (m : mtree) (x : mtree) : mtree := registerModule m (toString (Datatypes.length (msubs m))) x.
(** Module.h:139-146. *)
Definition moduleList (addr : nat) (l : list mtree) : mtree := fold_left pushBack l (emptyList addr).
(** Module.h:187-193, [Sequential::forward]. *)
Definition sequential {T} (forwards : list (T -> res T)) (input : T) : res T :=
  fold_left (fun r f => match r with Ok x => f x | e => e end) forwards (Ok input).
