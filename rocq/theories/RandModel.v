(** The CPU random generator and the operations that draw from it:
    src/Utils/RandomGenerator.h/.cpp, src/Operation/OpFillingCpu.h:78-109,
    OpNNLayerCpu.h:156-167, OpSamplingCpu.h:91, src/Data/Sampler.h:53-60,
    DataLoader.h:27, src/Distributed/DistributedSampler.cpp:41-48. *)
From Coq Require Import ZArith List Bool.
Import ListNotations.

(** RandomGenerator.h:32-34 and .cpp:11-14: the seed, if one was set, and the engine;
    also the values the random device will return.  [E] is the engine's state. *)
Record rstate (E : Type) := mkRS { seed_ : option Z; engine : E; device : nat -> Z; asked : nat }.
Arguments mkRS {E}. Arguments seed_ {E}. Arguments engine {E}. Arguments device {E}. Arguments asked {E}.
(** RandomGenerator.h:16-19 (and .cpp:19-22, [manualSeed]). *)
Definition setSeed {E} (seed : Z -> E) (s : Z) (st : rstate E) : rstate E := mkRS (Some s) (seed s) (device st) (asked st).
(** RandomGenerator.h:20-26: reseeds from the device when no seed was set; returns a
    reference to the engine (the new state's [engine]). *)
Definition getGenerator {E} (seed : Z -> E) (st : rstate E) : rstate E :=
  match seed_ st with
  | Some _ => st
  | None => mkRS None (seed (device st (asked st))) (device st) (S (asked st))
  end.
(** An operation that draws: a function of the engine giving its result and the
    engine afterwards.  [ByCopy] is [auto generator = getGenerator()], as in all
    tensor operations (uniform, normal, bernoulli, dropout, multinomial);
    [ByReference] is [auto& gen = getGenerator()], as in the samplers and the
    data loader.  Model only: the lines of each are in its comment. *)
Inductive draw_op (E O : Type) := ByCopy (run : E -> O * E) | ByReference (run : E -> O * E) | ManualSeed (s : Z).
Arguments ByCopy {E O}. Arguments ByReference {E O}. Arguments ManualSeed {E O}.
(** RandomGenerator.h:16-26 and the callers. *)
Definition drawStep {E O} (seed : Z -> E) (op : draw_op E O) (st : rstate E) : option O * rstate E :=
  match op with
  | ByCopy run => let st := getGenerator seed st in (Some (fst (run (engine st))), st)
  | ByReference run => let st := getGenerator seed st in
                       let '(o, e) := run (engine st) in (Some o, mkRS (seed_ st) e (device st) (asked st))
  | ManualSeed s => (None, setSeed seed s st)
  end.
(** Model only: a program. *)
Fixpoint drawRun {E O} (seed : Z -> E) (ops : list (draw_op E O)) (st : rstate E) : list O * rstate E :=
  match ops with
  | [] => ([], st)
  | op :: ops =>
    let '(o, st) := drawStep seed op st in
    let '(os, st) := drawRun seed ops st in
    (match o with Some o => o :: os | None => os end, st)
  end.

(** std::default_random_engine of libstdc++ (minstd_rand0): x -> 16807 x mod
    (2^31-1); seed 0 becomes 1.  Only used for examples.  Model only. *)
Definition minstdSeed (s : Z) : Z := if (s mod 2147483647 =? 0)%Z then 1%Z else (s mod 2147483647)%Z.
(** Model only. *)
Definition minstdNext (x : Z) : Z := (x * 16807 mod 2147483647)%Z.
(** Model only. *)
Fixpoint minstdDraw (n : nat) (x : Z) : list Z * Z :=
  match n with O => ([], x) | S n => let y := minstdNext x in let '(l, z) := minstdDraw n y in (y :: l, z) end.
