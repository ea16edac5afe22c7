(* Initial parameters of modules: src/Initializer.cpp, src/Module/Basic.cpp,
   src/Module/Norm.cpp.  Tensors are on the CPU, elements are real numbers (no
   rounding). *)
From Coq Require Import List Arith ZArith Bool Reals.
From Verif Require Import ShapeModel TensorModel BcastModel BufModel CutModel RandModel.
Import ListNotations.
Local Open Scope nat_scope.

(* The random engine and the distributions of the C++ library: unif is a number of
   [0, 1) (std::generate_canonical), normals mean stddev n the next n numbers of a
   std::normal_distribution.  Model only. *)
Record library (E : Type) := mkLib { seeding : Z -> E; unif : E -> R * E; normals : R -> R -> nat -> E -> list R }.
Arguments seeding {E}. Arguments unif {E}. Arguments normals {E}.

Section InitModel.
Context {E : Type} (lib : library E).

(* OpFillingCpu.h:84-86: n draws of std::uniform_real_distribution(lo, hi). *)
Fixpoint uniforms (n : nat) (lo hi : R) (e : E) : list R :=
  match n with
  | O => []
  | S n => let '(u, e) := unif lib e in (u * (hi - lo) + lo)%R :: uniforms n lo hi e
  end.
(* OpFillingCpu.h:78-87, through Initializer.cpp:21-23.  The engine is copied (81). *)
Definition uniform (sh : list nat) (lo hi : R) (st : rstate E) : tensor R * rstate E :=
  let st := getGenerator (seeding lib) st in
  (mkT sh (uniforms (numel sh) lo hi (engine st)), st).
(* OpFillingCpu.h:89-98, through Initializer.cpp:17-19. *)
Definition normal (sh : list nat) (mean stddev : R) (st : rstate E) : tensor R * rstate E :=
  let st := getGenerator (seeding lib) st in
  (mkT sh (normals lib mean stddev (numel sh) (engine st)), st).
(* Initializer.cpp:13, 15 with OpFillingCpu.h:24-28. *)
Definition zeros (sh : list nat) : tensor R := mkT sh (repeat 0%R (numel sh)).
(* Initializer.cpp:15. *)
Definition ones (sh : list nat) : tensor R := mkT sh (repeat 1%R (numel sh)).

(* Initializer.cpp:33-50. *)
Definition calculateFans (sh : list nat) : nat * nat :=
  if length sh <? 2 then (0, 0) else
  let inputFMaps := nth 1 sh 0 in
  let outputFMaps := nth 0 sh 0 in
  let receptiveFieldSize := fold_left Nat.mul (skipn 2 sh) 1 in
  (inputFMaps * receptiveFieldSize, outputFMaps * receptiveFieldSize).
(* Initializer.h:13-16. *)
Inductive fanMode := FAN_IN | FAN_OUT.
(* Initializer.cpp:52-62. *)
Definition calculateFan (sh : list nat) (mode : fanMode) : nat :=
  let '(fanIn, fanOut) := calculateFans sh in
  match mode with FAN_IN => fanIn | FAN_OUT => fanOut end.
(* Initializer.cpp:64. *)
Definition calculateGain (param : R) : R := sqrt (2 / (1 + param * param)).
(* Initializer.cpp:25-31.  With fan 0 the bound is infinite, which
   std::uniform_real_distribution excludes. *)
Definition kaimingUniform (sh : list nat) (a : R) (mode : fanMode) (st : rstate E) : res (tensor R * rstate E) :=
  let fan := calculateFan sh mode in
  if fan =? 0 then UB else
  let std := (calculateGain a / sqrt (INR fan))%R in
  let bound := (sqrt 3 * std)%R in
  Ok (uniform sh (- bound) bound st).

(* The modules with parameters (Basic.cpp:31-39, 61-68, 86-89, Norm.cpp:14-21, 45-49)
   and a module that only holds others (Module.h:78-82, 139-160). *)
Inductive module :=
| Linear (inFeatures outFeatures : nat) (useBias : bool)
| Conv2D (inFeatures outFeatures kh kw : nat) (useBias : bool)
| Embedding (numEmbeddings embeddingDim : nat)
| LayerNorm (normalizedShape : list nat) (useBias : bool)
| RMSNorm (normalizedShape : list nat)
| Container (subModules : list module).
(* The parameters of one module: Basic.cpp:43-48, 72-77, 93, Norm.cpp:27-32, 53.
   Model only. *)
Record params := mkParams { weight : tensor R; bias : option (tensor R) }.

(* Basic.cpp:78-84. *)
Definition resetLinear (i o : nat) (useBias : bool) (st : rstate E) : res (params * rstate E) :=
  rbind (kaimingUniform [o; i] (sqrt 5) FAN_IN st) (fun '(w, st) =>
  if useBias then
    let fanIn := fst (calculateFans (tshape w)) in
    let bound := (if 0 <? fanIn then 1 / sqrt (INR fanIn) else 0)%R in
    let '(b, st) := uniform [o] (- bound) bound st in
    Ok (mkParams w (Some b), st)
  else Ok (mkParams w None, st)).
(* Basic.cpp:49-58.  Fan 0 has ended in line 50. *)
Definition resetConv2D (i o kh kw : nat) (useBias : bool) (st : rstate E) : res (params * rstate E) :=
  rbind (kaimingUniform [o; i; kh; kw] (sqrt 5) FAN_IN st) (fun '(w, st) =>
  if useBias then
    let fanIn := fst (calculateFans (tshape w)) in
    if fanIn =? 0 then UB else
    let bound := (1 / sqrt (INR fanIn))%R in
    let '(b, st) := uniform [o] (- bound) bound st in
    Ok (mkParams w (Some b), st)
  else Ok (mkParams w None, st)).
(* Basic.cpp:95. *)
Definition resetEmbedding (n d : nat) (st : rstate E) : params * rstate E :=
  let '(w, st) := normal [n; d] 0 1 st in (mkParams w None, st).
(* Norm.cpp:34-39. *)
Definition resetLayerNorm (sh : list nat) (useBias : bool) : params := mkParams (ones sh) (if useBias then Some (zeros sh) else None).
(* Norm.cpp:51. *)
Definition resetRMSNorm (sh : list nat) : params := mkParams (ones sh) None.

(* Module.h:75-82 initParameters: the parameters of every module below m, in the order
   of namedParameters. *)
Fixpoint initParameters (m : module) (st : rstate E) : res (list params * rstate E) :=
  match m with
  | Linear i o b => rbind (resetLinear i o b st) (fun '(p, st) => Ok ([p], st))
  | Conv2D i o kh kw b => rbind (resetConv2D i o kh kw b st) (fun '(p, st) => Ok ([p], st))
  | Embedding n d => let '(p, st) := resetEmbedding n d st in Ok ([p], st)
  | LayerNorm sh b => Ok ([resetLayerNorm sh b], st)
  | RMSNorm sh => Ok ([resetRMSNorm sh], st)
  | Container ms =>
    (fix go (ms : list module) (st : rstate E) : res (list params * rstate E) :=
      match ms with
      | [] => Ok ([], st)
      | m :: ms => rbind (initParameters m st) (fun '(ps, st) => rbind (go ms st) (fun '(qs, st) => Ok (ps ++ qs, st)))
      end) ms st
  end.
End InitModel.
