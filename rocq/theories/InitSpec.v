(* What initial parameters should be. *)
From Coq Require Import List Arith ZArith Bool Reals.
From Verif Require Import ShapeModel TensorModel RandModel InitModel.
Import ListNotations.
Local Open Scope nat_scope.

(* The modules with parameters below m, in order. *)
Fixpoint leaves (m : module) : list module :=
  match m with Container ms => flat_map leaves ms | _ => [m] end.
(* Inputs that reach one output. *)
Definition fan_in (m : module) : nat :=
  match m with Linear i _ _ => i | Conv2D i _ kh kw _ => i * kh * kw | _ => 1 end.

(* Successive draws from [0, 1). *)
Fixpoint draws {E} (lib : library E) (n : nat) (e : E) : list R :=
  match n with O => [] | S n => fst (unif lib e) :: draws lib n (snd (unif lib e)) end.
(* A tensor of this shape whose elements all lie in [-b, b) and are successive draws
   stretched over all of it; a tensor whose elements all equal v. *)
Definition within {E} (lib : library E) (sh : list nat) (b : R) (t : tensor R) : Prop :=
  tshape t = sh /\ length (tdata t) = numel sh /\ Forall (fun x => - b <= x < b)%R (tdata t) /\
  exists e, tdata t = map (fun u => (2 * u - 1) * b)%R (draws lib (numel sh) e).
Definition all_equal (sh : list nat) (v : R) (t : tensor R) : Prop := t = mkT sh (repeat v (numel sh)).
Definition optional {A} (there : bool) (P : A -> Prop) (o : option A) : Prop :=
  match o with Some x => there = true /\ P x | None => there = false end.

Definition initialised {E} (lib : library E) (m : module) (p : params) : Prop :=
  match m with
  | Linear i o b => within lib [o; i] (1 / sqrt (INR i)) (weight p) /\ optional b (within lib [o] (1 / sqrt (INR i))) (bias p)
  | Conv2D i o kh kw b => within lib [o; i; kh; kw] (1 / sqrt (INR (i * kh * kw))) (weight p) /\ optional b (within lib [o] (1 / sqrt (INR (i * kh * kw)))) (bias p)
  | Embedding n d => (exists e, weight p = mkT [n; d] (normals lib 0 1 (n * d) e)) /\ bias p = None
  | LayerNorm sh b => all_equal sh 1 (weight p) /\ optional b (all_equal sh 0) (bias p)
  | RMSNorm sh => all_equal sh 1 (weight p) /\ bias p = None
  | Container _ => False
  end.
