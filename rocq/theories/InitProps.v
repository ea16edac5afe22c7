(* C83: initParameters gives every parameter of a module tree its range. *)
From Coq Require Import List Arith ZArith Bool Lia Lra Reals.
From Verif Require Import ShapeModel TensorModel BcastModel BufModel CutModel RandModel InitModel InitSpec InitProofs.
Import ListNotations.
Local Open Scope nat_scope.

(* Every parameter below m is set as its kind of module demands, whatever the state of the
   generator. *)
Theorem init_parameters_partial {E} (lib : library E) m st : (forall e, 0 <= fst (unif lib e) < 1)%R -> Forall (fun m => 0 < fan_in m) (leaves m) ->
  exists ps st', initParameters lib m st = Ok (ps, st') /\ Forall2 (initialised lib) (leaves m) ps.
Proof. intros U F. exact (init_all lib (msize m) m st (le_n _) U F). Qed.
Print Assumptions init_parameters_partial.

(* The same seed gives the same parameters, whatever happened before, and each module gets
   what it would get alone. *)
Theorem init_seeded_same {E} (lib : library E) m s st1 st2 : Forall (fun m => 0 < fan_in m) (leaves m) ->
  exists ps st1' st2', initParameters lib m (setSeed (seeding lib) s st1) = Ok (ps, st1') /\ initParameters lib m (setSeed (seeding lib) s st2) = Ok (ps, st2') /\
  Forall2 (fun l p => exists st', initParameters lib l (setSeed (seeding lib) s st1) = Ok ([p], st')) (leaves m) ps.
Proof.
  intros F. eexists. eexists. eexists. split; [exact (init_seeded lib (msize m) m s st1 (le_n _) F)|]. split; [exact (init_seeded lib (msize m) m s st2 (le_n _) F)|].
  assert (L : Forall (fun l => leaves l = [l]) (leaves m)).
  { assert (G : forall k x, msize x <= k -> Forall (fun l => leaves l = [l]) (leaves x)).
    { induction k as [|k IH]; intros x Hk; [pose proof (msize_pos x); lia|]. destruct x as [| | | | |xs]; try (constructor; [reflexivity|constructor]).
      cbn [leaves msize] in *. apply le_S_n in Hk. induction xs as [|x l IHl]; [constructor|]. cbn [flat_map fold_right] in *. apply Forall_app. split; [apply IH; lia|apply IHl; lia]. }
    exact (G (msize m) m (le_n _)). }
  induction (leaves m) as [|l ls IH]; [constructor|]. inversion_clear F as [|? ? F1 F2]. inversion_clear L as [|? ? L1 L2]. constructor; [|apply IH; assumption].
  eexists. rewrite (init_seeded lib (msize l) l s st1 (le_n _)) by (rewrite L1; constructor; [exact F1|constructor]). rewrite L1. reflexivity.
Qed.
Print Assumptions init_seeded_same.

(* The fans of a weight. *)
Theorem fans_of_weight o i ks : calculateFan (o :: i :: ks) FAN_IN = numel (i :: ks) /\ calculateFan (o :: i :: ks) FAN_OUT = numel (o :: ks).
Proof.
  assert (G : forall l a, fold_left Nat.mul l a = a * fold_left Nat.mul l 1).
  { induction l as [|x l IH]; intros a; cbn; [lia|]. rewrite (IH (a * x)), (IH (x + 0)). nia. }
  unfold calculateFan, calculateFans, numel. cbn [length Nat.ltb Nat.leb nth skipn fold_left]. rewrite (G ks (1 * i)), (G ks (1 * o)), !Nat.mul_1_l. split; reflexivity.
Qed.
Print Assumptions fans_of_weight.

(* Once a seed is set the draws are not independent: two equal layers start out equal, a
   bias repeats the beginning of its weight, and the weights of any two layers are multiples
   of each other. *)
Theorem init_repeats_refuted {E} (lib : library E) s st i o i2 o2 : 0 < i -> 0 < i2 ->
  exists p q st', initParameters lib (Container [Linear i o true; Linear i2 o2 true; Linear i o true]) (setSeed (seeding lib) s st) = Ok ([p; q; p], st') /\
  (exists b, bias p = Some b /\ tdata b = firstn o (tdata (weight p))) /\
  forall k, k < o * i -> k < o2 * i2 -> (nth k (tdata (weight p)) 0 * sqrt (INR i) = nth k (tdata (weight q)) 0 * sqrt (INR i2))%R.
Proof.
  intros H H2. eexists. eexists. eexists. split.
  - rewrite (init_seeded lib (msize (Container [Linear i o true; Linear i2 o2 true; Linear i o true]))); [|reflexivity|].
    + cbn [leaves flat_map app map]. reflexivity.
    + cbn [leaves flat_map app]. repeat constructor; assumption.
  - cbn [leaf_params weight bias]. split.
    + eexists. split; [reflexivity|]. unfold uni. cbn [tdata]. rewrite uniforms_firstn by (unfold numel; cbn; nia). unfold numel. cbn [fold_left]. rewrite Nat.mul_1_l. reflexivity.
    + intros k K1 K2. apply uni_scale; try assumption; unfold numel; cbn; lia.
Qed.
Print Assumptions init_repeats_refuted.

(* A layer without inputs asks the library for a distribution over all the reals. *)
Theorem init_no_inputs_refuted {E} (lib : library E) st o kh kw b : initParameters lib (Linear 0 o b) st = UB /\ initParameters lib (Conv2D 0 o kh kw b) st = UB.
Proof. split; reflexivity. Qed.
Print Assumptions init_no_inputs_refuted.

(* A generator over Z and a model with every kind of module. *)
Example init_met : exists lib : library Z, (forall e, 0 <= fst (unif lib e) < 1)%R /\
  let m := Container [Conv2D 1 2 3 3 true; Container [LayerNorm [4] true; RMSNorm [4]]; Embedding 5 4; Linear 4 2 false] in
  leaves m = [Conv2D 1 2 3 3 true; LayerNorm [4] true; RMSNorm [4]; Embedding 5 4; Linear 4 2 false] /\ Forall (fun m => 0 < fan_in m) (leaves m).
Proof.
  exists (mkLib Z (fun s => s) (fun e => ((if Z.even e then 0 else / 2)%R, (e + 1)%Z)) (fun mean std n e => repeat mean n)). split.
  - intros e. cbn. destruct (Z.even e); lra.
  - split; [reflexivity|]. cbn. repeat constructor.
Qed.
