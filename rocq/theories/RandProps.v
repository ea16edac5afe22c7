(** C48: reproducible streams of random numbers. *)
From Coq Require Import ZArith List Bool Lia.
From Verif Require Import RandModel.
Import ListNotations.

(** What the user expects: after [manual_seed s], the operations draw one after the
    other from the one stream of [seed s].  [one_stream] runs them that way. *)
Fixpoint one_stream {E O} (runs : list (E -> O * E)) (e : E) : list O :=
  match runs with [] => [] | run :: runs => let '(o, e) := run e in o :: one_stream runs e end.

(** Whatever happened before, and whatever the random device returns: the same seed
    and the same operations give the same results. *)
Theorem seed_reproducible : forall E O (seed : Z -> E) (ops : list (draw_op E O)) s st st',
  fst (drawRun seed (ManualSeed s :: ops) st) = fst (drawRun seed (ManualSeed s :: ops) st').
Proof.
  intros E O seed ops s st st'. cbn [drawRun drawStep].
  assert (H : forall (ops : list (draw_op E O)) (a b : rstate E), seed_ a <> None -> seed_ a = seed_ b -> engine a = engine b -> fst (drawRun seed ops a) = fst (drawRun seed ops b)).
  { clear. induction ops as [|op ops IH]; intros a b N Hs He; auto.
    assert (Ga : getGenerator seed a = a) by (unfold getGenerator; destruct (seed_ a); congruence).
    assert (Gb : getGenerator seed b = b) by (unfold getGenerator; rewrite <- Hs; destruct (seed_ a); congruence).
    cbn [drawRun]. destruct op as [run|run|s]; cbn [drawStep]; rewrite ?Ga, ?Gb.
    - rewrite He. specialize (IH a b N Hs He). destruct (drawRun seed ops a), (drawRun seed ops b). cbn in *. congruence.
    - rewrite He. destruct (run (engine b)) as [o e]. specialize (IH (mkRS (seed_ a) e (device a) (asked a)) (mkRS (seed_ b) e (device b) (asked b)) N Hs eq_refl).
      destruct (drawRun seed ops (mkRS (seed_ a) e _ _)), (drawRun seed ops (mkRS (seed_ b) e _ _)). cbn in *. congruence.
    - specialize (IH (setSeed seed s a) (setSeed seed s b)). cbn in IH. specialize (IH ltac:(discriminate) eq_refl eq_refl).
      destruct (drawRun seed ops (setSeed seed s a)), (drawRun seed ops (setSeed seed s b)). cbn in *. congruence. }
  specialize (H ops (setSeed seed s st) (setSeed seed s st') ltac:(discriminate) eq_refl eq_refl).
  destruct (drawRun seed ops (setSeed seed s st)), (drawRun seed ops (setSeed seed s st')). exact H.
Qed.
(** Operations that take the generator by reference (the samplers) do continue one
    stream. *)
Theorem shuffles_continue_partial : forall E O (seed : Z -> E) (runs : list (E -> O * E)) s st,
  fst (drawRun seed (ManualSeed s :: map ByReference runs) st) = one_stream runs (seed s).
Proof.
  intros E O seed runs s st. cbn [drawRun drawStep].
  assert (H : forall (runs : list (E -> O * E)) (a : rstate E), seed_ a <> None -> fst (drawRun seed (map ByReference runs) a) = one_stream runs (engine a)).
  { clear. induction runs as [|run runs IH]; intros a N; auto. cbn [map drawRun drawStep one_stream].
    assert (Ga : getGenerator seed a = a) by (unfold getGenerator; destruct (seed_ a); congruence). rewrite Ga. destruct (run (engine a)) as [o e].
    specialize (IH (mkRS (seed_ a) e (device a) (asked a)) N). destruct (drawRun seed (map ByReference runs) _). cbn in *. congruence. }
  specialize (H runs (setSeed seed s st) ltac:(discriminate)). destruct (drawRun seed (map ByReference runs) (setSeed seed s st)). exact H.
Qed.
(** Tensor operations take a copy: each of them starts at the beginning of the
    stream again, however many came before. *)
Theorem random_fills_repeat_refuted : forall E O (seed : Z -> E) (runs : list (E -> O * E)) s st,
  fst (drawRun seed (ManualSeed s :: map ByCopy runs) st) = map (fun run => fst (run (seed s))) runs.
Proof.
  intros E O seed runs s st. cbn [drawRun drawStep].
  assert (H : forall (runs : list (E -> O * E)) (a : rstate E), seed_ a <> None -> fst (drawRun seed (map ByCopy runs) a) = map (fun run => fst (run (engine a))) runs).
  { clear. induction runs as [|run runs IH]; intros a N; auto. cbn [map drawRun drawStep].
    assert (Ga : getGenerator seed a = a) by (unfold getGenerator; destruct (seed_ a); congruence). rewrite Ga.
    specialize (IH a N). destruct (drawRun seed (map ByCopy runs) a). cbn in *. congruence. }
  specialize (H runs (setSeed seed s st) ltac:(discriminate)). destruct (drawRun seed (map ByCopy runs) (setSeed seed s st)). exact H.
Qed.
(** So two equal fills give equal tensors, where one stream would not. *)
Theorem random_fill_twice_refuted : forall st, fst (drawRun minstdSeed [ManualSeed 42; ByCopy (minstdDraw 2); ByCopy (minstdDraw 2)] st)
    = [[705894; 1126542223]; [705894; 1126542223]]%Z
  /\ one_stream [minstdDraw 2; minstdDraw 2] (minstdSeed 42) = [[705894; 1126542223]; [1579310009; 565444343]]%Z.
Proof. intro st. split; vm_compute; reflexivity. Qed.
(** Without a seed every operation reseeds from the random device. *)
Theorem unseeded_draws : forall E O (seed : Z -> E) (runs : list (bool * (E -> O * E))) st, seed_ st = None ->
  fst (drawRun seed (map (fun p => if fst p : bool then ByCopy (snd p) else ByReference (snd p)) runs) st)
  = map (fun p => fst (snd (snd p) (seed (device st (asked st + fst p))))) (combine (seq 0 (length runs)) runs).
Proof.
  intros E O seed runs. assert (H : forall (runs : list (bool * (E -> O * E))) k (st : rstate E) n0, seed_ st = None -> asked st = n0 + k ->
    fst (drawRun seed (map (fun p => if fst p : bool then ByCopy (snd p) else ByReference (snd p)) runs) st)
    = map (fun p => fst (snd (snd p) (seed (device st (n0 + fst p))))) (combine (seq k (length runs)) runs)).
  { clear. induction runs as [|[c run] runs IH]; intros k st n0 N A; auto. cbn [map drawRun length seq combine fst snd].
    assert (G : getGenerator seed st = mkRS None (seed (device st (asked st))) (device st) (S (asked st))) by (unfold getGenerator; rewrite N; auto).
    destruct c; cbn [drawStep]; rewrite G; cbn [engine seed_ device asked].
    - specialize (IH (S k) (mkRS None (seed (device st (asked st))) (device st) (S (asked st))) n0 eq_refl ltac:(cbn; lia)).
      destruct (drawRun seed _ _). cbn in *. rewrite IH, A. auto.
    - rewrite <- A. destruct (run (seed (device st (asked st)))) as [o e].
      specialize (IH (S k) (mkRS None e (device st) (S (asked st))) n0 eq_refl ltac:(cbn; lia)).
      destruct (drawRun seed _ _). cbn in *. rewrite IH. auto. }
  intros st N. apply (H runs 0 st (asked st)); auto; lia.
Qed.

Print Assumptions seed_reproducible.
Print Assumptions shuffles_continue_partial.
Print Assumptions random_fills_repeat_refuted.
Print Assumptions random_fill_twice_refuted.
Print Assumptions unseeded_draws.
