(** C87: data-parallel training gives every rank the parameters that training in
    one process with the mean gradient gives. *)
From Coq Require Import ZArith List Arith Bool Lia Reals Lra Permutation FunctionalExtensionality.
From Verif Require Import OptimModel OptimSpec ReducerModel ReducerSpec ReducerProps DdpModel DdpSpec DdpProofs DdpProofs2.
Import ListNotations.
Open Scope nat_scope.

(** For any number of ranks, any initial parameters on each, any optimizer, any
    number of iterations with or without zeroing the gradients and with or
    without new rates, any local gradients (functions of the parameters), any
    orders in which they become ready: the run goes through, and on every rank
    every element of every parameter, and of its gradient, is what a single
    process gets that starts from the root's parameters and in every iteration
    receives the mean of the ranks' gradients.  Missing: buckets that become full
    in different orders on different ranks, parameters without elements (both
    refuted for C41), parameters without a gradient (refuted below). *)
Theorem ddp_training_partial : forall e cap ps bs a lr0 root ini its th0 j0,
  buildBuckets e cap ps = Some bs -> (forall q, In q ps -> 0 < pnumel q) ->
  nth_error ini root = Some (th0, j0) -> (forall x, In x ini -> map (@length R) (snd x) = map btotal bs) ->
  Forall (regular bs (length ini)) its ->
  exists sts, ddpTrain bs a lr0 root ini its = Some sts /\ length sts = length ini /\
    forall st, In st sts -> forall i, i < nelems bs ->
      theta st i = theta (singleProcess (nelems bs) a lr0 th0 its) i /\
      option_map (heap st) (gradH st i) = gradientOf (nelems bs) i (script (nelems bs) a lr0 th0 its []).
Proof. exact train_ok. Qed.
(** The elements are numbered through: each number below [nelems] belongs to
    exactly one element of one parameter. *)
Theorem elements_numbered : forall e cap ps bs, buildBuckets e cap ps = Some bs ->
  nelems bs = list_sum (map pnumel ps) /\ flat_map (elements bs) (places bs) = seq 0 (nelems bs) /\
  forall b p bk q, nth_error bs b = Some bk -> nth_error (bparams bk) p = Some q -> length (elements bs (b, p)) = pnumel q.
Proof.
  intros e cap ps bs H. split; [|split].
  - destruct (ReducerProofs.build_ok _ _ _ _ H) as (A & W & _). rewrite <- A. unfold nelems. clear -W. induction W as [|b l Hb W IH]; [reflexivity|].
    cbn [map concat list_sum fold_right]. rewrite map_app, list_sum_app. destruct Hb as (_ & _ & _ & -> & _). f_equal. exact IH.
  - apply elements_places. eapply tiled_of; eauto.
  - intros b p bk q Hb Hq. unfold elements. rewrite map_length, seq_length. cbn [fst snd]. eapply size_of; eauto.
Qed.

(** Plain SGD without the case distinctions. *)
Definition plainBody (st : ost) (i : nat) : ost :=
  match gradH st i with None => st | Some r => withTheta st i (theta st i - lr st * heap st r)%R end.
Definition plainHandle (n : nat) (st : ost) (e : event) : ost :=
  match e with
  | EGrad i g => addGrad i g st
  | EZero => zeroGrad n st
  | EStep => forLoop n plainBody (mkO (heap st) (next st) (theta st) (gradH st) (momH st) (c1 st) (c2 st) (c3 st) (S (stepNo st)) (lr st))
  | ELr l => setRate l st
  end.
Lemma plain_body : body (SGD 0 0 0 false) = plainBody.
Proof.
  apply functional_extensionality. intros st. apply functional_extensionality. intros i. unfold plainBody. cbn [body]. unfold sgdBody, getDecayedGrad.
  destruct (gradH st i) as [r|]; [|reflexivity]. destruct (Req_EM_T 0 0); [|lra]. reflexivity.
Qed.
Lemma plain_step : forall n st, optStep n (SGD 0 0 0 false) st = plainHandle n st EStep.
Proof. intros n st. unfold optStep. rewrite plain_body. reflexivity. Qed.
Lemma plain_opt : forall n, optStep n (SGD 0 0 0 false) = fun st => plainHandle n st EStep.
Proof. intros n. apply functional_extensionality. apply plain_step. Qed.
Lemma plain_train : forall n lr0 th es, train n (SGD 0 0 0 false) lr0 th es = fold_left (plainHandle n) es (initSt (SGD 0 0 0 false) lr0 th).
Proof.
  intros n lr0 th es. unfold train. generalize (initSt (SGD 0 0 0 false) lr0 th). induction es as [|e es IH]; intros st; [reflexivity|]. cbn [fold_left].
  rewrite IH. f_equal. destruct e; try reflexivity. apply plain_step.
Qed.
(** Two ranks, two parameters of one element in a bucket each; the local gradient
    of element [i] is its value minus the rank's target. *)
Definition localOf (target : R) : local := mkLocal (fun v i => (nth i v 0 - target)%R) [(0, 0); (1, 0)] [[7%R]; [5%R]].
Definition twice : list iter := [mkIter None true [localOf 2; localOf 4]; mkIter (Some (1/4)%R) false [localOf 2; localOf 4]].
Definition starts : list ((nat -> R) * list (list R)) := [(fun _ => 1%R, [[0%R]; [0%R]]); (fun i => INR i, [[0%R]; [1%R]])].
Example ddp_training_meets : Forall (regular bs2 2) twice.
Proof.
  repeat constructor; exists [0; 1]; intros l [<-|[<-|[]]]; (split; [apply bs2_complete|split; reflexivity]).
Qed.
Example ddp_training_example : exists sts, ddpTrain bs2 (SGD 0 0 0 false) (1/2) 1 starts twice = Some sts /\ length sts = 2 /\
  forall st, In st sts -> theta st 0 = (21/8)%R /\ theta st 1 = (11/4)%R.
Proof.
  destruct (ddp_training_partial 4 4 two bs2 (SGD 0 0 0 false) (1/2) 1 starts twice (fun i => INR i) [[0%R]; [1%R]]) as (sts & E & L & Q);
    [exact bs2_built|intros q [<-|[<-|[]]]; cbn; lia|reflexivity|intros x [<-|[<-|[]]]; reflexivity|exact ddp_training_meets|].
  exists sts. split; [exact E|]. split; [exact L|]. intros st Hst.
  destruct (Q st Hst 0 ltac:(cbn; lia)) as (E0 & _). destruct (Q st Hst 1 ltac:(cbn; lia)) as (E1 & _). rewrite E0, E1.
  unfold singleProcess. rewrite plain_train. cbn [script twice]. rewrite !plain_train.
  lazy -[Rplus Rmult Rminus Ropp Rinv Rdiv IZR INR]. change (INR 2) with (1 + 1)%R. change (INR 1) with 1%R. change (INR 0) with 0%R. split; lra.
Qed.
(** A parameter that gets no gradient: nothing is averaged, no error is reported,
    and the replicas drift apart. *)
Theorem ddp_training_refuted : exists bs ps ini its sts s0 s1, buildBuckets 4 8 ps = Some bs /\ (forall q, In q ps -> 0 < pnumel q) /\
  (forall x, In x ini -> map (@length R) (snd x) = map btotal bs) /\
  (forall it l, In it its -> In l (ilocal it) -> lorder l = [(0, 0)]) /\
  ddpTrain bs (SGD 0 0 0 false) 1 0 ini its = Some sts /\ nth_error sts 0 = Some s0 /\ nth_error sts 1 = Some s1 /\ theta s0 0 <> theta s1 0.
Proof.
  exists [createBucket two], two, [(fun _ => 0%R, [[0%R; 0%R]]); (fun _ => 0%R, [[0%R; 0%R]])],
    [mkIter None true [mkLocal (fun _ _ => 1%R) [(0, 0)] [[0%R; 0%R]]; mkLocal (fun _ _ => 2%R) [(0, 0)] [[0%R; 0%R]]]].
  set (bs := [createBucket two]). set (ini := [(fun _ => 0%R, [[0%R; 0%R]]); (fun _ => 0%R, [[0%R; 0%R]])]).
  set (its := [_]).
  assert (K : option_map (map (fun s => theta s 0)) (ddpTrain bs (SGD 0 0 0 false) 1 0 ini its) = Some [(0 - 1 * (0 + 1))%R; (0 - 1 * (0 + 2))%R]).
  { unfold ddpTrain. cbn [ddpRun its]. unfold ddpIter. rewrite plain_opt. lazy -[Rplus Rmult Rminus Ropp Rinv Rdiv IZR INR]. reflexivity. }
  destruct (ddpTrain bs (SGD 0 0 0 false) 1 0 ini its) as [[|s0 [|s1 l]]|]; try discriminate. injection K as K0 K1 _.
  exists (s0 :: s1 :: l), s0, s1. split; [reflexivity|]. split; [intros q [<-|[<-|[]]]; cbn; lia|].
  split; [intros x [<-|[<-|[]]]; reflexivity|]. split; [intros it l' [<-|[]] [<-|[<-|[]]]; reflexivity|].
  split; [reflexivity|]. split; [reflexivity|]. split; [reflexivity|]. rewrite K0, K1. lra.
Qed.

Print Assumptions ddp_training_partial.
Print Assumptions elements_numbered.
Print Assumptions ddp_training_refuted.
