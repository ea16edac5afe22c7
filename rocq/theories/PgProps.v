(** C94: setting up a process group. *)
From Coq Require Import List Bool ZArith Ascii String Lia.
From Verif Require Import PgModel PgSpec PgProofs.
Import ListNotations.
Open Scope Z_scope.

(** tcp://host:port, with a port below 65536: the group has the rank and the size asked
    for and meets at that host and port, where rank 0 is the server. *)
Theorem pg_tcp_port_partial env host ds r ws timeout wait : hostName host -> decimal ds -> number ds < 65536 -> r <> -1 -> ws <> -1 ->
  exists g, initProcessGroup env None NCCL ("tcp://" ++ host ++ ":" ++ written ds) r ws timeout wait = Returns true (Some g) /\ groupOn (TcpStore host (number ds) (r =? 0) true ws 1800000) r ws g.
Proof.
  intros H D B R W. apply (init_ok env (mkCfg TCP host (number ds) "" r ws)); [|exact R|exact W|].
  - rewrite parse_tcp_port by assumption. rewrite (proj2 (Z.leb_le _ _)) by lia. reflexivity.
  - unfold createStore. cbn [method masterAddr masterPort rank worldSize]. rewrite Z.mod_small; [reflexivity|]. split; [|exact B].
    unfold number. assert (POS : forall l v, 0 <= v -> 0 <= fold_left (fun v d => 10 * v + Z.of_nat d) l v) by (induction l as [|x l IH]; intros v HV; cbn [fold_left]; [exact HV|apply IH; lia]). apply POS. lia.
Qed.
(** tcp://host: port 29500. *)
Theorem pg_tcp_default_port env host r ws timeout wait : hostName host -> r <> -1 -> ws <> -1 ->
  exists g, initProcessGroup env None NCCL ("tcp://" ++ host) r ws timeout wait = Returns true (Some g) /\ groupOn (TcpStore host 29500 (r =? 0) true ws 1800000) r ws g.
Proof. intros H R W. apply (init_ok env (mkCfg TCP host 29500 "" r ws)); [apply parse_tcp, H|exact R|exact W|reflexivity]. Qed.
(** file://path: any path. *)
Theorem pg_file env path r ws timeout wait : r <> -1 -> ws <> -1 ->
  exists g, initProcessGroup env None NCCL ("file://" ++ path) r ws timeout wait = Returns true (Some g) /\ groupOn (FileStoreAt path) r ws g.
Proof. intros R W. apply (init_ok env (mkCfg FILE "" 29500 path r ws)); [apply parse_file|exact R|exact W|reflexivity]. Qed.
(** env://: the address and port are the environment's; the rank and the size are the
    arguments, or where these are -1 the environment's. *)
Theorem pg_env_partial env addr port rk sz r ws timeout wait : env "MASTER_ADDR"%string = Some addr ->
  (env "MASTER_PORT"%string = None /\ port = 29500 \/ exists ds, env "MASTER_PORT"%string = Some (written ds) /\ decimal ds /\ number ds = port /\ port < 65536) ->
  (r <> -1 /\ rk = r \/ r = -1 /\ exists ds, env "RANK"%string = Some (written ds) /\ decimal ds /\ number ds = rk /\ rk <= 2147483647) ->
  (ws <> -1 /\ sz = ws \/ ws = -1 /\ exists ds, env "WORLD_SIZE"%string = Some (written ds) /\ decimal ds /\ number ds = sz /\ sz <= 2147483647) ->
  exists g, initProcessGroup env None NCCL "env://" r ws timeout wait = Returns true (Some g) /\ groupOn (TcpStore addr port (rk =? 0) true sz 1800000) rk sz g.
Proof.
  intros A P R W.
  assert (POS : forall ds, 0 <= number ds) by (intros ds; unfold number; assert (POS : forall l v, 0 <= v -> 0 <= fold_left (fun v d => 10 * v + Z.of_nat d) l v) by (induction l as [|x l IH]; intros v HV; cbn [fold_left]; [exact HV|apply IH; lia]); apply POS; lia).
  assert (P' : (match env "MASTER_PORT"%string with Some p => stoi p | None => Some 29500 end) = Some port /\ 0 <= port < 65536).
  { destruct P as [[E ->]|(ds & E & D & N & B)]; rewrite E; [split; [reflexivity|lia]|]. split; [rewrite stoi_written by (assumption || lia); congruence|]. specialize (POS ds). lia. }
  assert (W' : (match env "WORLD_SIZE"%string with Some e => if ws =? -1 then stoi e else Some ws | None => Some ws end) = Some sz /\ sz <> -1).
  { destruct W as [[E ->]|(-> & ds & E & D & N & B)]; [rewrite (proj2 (Z.eqb_neq _ _) E); destruct (env "WORLD_SIZE"%string); split; [reflexivity|exact E|reflexivity|exact E]|]. rewrite E. split; [change (-1 =? -1) with true; cbv iota; rewrite stoi_written by (assumption || lia); congruence|]. specialize (POS ds). lia. }
  assert (R' : (match env "RANK"%string with Some e => if r =? -1 then stoi e else Some r | None => Some r end) = Some rk /\ rk <> -1).
  { destruct R as [[E ->]|(-> & ds & E & D & N & B)]; [rewrite (proj2 (Z.eqb_neq _ _) E); destruct (env "RANK"%string); split; [reflexivity|exact E|reflexivity|exact E]|]. rewrite E. split; [change (-1 =? -1) with true; cbv iota; rewrite stoi_written by (assumption || lia); congruence|]. specialize (POS ds). lia. }
  destruct P' as [P1 P2], W' as [W1 W2], R' as [R1 R2].
  apply (init_ok env (mkCfg ENV addr port "" rk sz)); [|exact R2|exact W2|unfold createStore; cbn; rewrite Z.mod_small by lia; reflexivity].
  unfold parseInitString. change ("env://" =? "env://")%string with true. cbv iota. rewrite A, P1, W1, R1. reflexivity.
Qed.
(** A string of none of these kinds, or no rank or size, or a group that is there
    already: false, and nothing changes. *)
Theorem pg_rejects env b s r ws timeout wait : (~ wellFormed s \/ s <> "env://"%string /\ (r = -1 \/ ws = -1) \/ s = "env://"%string /\ env "MASTER_ADDR"%string = None) ->
  (forall host ds, s = ("tcp://" ++ host ++ ":" ++ written ds)%string -> number ds <= 2147483647) ->
  initProcessGroup env None b s r ws timeout wait = Returns false None.
Proof.
  intros [N|[[E RW]|[-> A]]] B; unfold initProcessGroup.
  - rewrite parse_other by exact N. reflexivity.
  - destruct (parseInitString env s r ws) as [c|] eqn:P.
    + assert (X : c = noConfig \/ rank c = r /\ worldSize c = ws).
      { unfold parseInitString in P. rewrite (proj2 (String.eqb_neq _ _) E) in P. destruct (after "tcp://" s) as [t|].
        - destruct (matchTcp t) as [[h [p|]]|]; [destruct (stoi p); [|discriminate]|..]; injection P as <-; cbn; auto.
        - destruct (after "file://" s); injection P as <-; cbn; auto. }
      destruct X as [->|[-> ->]]; [reflexivity|]. destruct RW as [->| ->]; [reflexivity|]. rewrite orb_true_r. reflexivity.
    + exfalso. unfold parseInitString in P. rewrite (proj2 (String.eqb_neq _ _) E) in P. destruct (after "tcp://" s) as [t|] eqn:T.
      * apply after_inv in T. destruct (matchTcp t) as [[h [p|]]|] eqn:M; try discriminate. apply match_inv in M. destruct M as (_ & ds & -> & D & ->). specialize (B _ _ T). rewrite stoi_written in P by assumption. discriminate.
      * destruct (after "file://" s); discriminate.
  - unfold parseInitString. change ("env://" =? "env://")%string with true. cbv iota. rewrite A. reflexivity.
Qed.
Theorem pg_second_init_fails env g b s r ws timeout wait : initProcessGroup env (Some g) b s r ws timeout wait = Returns false (Some g).
Proof. reflexivity. Qed.
(** After destroying the group it is as if there never was one. *)
Theorem pg_destroy_init env g b s r ws timeout wait : initProcessGroup env (destroyProcessGroup g) b s r ws timeout wait = initProcessGroup env None b s r ws timeout wait.
Proof. reflexivity. Qed.
Print Assumptions pg_tcp_port_partial.
Print Assumptions pg_tcp_default_port.
Print Assumptions pg_file.
Print Assumptions pg_env_partial.
Print Assumptions pg_rejects.
Print Assumptions pg_second_init_fails.
Print Assumptions pg_destroy_init.
(** What the strings of PgSpec look like. *)
Example pg_strings : ("tcp://" ++ "node1" ++ ":" ++ written [6; 5; 0; 1]%nat = "tcp://node1:6501")%string /\ number [6; 5; 0; 1]%nat = 6501 /\ hostName "node1" /\ decimal [6; 5; 0; 1]%nat.
Proof. split; [reflexivity|]. split; [reflexivity|]. split; [split; [discriminate|cbn; repeat split; discriminate]|]. split; [discriminate|]. repeat constructor; lia. Qed.
(** What does not have one of the forms: two colons, a port that is not a number. *)
Example pg_malformed : ~ wellFormed "tcp://a:b:1" /\ ~ wellFormed "tcp://:80" /\ ~ wellFormed "tcp://h:" /\ ~ wellFormed "tcp://h:8x" /\ ~ wellFormed "mpi://".
Proof.
  assert (H : forall env s r ws, parseInitString env s r ws = Some noConfig -> s <> "env://"%string -> ~ wellFormed s).
  { intros env s r ws P NE W. destruct W as [|h Hh|h ds Hh Hd|p]; [congruence|rewrite parse_tcp in P by assumption; discriminate| |discriminate].
    rewrite parse_tcp_port in P by assumption. destruct (number ds <=? 2147483647); discriminate. }
  repeat split; (apply (H (fun _ => None) _ 0 1); [reflexivity|discriminate]).
Qed.
Definition environ (s : string) : option string :=
  if (s =? "MASTER_ADDR")%string then Some "10.0.0.1"%string else if (s =? "MASTER_PORT")%string then Some "8080"%string else if (s =? "RANK")%string then Some "2"%string else if (s =? "WORLD_SIZE")%string then Some "4"%string else None.
Example pg_env_example : exists g, initProcessGroup environ None NCCL "env://" (-1) (-1) 0 true = Returns true (Some g) /\ groupOn (TcpStore "10.0.0.1" 8080 false true 4 1800000) 2 4 g.
Proof.
  apply (pg_env_partial environ "10.0.0.1" 8080 2 4).
  - reflexivity.
  - right. exists [8; 0; 8; 0]%nat. repeat split; try reflexivity; try discriminate. repeat constructor.
  - right. split; [reflexivity|]. exists [2]%nat. repeat split; try reflexivity; try discriminate. repeat constructor.
  - right. split; [reflexivity|]. exists [4]%nat. repeat split; try reflexivity; try discriminate. repeat constructor.
Qed.

(** What fails.  A port of 65536 or more is taken modulo 65536. *)
Theorem pg_port_wraps_refuted env : exists g, initProcessGroup env None NCCL "tcp://h:65537" 0 1 0 true = Returns true (Some g) /\ groupOn (TcpStore "h" 1 true true 1 1800000) 0 1 g.
Proof. apply (init_ok env (mkCfg TCP "h" 65537 "" 0 1)); [reflexivity|discriminate|discriminate|reflexivity]. Qed.
(** A port that does not fit an int, and an environment variable that is not a number,
    end in an exception. *)
Theorem pg_throws_refuted : initProcessGroup (fun _ => None) None NCCL "tcp://h:3000000000" 0 1 0 true = Throws /\
  initProcessGroup (fun s => if (s =? "MASTER_ADDR")%string then Some "h"%string else if (s =? "MASTER_PORT")%string then Some "http"%string else None) None NCCL "env://" 0 1 0 true = Throws.
Proof. split; reflexivity. Qed.
(** Ranks outside the group and groups of no ranks are accepted. *)
Theorem pg_rank_outside_refuted env : exists g, initProcessGroup env None NCCL "tcp://h" 5 (-2) 0 true = Returns true (Some g) /\ grank g = 5 /\ gsize g = -2.
Proof. eexists. split; [reflexivity|]. split; reflexivity. Qed.
(** The timeout and waitWorkers do nothing at all: the backend keeps its 10 minutes and
    the store its 30, and the server waits for the workers. *)
Theorem pg_timeout_ignored_refuted env cur b s r ws t1 t2 w1 w2 : initProcessGroup env cur b s r ws t1 w1 = initProcessGroup env cur b s r ws t2 w2 /\
  forall g k, initProcessGroup env None b s r ws t1 w1 = Returns true (Some g) -> getBackend g CUDA = Some k -> btimeout k = 600000.
Proof.
  split; [reflexivity|]. intros g k E G. unfold initProcessGroup in E. destruct (parseInitString env s r ws) as [c|]; [|discriminate]. destruct ((rank c =? -1) || (worldSize c =? -1)); [discriminate|].
  destruct (method c); [discriminate|..]; (destruct b; [discriminate|]); injection E as <-; cbn in G; injection G as <-; reflexivity.
Qed.
(** With a backend it does not have it returns false and leaves a group without a backend
    behind, so that the next call fails too. *)
Theorem pg_failed_init_refuted env : exists g, initProcessGroup env None UNDEFINED "tcp://h" 0 1 0 true = Returns false (Some g) /\ getDefaultBackend g = None /\
  initProcessGroup env (Some g) NCCL "tcp://h" 0 1 0 true = Returns false (Some g).
Proof. eexists. split; [reflexivity|]. split; reflexivity. Qed.
(** barrier() without a list of devices fails its assertion in every group. *)
Theorem pg_barrier_refuted env b s r ws t w g : initProcessGroup env None b s r ws t w = Returns true (Some g) -> barrierDevice g [] = None.
Proof.
  intros E. unfold initProcessGroup in E. destruct (parseInitString env s r ws) as [c|]; [|discriminate]. destruct ((rank c =? -1) || (worldSize c =? -1)); [discriminate|].
  destruct (method c); [discriminate|..]; (destruct b; [discriminate|]); injection E as <-; reflexivity.
Qed.
(** With one it is on the first of them. *)
Theorem pg_barrier_device env b s r ws t w g d ids : initProcessGroup env None b s r ws t w = Returns true (Some g) -> 0 <= d -> barrierDevice g (d :: ids) = Some d.
Proof.
  intros E D. unfold initProcessGroup in E. destruct (parseInitString env s r ws) as [c|]; [|discriminate]. destruct ((rank c =? -1) || (worldSize c =? -1)); [discriminate|].
  destruct (method c); [discriminate|..]; (destruct b; [discriminate|]); injection E as <-; unfold barrierDevice; cbn; rewrite (proj2 (Z.leb_le 0 d)) by exact D; reflexivity.
Qed.
Print Assumptions pg_port_wraps_refuted.
Print Assumptions pg_throws_refuted.
Print Assumptions pg_rank_outside_refuted.
Print Assumptions pg_timeout_ignored_refuted.
Print Assumptions pg_failed_init_refuted.
Print Assumptions pg_barrier_refuted.
Print Assumptions pg_barrier_device.
