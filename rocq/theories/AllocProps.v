(** C01-C03: the caching allocator. *)
From Coq Require Import ZArith List Bool Lia.
From Verif Require Import AllocModel AllocSpec AllocProofs8.
Import ListNotations.
Local Open Scope Z_scope.

(** A history used below to show that the hypotheses are met: three
    allocations from one region, the middle one freed, a large one, a failing
    one and an unknown free. *)
Definition demo : list op :=
  [Alloc 1000 (Some 4096) None; Alloc 5000 None None; Alloc 700 None None;
   Free 5120; Alloc 30000000 (Some 67108864) None; Alloc 3000000 None None; Free 17].
Definition demo_all_freed : list op := demo ++ [Free 4096; Free 67108864; Free 10240].
Example demo_legal : Forall legal demo_all_freed.
Proof. repeat constructor; discriminate. Qed.
Example demo_runs : option_map (fun r => (live (snd r), held (fst r))) (run init demo)
  = Some ([(67108864, 30000000); (10240, 700); (4096, 1000)],
          [(67108864, 31457280); (4096, 2097152)]).
Proof. vm_compute. reflexivity. Qed.
Example demo_all_runs : option_map (fun r => (live (snd r), held (fst r))) (run init demo_all_freed)
  = Some ([], [(67108864, 31457280); (4096, 2097152)]).
Proof. vm_compute. reflexivity. Qed.

(** No history of requests makes the allocator touch a deleted block, fail an
    assertion or return a foreign pointer to the base allocator. *)
Theorem alloc_never_undefined : forall ops, Forall legal ops ->
  exists s es, run init ops = Some (s, es).
Proof. exact no_ub. Qed.
Print Assumptions alloc_never_undefined.

(** C01 *)
Theorem alloc_live_disjoint_and_inside : forall ops s es,
  Forall legal ops -> run init ops = Some (s, es) ->
  NoDup (map fst (live es))
  /\ ForallOrdPairs disjoint (live es)
  /\ forall a, In a (live es) ->
       exists r, In r (held s) /\ inside a r /\ covers r (fst a) /\ (512 | fst a - fst r).
Proof. exact no_overlap. Qed.
Print Assumptions alloc_live_disjoint_and_inside.

(** C02: the regions held are exactly tiled by live and cached blocks. *)
Theorem alloc_account : forall ops s es,
  Forall legal ops -> run init ops = Some (s, es) -> exists lay, account s (live es) lay.
Proof. exact account_reach. Qed.
Print Assumptions alloc_account.

Theorem alloc_total_is_sum_held : forall ops s es,
  Forall legal ops -> run init ops = Some (s, es) ->
  total s = fold_right Z.add 0 (map snd (held s)).
Proof. exact total_reach. Qed.
Print Assumptions alloc_total_is_sum_held.

Theorem alloc_release_only_unused : forall ops s es o s' e,
  Forall legal ops -> legal o -> run init ops = Some (s, es) -> step s o = Some (s', e) ->
  forall r, In r (held s) -> ~ In r (held s') ->
  forall p n, In (p, n) (live es) -> ~ covers r p.
Proof. exact release_safe. Qed.
Print Assumptions alloc_release_only_unused.

(** A failing request does give cached regions back. *)
Example release_happens :
  option_map (fun r => held (fst r)) (run init (demo_all_freed ++ [Alloc 50000000 None None])) = Some [].
Proof. vm_compute. reflexivity. Qed.

Theorem alloc_destroy_returns_everything : forall ops s es,
  Forall legal ops -> run init ops = Some (s, es) -> live es = [] ->
  exists s', destroy s = Some s' /\ held s' = [] /\ total s' = 0.
Proof. exact destroy_all. Qed.
Print Assumptions alloc_destroy_returns_everything.

Theorem alloc_destroy_checks_live : forall ops s es,
  Forall legal ops -> run init ops = Some (s, es) -> destroy s <> None -> live es = [].
Proof. exact destroy_only. Qed.
Print Assumptions alloc_destroy_checks_live.

Theorem alloc_free_unknown_noop : forall ops s es p,
  Forall legal ops -> run init ops = Some (s, es) ->
  ~ In p (map fst (live es)) -> step s (Free p) = Some (s, EFree p).
Proof. exact free_unknown. Qed.
Print Assumptions alloc_free_unknown_noop.

(** C03: [alloc_account] contains "no two adjacent free tiles"; its consequences: *)
Theorem alloc_unused_region_is_one_block : forall ops s es r,
  Forall legal ops -> run init ops = Some (s, es) -> In r (held s) ->
  (forall p n, In (p, n) (live es) -> ~ covers r p) ->
  exists sm, cached s sm (fst r) (snd r).
Proof. exact region_coalesces. Qed.
Print Assumptions alloc_unused_region_is_one_block.

Theorem alloc_unused_region_is_reused : forall ops s es r n p1 p2,
  Forall legal ops -> run init ops = Some (s, es) -> In r (held s) ->
  (forall p n, In (p, n) (live es) -> ~ covers r p) ->
  0 <= n <= snd r -> n < 9223372036854775808 -> same_class n (snd r) ->
  exists s' p, step s (Alloc n p1 p2) = Some (s', EAlloc n (Some p)) /\ held s' = held s.
Proof. exact region_reused. Qed.
Print Assumptions alloc_unused_region_is_reused.
Example reuse_applies : In (67108864, 31457280) [(67108864, 31457280); (4096, 2097152)]
  /\ same_class 31000000 31457280 /\ same_class 1048576 2097152.
Proof. split; [left; reflexivity|]. unfold same_class. split; lia. Qed.

Theorem alloc_best_fit_from_cache : forall ops s es n p1 p2 q m,
  Forall legal ops -> run init ops = Some (s, es) -> 0 <= n < 9223372036854775808 ->
  cached s (n <=? 1048576) q m -> n <= m ->
  exists s' p z, step s (Alloc n p1 p2) = Some (s', EAlloc n (Some p)) /\ held s' = held s
    /\ cached s (n <=? 1048576) p z /\ n <= z <= m.
Proof. exact cache_hit. Qed.
Print Assumptions alloc_best_fit_from_cache.

(** Findings.  Switching the cache off between an allocation and its release
    hands the region back to the base allocator while the cache still uses it:
    the next allocation lies outside every region held. *)
Theorem alloc_toggle_refuted : exists ops s en es a,
  crun (init, true) ops = Some (s, en, es) /\ In a (live es)
  /\ forall r, In r (held s) -> ~ inside a r.
Proof.
  exists [COp (Alloc 100 (Some 4096) None); CSetEnabled false; COp (Free 4096);
          CSetEnabled true; COp (Alloc 100 None None)].
  eexists _, _, _, (4608, 100). split; [vm_compute; reflexivity|].
  split; [left; reflexivity | intros r []].
Qed.
Print Assumptions alloc_toggle_refuted.

(** A negative request wraps to a zero-sized block, whose address is then
    handed out a second time. *)
Theorem alloc_negative_size_refuted : exists ops s es,
  run init ops = Some (s, es) /\ ~ NoDup (map fst (live es)).
Proof.
  exists [Alloc (-1) (Some 4096) None; Alloc 100 None None].
  eexists _, _. split; [vm_compute; reflexivity|].
  intro H. inversion H as [|x l Hx Hl]. apply Hx. left. reflexivity.
Qed.
Print Assumptions alloc_negative_size_refuted.
