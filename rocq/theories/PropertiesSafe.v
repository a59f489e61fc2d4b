(** Property theorems about rebuilding, panics and the proof forest (C11-C13, C39, C49). *)
From Verif Require Import Base UnionFind EGraphModel EGraphSteps EGraphPres EGraphRuns EGraphMain EGraphReach
  EGraphSafe EGraphNoPanic EGraphTerm EGraphDebug Spec Examples.

(** C11: the count returned by [rebuild] (hook-free analyses). *)
Theorem C11_rebuild_count {Op D} `{Countable Op} (L : lang Op) (A : analysis Op D) ex g fuel g' k :
  reachable L A ex g -> hook_free A -> rebuild L A fuel (modify_n L A fuel) g = Ok (g', k) ->
  base.size (eg_classes g) = k + base.size (eg_classes g').
Proof. intros R Hh. exact (rebuild_count L A fuel g g' k Hh (reachable_good L A ex g R)). Qed.
Print Assumptions C11_rebuild_count.
Example C11_count_ex : exists g', reachable natlang unitan false (cong_g false false) /\
  rebuild natlang unitan 20 (modify_n natlang unitan 20) (cong_g false false) = Ok (g', 2) /\
  base.size (eg_classes g') = 3.
Proof.
  eexists. split_and!; [apply cong_g_reachable|apply (is_ok_fst (eg_new false))|]; vm_compute; reflexivity.
Qed.

(** C11: rebuilding a rebuilt e-graph (any hooks): no union, nothing observable changes. *)
Theorem C11_rebuild_idempotent {Op D} `{Countable Op} (L : lang Op) (A : analysis Op D) ex g fuel g1 n fuel' :
  lang_ok L -> reachable L A ex g -> rebuild L A fuel (modify_n L A fuel) g = Ok (g1, n) ->
  exists g2, rebuild L A fuel' (modify_n L A fuel') g1 = Ok (g2, 0) /\
    eg_classes g2 = eg_classes g1 /\ (forall i, eg_find g2 i = eg_find g1 i) /\
    eg_nodes g2 = eg_nodes g1 /\ eg_memo g2 = eg_memo g1 /\ eg_explain g2 = eg_explain g1 /\
    (forall d r, (exists s, eg_by_op g2 !! d = Some s /\ r ∈ s) <-> (exists s, eg_by_op g1 !! d = Some s /\ r ∈ s)).
Proof.
  intros Lo R. exact (rebuild_again L A fuel (modify_n L A fuel) fuel' (modify_n L A fuel') g g1 n Lo
    (modify_n_runs L A any fuel (fun id => prog_in_any (an_modify A id))) (reachable_good L A ex g R)).
Qed.
Print Assumptions C11_rebuild_idempotent.
Example C11_idem_ex : lang_ok natlang /\ exists g1, rebuild natlang unitan 20 (modify_n natlang unitan 20) (cong_g true false) = Ok (g1, 2).
Proof. split; [exact natlang_ok|]. eexists. apply (is_ok_fst (eg_new true)). vm_compute. reflexivity. Qed.

(** C12: [rebuild] terminates without panicking: there is a bound from which on the loop
    fuel does not matter. *)
Theorem C12_rebuild_terminates {Op D} `{Countable Op} (L : lang Op) (A : analysis Op D) R ex g :
  reachable L A ex g -> hook_free A -> merge_climbs A R ->
  exists fuel0 g' k, forall fuel, fuel0 <= fuel -> rebuild L A fuel (modify_n L A fuel) g = Ok (g', k).
Proof.
  intros Hr Hh Hc. destruct (rebuild_term L A R g Hh Hc (reachable_good L A ex g Hr)) as (f0 & g' & k & Hf & _).
  exact (ex_intro _ f0 (ex_intro _ g' (ex_intro _ k Hf))).
Qed.
Print Assumptions C12_rebuild_terminates.
(** a merge that lowers the data of [g(f(x))], to be propagated to its parent *)
Example C12_ex : hook_free sizean /\ merge_climbs sizean lt /\
  exists g g', session natlang sizean 20 false szp = Ok g /\
    rebuild natlang sizean 20 (modify_n natlang sizean 20) g = Ok (g', 0) /\
    sz_of g 3 = 6 /\ sz_of g' 3 = 4.
Proof.
  destruct sizean_climbs. split_and!; auto. exists sz_g. eexists.
  split_and!; [exact sz_g_session|apply (is_ok_fst (eg_new false))|..]; vm_compute; reflexivity.
Qed.

(** C13: a client (and hooks) passing only ids they were given never causes a panic. *)
Theorem C13_no_panic {Op D} `{Countable Op} (L : lang Op) (A : analysis Op D) fuel ex p g :
  reachable L A ex g -> (forall id N, id < N -> uses_known N (an_modify A id)) ->
  uses_known (length (eg_uf g)) p -> run_prog L A fuel (modify_n L A fuel) p g <> Panic.
Proof. exact (no_panic L A fuel ex p g). Qed.
Print Assumptions C13_no_panic.
Example C13_ex : (forall id N, id < N -> uses_known N (an_modify foldan id)) /\
  uses_known 0 foldp /\
  exists g, session natlang foldan 30 true foldp = Ok g /\ length (eg_uf g) = 6.
Proof.
  split_and!.
  - exact foldan_known.
  - cbn [uses_known foldp nch]. do 4 (split; [set_solver by lia|]; intros). split_and!; [lia|lia|done].
  - exists fold_g. split; [exact fold_g_session|vm_compute; reflexivity].
Qed.

(** C13: [find], [Index] and the ids found by walking over the classes are always good. *)
Theorem C13_ids_stay_valid {Op D} `{Countable Op} (L : lang Op) (A : analysis Op D) ex g :
  reachable L A ex g -> ids_known g.
Proof. intros R. exact (good_ids g (reachable_good L A ex g R)). Qed.
Print Assumptions C13_ids_stay_valid.
Example C13_ids_ex : exists g, reachable natlang foldan true g /\ base.size (eg_classes g) = 3 /\ known g 5.
Proof.
  exists fold_g. split_and!; [apply (session_reachable _ _ 30 _ foldp), fold_g_session|vm_compute; reflexivity|].
  apply Nat.ltb_lt. vm_compute. reflexivity.
Qed.

(** C39: the proof forest connects exactly the members of a class, and every edge (and
    every other remembered neighbour) is justified. *)
Theorem C39_forest_mirrors_classes {Op D} `{Countable Op} (L : lang Op) (A : analysis Op D) ex g x :
  reachable L A ex g -> eg_explain g = Some x ->
  length (ex_find x) = length (eg_uf g) /\
  (forall a b, known g a -> known g b ->
     (eg_find g a = eg_find g b <-> exists r, froot x r /\ rtc (flink x) a r /\ rtc (flink x) b r)) /\
  (forall i nd, ex_find x !! i = Some nd ->
     let c := xn_parent nd in
     cn_next c = i \/ (if cn_fwd c then justified g i (cn_next c) (cn_just c) else justified g (cn_next c) i (cn_just c))) /\
  (forall i nd c, ex_find x !! i = Some nd -> c ∈ xn_neighbors nd ->
     cn_current c = i /\ if cn_fwd c then justified g i (cn_next c) (cn_just c) else justified g (cn_next c) i (cn_just c)).
Proof. exact (forest_reach L A ex g x). Qed.
Print Assumptions C39_forest_mirrors_classes.
Example C39_ex : exists x, reachable natlang unitan true (cong_g true true) /\ eg_explain (cong_g true true) = Some x /\
  (fun nd => cn_next (xn_parent nd)) <$> ex_find x = [1; 1; 3; 3; 5; 5].
Proof.
  exists (default ex_new (eg_explain (cong_g true true))).
  split_and!; [apply cong_g_reachable| |vm_compute; reflexivity].
  assert (Hs : bool_decide (is_Some (eg_explain (cong_g true true))) = true) by (vm_compute; reflexivity).
  apply bool_decide_eq_true in Hs as [x Hx]. by rewrite Hx.
Qed.

(** C49: the consistency check that debug builds run at the end of [rebuild] passes. *)
Theorem C49_debug_check_passes {Op D} `{Countable Op} (L : lang Op) (A : analysis Op D) ex g :
  lang_ok L -> reachable L A ex g -> eg_clean g = true -> check_memo g = Ok true.
Proof. exact (check_memo_ok L A ex g). Qed.
Print Assumptions C49_debug_check_passes.
(** the check is not trivially true: it fails on the same e-graph with one memo entry missing *)
Example C49_ex : eg_clean (cong_g false true) = true /\ reachable natlang unitan false (cong_g false true) /\
  check_memo (cong_g false true) = Ok true /\
  check_memo (set_memo (delete (Node 3 [2]) (eg_memo (cong_g false true))) (cong_g false true)) = Panic.
Proof.
  split_and!; [vm_compute; reflexivity|apply cong_g_reachable|vm_compute; reflexivity..].
Qed.
