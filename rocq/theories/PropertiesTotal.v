(** Property C60: runs end.
    Vocabulary: Spec.v ([hook_free], [merge_climbs], [uses_known]), RunnerSpec.v ([ended]: how many
    iterations there were and what the stop reason says), TotalSpec.v ([usable] rules,
    [well_behaved] hooks, [dependable] schedulers).  The bounds of the model (how often a loop may
    go round, how deep hooks may nest, how many iterations a run may take, how many bits a
    [usize] has) appear as: from some [N] on, the outcome is the same.  A panic is an outcome too. *)
From Verif Require Import Base UnionFind EGraphModel EGraphSteps EGraphInv EGraphPres Spec EGraphReach EGraphSafe EGraphNoPanic Terms RecExprModel RecExprProofs
  ExprModel PatSpec ExprProofs MachineModel MatchSpec MatchProps RewriteModel RewriteProofs AlgSpec RuleSpec RuleProps RunnerModel RunnerSpec BackoffSpec
  TotalSpec TotalProofs RunTotal FuelProofs Examples ExamplesExpr ExamplesMatch ExamplesRewrite ExamplesRun ExamplesTotal.

(** Whatever the rules, hooks, limits and clock: a run under a dependable scheduler returns, with
    a stop reason, and the runner it returns does not depend on the bounds. *)
Theorem C60_run_ends {Op D} `{Countable Op} (L : lang Op) (A : analysis Op D) Rd it cycles ord ex clock {St Cl} (sch : nat -> scheduler Op D St) J li rules here
    (hooks : list (hook Op D Cl)) g roots st cl :
  hook_free A -> merge_climbs A Rd -> lang_ok L -> enumerates it -> enumerates_keys ord -> dependable L A it cycles ord ex sch J ->
  Forall (usable ord ex) rules -> Forall (well_behaved L A ex g) hooks -> reachable_np L A ex g -> J st ->
  exists N r, ended clock li hooks r /\
    forall fuel w rounds, N <= fuel -> N <= w -> 1 `max` li_iter li <= rounds ->
      run L A clock (sch w) li rules fuel here hooks rounds roots g st cl = Ok (Some r).
Proof.
  intros Hh Hc Lo Hit Hord Hs Hr Hk R HJ.
  exact (run_total L A Hh Rd Hc Lo it Hit cycles ord Hord ex clock sch J Hs li rules here hooks g Hr Hk roots st cl R HJ).
Qed.
Print Assumptions C60_run_ends.
(** Both schedulers of the library are dependable. *)
Theorem C60_simple_scheduler {Op D} `{Countable Op} (L : lang Op) (A : analysis Op D) it cycles ord ex :
  lang_ok L -> enumerates it -> enumerates_keys ord -> dependable L A it cycles ord ex (simple_scheduler L it cycles) (fun _ => True).
Proof. intros Lo Hit Hord. exact (simple_dependable L A Lo it Hit cycles ord Hord ex). Qed.
Print Assumptions C60_simple_scheduler.
Theorem C60_backoff_scheduler {Op D} `{Countable Op} (L : lang Op) (A : analysis Op D) it cycles ord ex debug :
  lang_ok L -> enumerates it -> enumerates_keys ord ->
  dependable L A it cycles ord ex (fun w => backoff_scheduler L it cycles w debug) (fun _ => True).
Proof. intros Lo Hit Hord. exact (backoff_dependable L A Lo it Hit cycles ord Hord ex debug). Qed.
Print Assumptions C60_backoff_scheduler.
(** Two rules, one of them conditional, a hook that adds a term, and explanations. *)
Example C60_run_ex : hook_free unitan /\ merge_climbs unitan (fun _ _ => False) /\ lang_ok natlang /\ enumerates it0 /\ enumerates_keys ord0 /\
  Forall (usable ord0 true) rules0 /\ Forall (well_behaved natlang unitan true (rw_g true)) [add_hook] /\ reachable_np natlang unitan true (rw_g true) /\
  length rules0 = 2.
Proof.
  exact (conj unitan_free (conj unitan_climbs (conj natlang_ok (conj it0_ok (conj ord0_ok (conj (rules0_usable true)
    (conj (Forall_cons_2 _ _ _ (add_hook_fine true) (Forall_nil_2 _)) (conj (rw_g_np true) eq_refl)))))))).
Qed.
Example C60_simple_ex : exists N r, ended (fun k => k) li0 [add_hook] r /\
  forall fuel w rounds, N <= fuel -> N <= w -> 1 `max` li_iter li0 <= rounds ->
    run natlang unitan (fun k => k) (simple_scheduler natlang it0 true w) li0 rules0 fuel 9 [add_hook] rounds [5] (rw_g true) () () = Ok (Some r).
Proof.
  exact (C60_run_ends natlang unitan (fun _ _ => False) it0 true ord0 true (fun k => k) (simple_scheduler natlang it0 true) (fun _ => True) li0 rules0 9 [add_hook] (rw_g true) [5] () ()
    unitan_free unitan_climbs natlang_ok it0_ok ord0_ok (C60_simple_scheduler natlang unitan it0 true ord0 true natlang_ok it0_ok ord0_ok) (rules0_usable true)
    (Forall_cons_2 _ _ _ (add_hook_fine true) (Forall_nil_2 _)) (rw_g_np true) I).
Qed.

(** Any program of API calls that uses known ids ends, from any reachable e-graph. *)
Theorem C60_programs_end {Op D} `{Countable Op} (L : lang Op) (A : analysis Op D) Rd ex g (p : prog Op D) :
  hook_free A -> merge_climbs A Rd -> reachable L A ex g -> uses_known (length (eg_uf g)) p ->
  exists N g', forall fuel, N <= fuel -> run_prog L A fuel (modify_n L A fuel) p g = Ok g'.
Proof.
  intros Hh Hc R U. destruct (prog_T L A Hh Rd Hc p g (reachable_good L A ex g R) U) as (N & g' & _ & E).
  exact (ex_intro _ N (ex_intro _ g' (fun fuel Hf => E fuel N Hf (le_n N)))).
Qed.
Print Assumptions C60_programs_end.
Example C60_programs_ex : hook_free unitan /\ merge_climbs unitan (fun _ _ => False) /\ reachable natlang unitan true (rw_g true) /\
  uses_known (length (eg_uf (rw_g true))) (hk_body add_hook () 0).
Proof. exact (conj unitan_free (conj unitan_climbs (conj (reachable_np_reachable _ _ _ _ (rw_g_np true)) (wb_ids _ _ _ _ _ (add_hook_fine true) () 0)))). Qed.
(** An analysis whose hook sets the data of the class it is called for: adding one node never
    ends (the hook is called again by what it does). *)
Theorem C60_hooks_refuted : exists A : analysis nat unit, merge_climbs A (fun _ _ => False) /\
  (forall id N, id < N -> uses_known N (an_modify A id)) /\
  forall fuel ex g, session natlang A fuel ex (PAdd (Node 0 []) (fun _ => PRet)) <> Ok g.
Proof. exact (ex_intro _ restless (conj restless_climbs (conj (fun id N Hi => conj Hi (fun _ _ => I)) restless_session))). Qed.
Print Assumptions C60_hooks_refuted.
(** For a fixed width the claim fails: with the match limit 0 for a rule that has a match (and ban
    length 1) the backoff scheduler makes every run that may take more iterations than a
    [usize] has bits panic. *)
Theorem C60_fixed_width_refuted : forall w, 2 <= w ->
  exists rules, Forall (usable ord0 false) rules /\ reachable_np natlang unitan false (rw_g false) /\
    forall rounds, w < rounds ->
      run natlang unitan (fun _ => 0) (backoff_scheduler natlang it0 true w true) (Limits (S w) 60 90) rules 20 9 ([] : list (hook nat unit unit)) rounds []
        (rw_g false) (rule_match_limit 1 0 (backoff_default 9 1)) () = Panic.
Proof.
  intros w Hw. exact (ex_intro _ [comm] (conj (Forall_cons_2 _ _ _ (comm_usable false) (Forall_nil_2 _)) (conj (rw_g_np false) (off_panics w Hw)))).
Qed.
Print Assumptions C60_fixed_width_refuted.

(** The bounds of the model are only that, for all analyses (also with hooks), rules and
    schedulers: two runs, or two executions of a program, that do not hit the bound have the same
    outcome. *)
Theorem C60_run_bound {Op D} `{Countable Op} (L : lang Op) (A : analysis Op D) clock {St Cl} (sch : scheduler Op D St) li rules here
    (hooks : list (hook Op D Cl)) rounds roots g st cl fuel fuel' :
  let outcome f := run L A clock sch li rules f here hooks rounds roots g st cl in
  outcome fuel <> OutOfFuel -> outcome fuel' <> OutOfFuel -> outcome fuel = outcome fuel'.
Proof. exact (agree _ (fun a b Hab => runs_mono L A a b here Hab clock sch li rules hooks rounds roots g st cl) fuel fuel'). Qed.
Print Assumptions C60_run_bound.
Theorem C60_program_bound {Op D} `{Countable Op} (L : lang Op) (A : analysis Op D) (p : prog Op D) g fuel fuel' :
  let outcome f := run_prog L A f (modify_n L A f) p g in
  outcome fuel <> OutOfFuel -> outcome fuel' <> OutOfFuel -> outcome fuel = outcome fuel'.
Proof. exact (agree _ (fun a b Hab => run_mono L A a b Hab p g) fuel fuel'). Qed.
Print Assumptions C60_program_bound.
(** A run that does not hit the bound 20. *)
Example C60_bound_ex : exists r, sat_run = Ok (Some r) /\ r_stop r = Some Saturated.
Proof. exists sat_r. split; [exact sat_run_eq|]. vm_compute. reflexivity. Qed.
