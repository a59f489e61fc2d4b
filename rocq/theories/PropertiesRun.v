(** Properties C32-C35: equality saturation runs.
    Vocabulary: Spec.v, Terms.v, PatSpec.v, MatchSpec.v, AlgSpec.v ([models], [rule_valid],
    [geval]), RunnerSpec.v ([rule_built], [honest], [thorough], [matched], [settled_for],
    [all_settled], [ended]), BackoffSpec.v.  [run .. rounds roots g st cl = Ok (Some r)] says
    that [Runner::run] from the e-graph [g] returned the runner [r] (within [rounds]
    iterations). *)
From Verif Require Import Base UnionFind EGraphModel EGraphSteps EGraphInv EGraphPres Spec EGraphReach EGraphSafe EGraphNoPanic Terms RecExprModel RecExprProofs
  ExprModel PatSpec ExprProofs MachineModel MatchSpec MatchProps RewriteModel RewriteProofs AlgSpec RuleSpec RuleProps RunnerModel RunnerSpec BackoffSpec
  RunnerProofs RunnerSound RunnerLimits Still Saturation SaturationRun Reapply BackoffProofs Examples ExamplesExpr ExamplesMatch ExamplesRewrite ExamplesRun.

(** * C32 *)
(** Whatever the rules, the scheduler (it may skip rules and drop or reorder matches), the
    limits, the clock and the hooks: if the rules are valid in an algebra, what the hooks do
    is true in it, and it satisfies the operations done before the run (with [nu i] the
    value of id [i]), then so it does after the run, any two terms represented by one class
    are equal in it, and ids that became equal have equal values. *)
Theorem C32_runs_are_sound {Op D V} `{Countable Op} (L : lang Op) (A : analysis Op D) (F : Op -> list V -> V) it ord cycles w clock {St Cl}
    (sch : scheduler Op D St) li rules fuel here (hooks : list (hook Op D Cl)) ex rounds roots g st cl r nu :
  hook_free A -> lang_ok L -> enumerates it -> enumerates_keys ord ->
  Forall (rule_built ord) rules -> Forall hook_np hooks -> honest L it cycles w sch ->
  Forall (rule_valid L A F ex) rules -> Forall (hook_true L A F ex) hooks ->
  reachable_np L A ex g -> models F nu (eg_log g) ->
  run L A clock sch li rules fuel here hooks rounds roots g st cl = Ok (Some r) ->
  (exists nu', models F nu' (eg_log (r_eg r)) /\ forall k, known g k -> nu' k = nu k) /\
  (forall t1 t2 i, Rep (r_eg r) t1 i -> Rep (r_eg r) t2 i -> geval F t1 = geval F t2) /\
  (forall i j, known g i -> known g j -> eg_find (r_eg r) i = eg_find (r_eg r) j -> nu i = nu j).
Proof.
  intros Hh Lo Hit Hord Hr Hk Hon Hv Ht. exact (run_sound L A clock sch li rules fuel here hooks F Hh Lo it Hit cycles w ord Hord ex Hr Hk Hon Hv Ht rounds roots g st cl r nu).
Qed.
Print Assumptions C32_runs_are_sound.
(** The schedulers of the library qualify. *)
Theorem C32_schedulers_are_honest {Op D} `{Countable Op} (L : lang Op) it cycles w debug :
  honest L it cycles w (simple_scheduler (D := D) L it cycles w) /\ honest L it cycles w (backoff_scheduler (D := D) L it cycles w debug).
Proof. exact (conj (simple_honest L it cycles w) (backoff_honest L it cycles w debug)). Qed.
Print Assumptions C32_schedulers_are_honest.
(** f(?0,?1) => f(?1,?0) and a conditional rule, in an algebra where f is addition. *)
Example C32_ex : Forall (rule_built ord0) rules0 /\ Forall (rule_valid natlang unitan addF false) rules0 /\
  reachable_np natlang unitan false (rw_g false) /\ models addF addF_nu (eg_log (rw_g false)) /\
  run natlang unitan (fun k => k) simple8 li0 rules0 20 9 ([] : list (hook nat unit unit)) 6 [5] (rw_g false) () () = Ok (Some sat_r) /\
  eg_find (rw_g false) 2 <> eg_find (rw_g false) 3 /\ eg_find (r_eg sat_r) 2 = eg_find (r_eg sat_r) 3 /\ addF_nu 2 = addF_nu 3.
Proof.
  split_and!; [apply rules0_built|apply rules0_valid|apply rw_g_np|apply rw_g_models|apply sat_run_eq|vm_compute; lia|vm_compute; reflexivity|reflexivity].
Qed.

(** * C33 *)
(** If the run stops with [Saturated] then in the final e-graph every match of every rule,
    found by a search or not, is settled: the class of the match already represents the
    instance of the right-hand side (for conditional rules: if the condition holds). *)
Theorem C33_saturated_is_settled {Op D} `{Countable Op} (L : lang Op) (A : analysis Op D) it ord w clock {St Cl} (sch : scheduler Op D St) (J : St -> Prop)
    li rules fuel here (hooks : list (hook Op D Cl)) ex rounds roots g st cl r :
  hook_free A -> lang_ok L -> enumerates it -> enumerates_keys ord ->
  Forall (rule_built ord) rules -> Forall (fun rw => standard_applier (rw_applier rw)) rules ->
  Forall hook_np hooks -> Forall (hook_tidy L A ex) hooks -> thorough L it true w li sch J ->
  reachable_np L A ex g -> J st ->
  run L A clock sch li rules fuel here hooks rounds roots g st cl = Ok (Some r) -> r_stop r = Some Saturated ->
  reachable_np L A ex (r_eg r) /\ eg_clean (r_eg r) = true /\ all_settled rules (r_eg r).
Proof.
  intros Hh Lo Hit Hord Hr Ha Hn Ht Hs.
  exact (run_sat L A Hh Lo it Hit ord Hord clock sch li rules fuel here hooks ex w J Hr Ha Hn Ht Hs rounds roots g st cl r).
Qed.
Print Assumptions C33_saturated_is_settled.
(** Searching any of the rules once more (with any limit), applying it and rebuilding merges
    no two classes. *)
Theorem C33_nothing_left {Op D} `{Countable Op} (L : lang Op) (A : analysis Op D) it ord w clock {St Cl} (sch : scheduler Op D St) (J : St -> Prop)
    li rules fuel here (hooks : list (hook Op D Cl)) ex rounds roots g st cl r :
  hook_free A -> lang_ok L -> enumerates it -> enumerates_keys ord ->
  Forall (rule_built ord) rules -> Forall (fun rw => standard_applier (rw_applier rw)) rules ->
  Forall hook_np hooks -> Forall (hook_tidy L A ex) hooks -> thorough L it true w li sch J ->
  reachable_np L A ex g -> J st ->
  run L A clock sch li rules fuel here hooks rounds roots g st cl = Ok (Some r) -> r_stop r = Some Saturated ->
  forall rw cycles k ms fuel1 here1 g1 ids fuel2 g2 n, rw ∈ rules ->
    rewrite_search L it cycles w (r_eg r) rw k = Ok ms -> rewrite_apply L A fuel1 here1 rw ms (r_eg r) = Ok (g1, ids) ->
    rebuild L A fuel2 (modify_n L A fuel2) g1 = Ok (g2, n) ->
    forall i j, known (r_eg r) i -> known (r_eg r) j -> (eg_find g2 i = eg_find g2 j <-> eg_find (r_eg r) i = eg_find (r_eg r) j).
Proof.
  intros Hh Lo Hit Hord Hr Ha Hn Ht Hs Hg HJ E Es.
  exact (run_reapply L A Hh Lo it Hit ord Hord clock sch li rules fuel here hooks ex w J Hr Ha Hn Ht Hs rounds roots g st cl r Hg HJ E Es).
Qed.
Print Assumptions C33_nothing_left.
(** [SimpleScheduler] is thorough; [BackoffScheduler] is as long as its bans last, for
    example (with overflow checks) if all ban lengths are odd, like the default of 5. *)
Theorem C33_schedulers {Op D} `{Countable Op} (L : lang Op) it cycles w debug li :
  thorough L it cycles w li (simple_scheduler (D := D) L it cycles w) (fun _ => True) /\
  thorough L it cycles w li (backoff_scheduler (D := D) L it cycles w debug) (bans_last w debug li) /\
  (0 < w -> forall limit ban, Nat.odd ban = true -> bans_last w true li (backoff_default limit ban)).
Proof. exact (conj (simple_thorough L it cycles w li) (conj (backoff_thorough L it cycles w debug li) (odd_default w li))). Qed.
Print Assumptions C33_schedulers.
Example C33_ex : Forall (fun rw => standard_applier (rw_applier rw)) rules0 /\
  run natlang unitan (fun k => k) simple8 li0 rules0 20 9 ([] : list (hook nat unit unit)) 6 [5] (rw_g false) () () = Ok (Some sat_r) /\
  r_stop sat_r = Some Saturated /\
  run natlang unitan (fun k => k) back8 li0 rules0 20 9 ([] : list (hook nat unit unit)) 6 [5] (rw_g false) (backoff_default 1 3) () = Ok (Some back_r) /\
  r_stop back_r = Some Saturated /\ it_applied <$> r_iters back_r = [[]; [(1, 1); (2, 1)]; []].
Proof.
  split_and!; [apply rules0_standard|apply sat_run_eq|vm_compute; reflexivity|apply back_run_eq|vm_compute; reflexivity|vm_compute; reflexivity].
Qed.
(** Without that condition the claim is false: with ban length 0 a run reports [Saturated]
    after dropping matches, and applying a rule once more merges classes. *)
Theorem C33_zero_ban_refuted : exists r ms g1 g2,
  run natlang unitan (fun k => k) back8 li0 rules0 20 9 ([] : list (hook nat unit unit)) 6 [5] (rw_g false) (backoff_default 1 0) () = Ok (Some r) /\
  r_stop r = Some Saturated /\
  rewrite_search natlang it0 true 8 (r_eg r) comm 9 = Ok ms /\ rewrite_apply natlang unitan 20 9 comm ms (r_eg r) = Ok (g1, [2]) /\
  rebuild natlang unitan 20 (modify_n natlang unitan 20) g1 = Ok (g2, 1) /\
  eg_find (r_eg r) 2 <> eg_find (r_eg r) 3 /\ eg_find g2 2 = eg_find g2 3.
Proof. exact zero_ban_unsound. Qed.
Print Assumptions C33_zero_ban_refuted.

(** * C34 *)
(** A run that gets through its iterations returns once it was allowed max(1, iteration
    limit) of them, and what it returns is described by [ended]: the number of iterations,
    the stop reason and when it is which one. *)
Theorem C34_limits {Op D} `{Countable Op} (L : lang Op) (A : analysis Op D) clock {St Cl} (sch : scheduler Op D St) li rules fuel here
    (hooks : list (hook Op D Cl)) ex rounds roots g st cl x :
  Forall rule_shaped rules -> reachable L A ex g -> run L A clock sch li rules fuel here hooks rounds roots g st cl = Ok x ->
  match x with
  | None => rounds < 1 `max` li_iter li
  | Some r => ended clock li hooks r
  end.
Proof. intros Hr. exact (run_ended L A clock sch li rules fuel here hooks ex Hr rounds roots g st cl x). Qed.
Print Assumptions C34_limits.
(** The e-graph it returns is rebuilt, equalities and ids are kept, and so are the roots. *)
Theorem C34_final_state {Op D} `{Countable Op} (L : lang Op) (A : analysis Op D) clock {St Cl} (sch : scheduler Op D St) li rules fuel here
    (hooks : list (hook Op D Cl)) ex rounds roots g st cl r :
  Forall rule_shaped rules -> reachable L A ex g -> run L A clock sch li rules fuel here hooks rounds roots g st cl = Ok (Some r) ->
  reachable L A ex (r_eg r) /\ eg_clean (r_eg r) = true /\ r_roots r = roots /\
  (forall i, known g i -> known (r_eg r) i) /\
  (forall i j, eg_find g i = eg_find g j -> eg_find (r_eg r) i = eg_find (r_eg r) j) /\
  (exists l, eg_log (r_eg r) = l ++ eg_log g).
Proof. intros Hr. exact (run_kept L A clock sch li rules fuel here hooks ex Hr rounds roots g st cl r). Qed.
Print Assumptions C34_final_state.
Example C34_ex : Forall (rule_shaped (D := unit)) rules0 /\
  r_stop (lim_r (Limits 0 60 90) []) = Some (IterationLimit 0) /\ length (r_iters (lim_r (Limits 0 60 90) [])) = 1 /\
  r_stop (lim_r (Limits 1 60 90) []) = Some (IterationLimit 1) /\ r_stop (lim_r (Limits 4 5 90) []) = Some (NodeLimit 6) /\
  r_stop (lim_r (Limits 4 60 3) []) = Some (TimeLimit 4) /\ r_stop (lim_r (Limits 4 60 90) [stop_hook]) = Some (Other 7) /\
  r_stop sat_r = Some Saturated.
Proof. split_and!; [apply rules0_shaped|vm_compute; reflexivity..]. Qed.

(** * C35 *)
(** The matches of a rule in a rebuilt e-graph are a list [all], and a search by the backoff
    scheduler answers: nothing if the rule is banned; nothing, with a ban for
    [ban * 2^times] iterations, if there are more than [limit * 2^times] matches; all of
    them otherwise.  (Hypotheses: the numbers fit the machine word.) *)
Theorem C35_search {Op D} `{Countable Op} (L : lang Op) (A : analysis Op D) it ord w ex (g : egraph Op D) rw :
  lang_ok L -> enumerates it -> enumerates_keys ord -> reachable_np L A ex g -> eg_clean g = true -> searcher_built ord (rw_searcher rw) ->
  exists all : list (nat * subst),
    (forall sg c, (forall v i, sg v = Some i -> known g i) -> matched g (rw_searcher rw) sg c ->
       exists sub, (c, sub) ∈ all /\ forall v, provides (rw_searcher rw) v -> subst_get sub v = eg_find g <$> sg v) /\
    (forall k, exists ms, searcher_search L it true (rw_searcher rw) g k = Ok ms /\ pairs ms = take k all) /\
    forall debug i b ms b', backoff_search L it true w debug i g rw b = Ok (ms, b') ->
      let s := rule_stats (rw_name rw) b in let s' := rule_stats (rw_name rw) b' in
      (forall name, name <> rw_name rw -> rule_stats name b' = rule_stats name b) /\
      rs_limit s' = rs_limit s /\ rs_ban s' = rs_ban s /\
      (banned b (rw_name rw) i -> ms = [] /\ s' = s) /\
      (~ banned b (rw_name rw) i -> rs_limit s * 2 ^ rs_times s < 2 ^ w ->
        (rs_limit s * 2 ^ rs_times s < length all /\ ms = [] /\ rs_times s' = S (rs_times s) /\ rs_applied s' = rs_applied s /\
           (i + rs_ban s * 2 ^ rs_times s < 2 ^ w -> rs_until s' = i + rs_ban s * 2 ^ rs_times s)) \/
        (length all <= rs_limit s * 2 ^ rs_times s /\ pairs ms = all /\ rs_times s' = rs_times s /\ rs_applied s' = S (rs_applied s) /\
           rs_until s' = rs_until s)).
Proof. intros Lo Hit Hord R Ec. exact (bsearch_main L A Lo it Hit w ord Hord ex g R Ec rw). Qed.
Print Assumptions C35_search.
(** [can_stop] never panics; it answers yes exactly if no rule is banned; otherwise at least
    one banned rule is banned no longer, and no ban gets longer. *)
Theorem C35_can_stop i b : exists r b', backoff_can_stop i b = Ok (r, b') /\
  (r = true <-> forall name, ~ banned b name i) /\
  (r = true -> b' = b) /\
  (r = false -> exists name, banned b name i /\ ~ banned b' name i) /\
  (forall name, banned b' name i -> banned b name i) /\
  (forall name, let s := rule_stats name b in let s' := rule_stats name b' in
     rs_until s' <= rs_until s /\ rs_times s' = rs_times s /\ rs_limit s' = rs_limit s /\ rs_ban s' = rs_ban s /\ rs_applied s' = rs_applied s).
Proof. exact (stop_main i b). Qed.
Print Assumptions C35_can_stop.
(** A ban ends: however the scheduler is used while a rule is banned, in iteration
    [ban_end] and later the rule is not banned, unless it was searched meanwhile. *)
Theorem C35_ban_ends {Op D} `{Countable Op} (L : lang Op) it cycles w debug name b b' i :
  starves (D := D) L it cycles w debug name b b' -> ban_end b name <= i -> ~ banned b' name i.
Proof. exact (starves_over L it w cycles debug name b b' i). Qed.
Print Assumptions C35_ban_ends.
Example C35_ex : reachable_np natlang unitan false (rw_g false) /\ eg_clean (rw_g false) = true /\
  backoff_search natlang it0 true 8 true 0 (rw_g false) comm (backoff_default 1 3) = Ok ([], back_b1) /\ banned back_b1 1 0 /\ ban_end back_b1 1 = 3 /\
  backoff_search natlang it0 true 8 true 2 (rw_g false) comm back_b1 = Ok ([], back_b2) /\ banned back_b2 1 2 /\
  backoff_search natlang it0 true 8 true 3 (rw_g false) comm back_b2 = Ok (comm_ms, back_b3) /\ ~ banned back_b3 1 3 /\
  backoff_can_stop 0 back_b1 = Ok (false, back_b4) /\ ~ banned back_b4 1 0 /\ backoff_can_stop 0 back_b4 = Ok (true, back_b5).
Proof.
  split_and!; [apply rw_g_np|apply rw_g_clean|apply snd_ok_eq; vm_compute; reflexivity|apply banned_bool; reflexivity|vm_compute; reflexivity|
    apply snd_ok_eq; vm_compute; reflexivity|apply banned_bool; reflexivity|apply snd_ok_eq; vm_compute; reflexivity|apply not_banned_bool; reflexivity|
    apply snd_ok_eq; vm_compute; reflexivity|apply not_banned_bool; reflexivity|apply snd_ok_eq; vm_compute; reflexivity].
Qed.
