(** Property C65: what equality saturation computes when it saturates.
    Vocabulary: OptimumSpec.v ([rewrites]: term rewriting with the rules; [plain_rule],
    [reversible]), Spec.v ([Rep]), ExplainSpec.v ([AddedAs]), RunnerSpec.v ([rule_built],
    [standard_applier], [thorough], [honest], [hook_np], [hook_tidy], [hook_true]), AlgSpec.v
    ([rule_valid], [models], [geval]), ExtractSpec.v ([orders], [monotone], [superior],
    [by_operator], [traverses], [cle]), CheckSpec.v ([one_per_name], [accepted_rule],
    [not_a_rule], [reasons]). *)
From Verif Require Import Base UnionFind EGraphModel EGraphPres Spec EGraphReach Terms RecExprModel RecExprProofs ExprModel PatSpec MachineModel MatchSpec MatchProps
  RewriteModel AlgSpec RuleSpec RunnerModel RunnerSpec RunnerProofs BackoffSpec BackoffProofs ExtractModel ExtractSpec ExtractMain ExplainModel ExplainSpec CheckModel CheckSpec
  OptimumSpec OptimumProofs OptimumRun OptimumDecide Examples ExamplesExpr ExamplesMatch ExamplesRewrite ExamplesRun ExamplesExtract ExamplesCheck ExamplesOptimum.

(** * C65 *)
(** After a run that stopped with [Saturated], a class that represents a term represents
    everything the term can be rewritten to with the rules, anywhere in the term and in any
    number of steps (conditional rules if their conditions can be shown by rewriting). *)
Theorem C65_closed_under_rewriting {Op D} `{Countable Op} (L : lang Op) (A : analysis Op D) it ord w clock {St Cl} (sch : scheduler Op D St) (J : St -> Prop)
    li rules fuel here (hooks : list (hook Op D Cl)) ex rounds roots g st cl r t u c :
  hook_free A -> lang_ok L -> enumerates it -> enumerates_keys ord ->
  Forall (rule_built ord) rules -> Forall (fun rw => standard_applier (rw_applier rw)) rules ->
  Forall hook_np hooks -> Forall (hook_tidy L A ex) hooks -> thorough L it true w li sch J ->
  reachable_np L A ex g -> J st ->
  run L A clock sch li rules fuel here hooks rounds roots g st cl = Ok (Some r) -> r_stop r = Some Saturated ->
  Rep (r_eg r) t c -> rewrites rules t u -> Rep (r_eg r) u c.
Proof.
  intros Hh Lo Hit Hord Hr Ha Hn Ht Hs R HJ E Es.
  exact (run_closed L A Hh Lo it Hit ord Hord clock sch li rules fuel here hooks ex w J Hr Ha Hn Ht Hs rounds roots g st cl r R HJ E Es t u c).
Qed.
Print Assumptions C65_closed_under_rewriting.
(** Terms in the e-graph before the run that can be rewritten to a common term -- in the
    e-graph or not -- are equal after it. *)
Theorem C65_joinable_terms_become_equal {Op D} `{Countable Op} (L : lang Op) (A : analysis Op D) it ord w clock {St Cl} (sch : scheduler Op D St) (J : St -> Prop)
    li rules fuel here (hooks : list (hook Op D Cl)) ex rounds roots g st cl r t1 t2 u i j :
  hook_free A -> lang_ok L -> enumerates it -> enumerates_keys ord ->
  Forall (rule_built ord) rules -> Forall (fun rw => standard_applier (rw_applier rw)) rules ->
  Forall hook_np hooks -> Forall (hook_tidy L A ex) hooks -> thorough L it true w li sch J ->
  reachable_np L A ex g -> J st ->
  run L A clock sch li rules fuel here hooks rounds roots g st cl = Ok (Some r) -> r_stop r = Some Saturated ->
  Rep g t1 (eg_find g i) -> Rep g t2 (eg_find g j) -> rewrites rules t1 u -> rewrites rules t2 u ->
  eg_find (r_eg r) i = eg_find (r_eg r) j.
Proof.
  intros Hh Lo Hit Hord Hr Ha Hn Ht Hs R HJ E Es.
  exact (run_joined L A Hh Lo it Hit ord Hord clock sch li rules fuel here hooks ex w J Hr Ha Hn Ht Hs rounds roots g st cl r R HJ E Es t1 t2 u i j).
Qed.
Print Assumptions C65_joinable_terms_become_equal.
(** Saturate, then extract: for a term in the e-graph before the run the extractor finds a
    term that costs no more than anything the term can be rewritten to, and that has the
    value of the term in every algebra in which the rules are valid. *)
Theorem C65_cheapest_rewrite {Op D C} `{Countable Op} (L : lang Op) (A : analysis Op D) it ord w clock {St Cl} (sch : scheduler Op D St) (J : St -> Prop)
    li rules fuel here (hooks : list (hook Op D Cl)) ex rounds roots g st cl r
    (pcmp : C -> C -> option comparison) (cf : node Op -> list C -> C) (F : Op -> list C -> C) order fuel' cs i t :
  hook_free A -> lang_ok L -> enumerates it -> enumerates_keys ord ->
  Forall (rule_built ord) rules -> Forall (fun rw => standard_applier (rw_applier rw)) rules ->
  Forall hook_np hooks -> Forall (hook_tidy L A ex) hooks -> thorough L it true w li sch J ->
  reachable_np L A ex g -> J st ->
  run L A clock sch li rules fuel here hooks rounds roots g st cl = Ok (Some r) -> r_stop r = Some Saturated ->
  orders pcmp -> traverses (r_eg r) order -> by_operator cf F -> monotone pcmp cf -> superior pcmp cf ->
  extractor_new pcmp cf fuel' (r_eg r) order = Ok cs -> Rep g t (eg_find g i) ->
  exists v e s k, (forall fuel1, k <= fuel1 -> find_best fuel1 (r_eg r) cs i = Ok (v, e)) /\ ExprTree e s /\
    pcmp (geval F s) v = Some Eq /\ (forall u, rewrites rules t u -> cle pcmp (geval F s) (geval F u)) /\
    (forall V (M : Op -> list V -> V) nu, honest L it true w sch -> Forall (rule_valid L A M ex) rules -> Forall (hook_true L A M ex) hooks ->
      models M nu (eg_log g) -> geval M s = geval M t).
Proof.
  intros Hh Lo Hit Hord Hr Ha Hn Ht Hs R HJ E Es.
  exact (run_cheapest L A Hh Lo it Hit ord Hord clock sch li rules fuel here hooks ex w J Hr Ha Hn Ht Hs rounds roots g st cl r R HJ E Es pcmp cf F order fuel' cs i t).
Qed.
Print Assumptions C65_cheapest_rewrite.
(** g(f(x,y)) can be rewritten to g(g(f(y,x))), by the conditional rule and commutativity;
    f(x,y) of size 3 is found. *)
Example C65_ex : Forall (rule_built ord0) rules0 /\ Forall (fun rw => standard_applier (rw_applier rw)) rules0 /\
  thorough natlang it0 true 8 li0 simple8 (fun _ => True) /\ reachable_np natlang unitan false (rw_g false) /\
  run natlang unitan (fun k => k) simple8 li0 rules0 20 9 ([] : list (hook nat unit unit)) 6 [5] (rw_g false) () () = Ok (Some sat_r) /\
  r_stop sat_r = Some Saturated /\ Rep (rw_g false) (gt (ft xt yt)) (eg_find (rw_g false) 4) /\
  rewrites rules0 (gt (ft xt yt)) (gt (gt (ft yt xt))) /\ orders (@usize_pcmp 8) /\ traverses (r_eg sat_r) (keys (r_eg sat_r)) /\
  extractor_new usize_pcmp (@ast_size nat 8) 9 (r_eg sat_r) (keys (r_eg sat_r)) = Ok sat_sizes /\
  (snd <$> find_best 9 (r_eg sat_r) sat_sizes 4) = Ok [Node 1 []; Node 0 []; Node 5 [1; 0]].
Proof.
  split; [apply rules0_built|]. split; [apply rules0_standard|]. split; [apply simple_thorough|]. split; [apply rw_g_np|]. split; [apply sat_run_eq|].
  split; [vm_compute; reflexivity|]. split; [apply rw_rep|]. split; [apply chain|]. split; [apply usize_orders|]. split; [apply keys_traverse|].
  split; [apply sat_sizes_eq|vm_compute; reflexivity].
Qed.
(** With rules between patterns that can be undone by the rules -- for example because all
    are given in both directions -- a saturated run decides equality: for terms added before
    the run (with explanations, and no other unions), the e-graph says they are equal exactly
    if one can be rewritten to the other. *)
Theorem C65_saturation_decides_equality {Op D} `{Countable Op} (L : lang Op) (A : analysis Op D) it ord w clock {St Cl} (sch : scheduler Op D St) (J : St -> Prop)
    li rules fuel here (hooks : list (hook Op D Cl)) rounds roots g st cl r t u i j :
  hook_free A -> lang_ok L -> enumerates it -> enumerates_keys ord ->
  Forall (rule_built ord) rules -> Forall accepted_rule rules -> Forall plain_rule rules -> one_per_name rules -> not_a_rule rules here -> reversible rules ->
  Forall (hook_tidy L A true) hooks ->
  Forall (fun h : hook Op D Cl => forall cl i, no_prune (hk_body h cl i) /\ reasons (fun _ => False) (hk_body h cl i)) hooks ->
  thorough L it true w li sch J -> reachable_np L A true g -> (forall a b q, EUnion a b q ∉ eg_log g) -> J st ->
  run L A clock sch li rules fuel here hooks rounds roots g st cl = Ok (Some r) -> r_stop r = Some Saturated ->
  AddedAs (eg_log g) i t -> AddedAs (eg_log g) j u ->
  eg_find (r_eg r) i = eg_find (r_eg r) j <-> rewrites rules t u.
Proof.
  intros Hh Lo Hit Hord Hr Hacc Hp Hone Hh9 Hrev Ht Hk Hs R Hnew HJ E Es.
  exact (run_decides L A Hh fuel here rules Hone Hacc Hh9 Hp Lo it Hit ord Hord clock sch li hooks w J Hr Ht Hs Hk rounds roots g st cl r R HJ Hnew E Es t u i j Hrev).
Qed.
Print Assumptions C65_saturation_decides_equality.
(** Rules given in both directions qualify. *)
Theorem C65_both_directions {Op D} `{Countable Op} (rules : list (rewrite Op D)) :
  (forall rw p q, rw ∈ rules -> rw_searcher rw = SPattern p -> rw_applier rw = APattern q ->
    exists rw' p', rw' ∈ rules /\ rw_searcher rw' = SPattern p' /\ pt_ast p' = q /\ rw_applier rw' = APattern (pt_ast p)) ->
  reversible rules.
Proof. exact (both_reversible rules). Qed.
Print Assumptions C65_both_directions.
(** Commutativity: g(f(x,y)) and g(f(y,x)) become equal, f(x,y) and g(f(x,y)) do not. *)
Example C65_decides_ex : Forall (rule_built (D := unit) ord0) [comm] /\ Forall (accepted_rule (D := unit)) [comm] /\ Forall plain_rule [comm] /\ one_per_name [comm] /\
  not_a_rule [comm] 9 /\ reversible [comm] /\ reachable_np natlang unitan true (rw_g true) /\ (forall a b q, EUnion a b q ∉ eg_log (rw_g true)) /\
  run natlang unitan (fun k => k) simple8 li0 [comm] 20 9 ([] : list (hook nat unit unit)) 6 [5] (rw_g true) () () = Ok (Some comm_r) /\
  r_stop comm_r = Some Saturated /\ AddedAs (eg_log (rw_g true)) 2 (ft xt yt) /\ AddedAs (eg_log (rw_g true)) 4 (gt (ft xt yt)) /\ AddedAs (eg_log (rw_g true)) 5 (gt (ft yt xt)) /\
  eg_find (r_eg comm_r) 4 = eg_find (r_eg comm_r) 5 /\ eg_find (r_eg comm_r) 2 <> eg_find (r_eg comm_r) 4.
Proof.
  split; [apply comm_built|]. split; [apply comm_accepted|]. split; [apply comm_plain|]. split; [apply comm_one|]. split; [apply comm_not_here|].
  split; [apply comm_reversible|]. split; [apply rw_g_np|]. split; [apply rw_g_no_unions|]. split; [apply comm_run_eq|]. split; [vm_compute; reflexivity|].
  split; [apply rw_added|]. split; [apply rw_added|]. split; [apply rw_added|]. split; [vm_compute; reflexivity|vm_compute; discriminate].
Qed.
