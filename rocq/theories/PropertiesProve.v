(** Property C69: proving goals about an expression.
    Vocabulary: ProveSpec.v ([provable]: an instance of the goal is derivably equal to the
    start), QuerySpec.v ([stands_for]: the pattern made by [Pattern::new] for a pattern term),
    DeriveSpec.v ([derivable], [pattern_rule], [undoable]), RunnerSpec.v ([rule_built],
    [standard_applier], [honest], [thorough]), ExtractSpec.v ([traverses]), TotalSpec.v
    and RunnerSpec.v ([usable], [dependable], [ended]), QuerySpec.v ([has_instance]). *)
From Verif Require Import Base UnionFind EGraphModel EGraphPres Spec EGraphReach Terms RecExprModel RecExprProofs ExprModel PatSpec MachineModel MatchSpec MatchProps
  RewriteModel AlgSpec RuleSpec RunnerModel RunnerSpec RunnerProofs BackoffSpec BackoffProofs ExtractModel ExtractSpec ExtractMain OptimumSpec DeriveSpec
  QueryModel QuerySpec SimplifyModel ProveModel ProveSpec ProveProofs TotalSpec TotalProofs TotalOps RunTotal ProveTotal
  Examples ExamplesExpr ExamplesMatch ExamplesRewrite ExamplesRun ExamplesExtract ExamplesOptimum ExamplesDerive ExamplesQuery ExamplesTotal ExamplesSimplify ExamplesProve.

(** * C69 *)
(** If [test_runner] returns, every goal is provable: some instance of it follows from the
    rules to be equal to the start.  For any rules between patterns, however the run stopped,
    and whether or not the analysis allows cyclic matches. *)
Theorem C69_prove_sound {Op D} `{Countable Op} (L : lang Op) (A : analysis Op D) it ord clock {St} (sch : scheduler Op D St) li rules here ex cycles cycles' w w' limit
    order order' fuel rounds msg st e t goals gts r :
  hook_free A -> lang_ok L -> enumerates it -> enumerates_keys ord ->
  Forall (rule_built ord) rules -> Forall pattern_rule rules -> honest L it cycles' w sch -> ExprTree e t -> Forall2 (stands_for ord) goals gts ->
  prove L A it cycles limit clock sch li rules here w' order order' ex fuel rounds msg st e goals = Ok (Some r) -> Forall (provable rules t) gts.
Proof.
  intros Hh Lo Hit Hord.
  exact (prove_sound L A Hh Lo it Hit ord Hord clock sch li rules here ex cycles cycles' w w' limit order order' fuel rounds msg st e t goals gts r).
Qed.
Print Assumptions C69_prove_sound.
(** If the hook stopped the run (nothing else stops it with a message), every goal is provable
    and the check after the run, which is made on the e-graph rebuilt since, succeeds. *)
Theorem C69_stopped_by_hook {Op D} `{Countable Op} (L : lang Op) (A : analysis Op D) it ord clock {St} (sch : scheduler Op D St) li rules fuel here ex cycles cycles' w limit msg
    e t goals gts g i fuel0 rounds st r w' order order' m :
  hook_free A -> lang_ok L -> enumerates it -> enumerates_keys ord ->
  Forall (rule_built ord) rules -> Forall pattern_rule rules -> honest L it cycles' w sch -> ExprTree e t -> Forall2 (stands_for ord) goals gts ->
  with_expr L A fuel0 e (eg_new ex, []) = Ok (g, [i]) ->
  run L A clock sch li rules fuel here [goal_hook L it cycles limit goals (eg_find g i) msg] rounds [i] g st tt = Ok (Some r) ->
  traverses (r_eg r) order -> traverses (r_eg r) order' -> r_stop r = Some (Other m) ->
  m = msg /\ Forall (provable rules t) gts /\
  exists N, forall fuel' limit', N <= fuel' -> N <= limit' -> check_goals L it true w' fuel' limit' (r_eg r) order order' (eg_find g i) goals = Ok tt.
Proof.
  intros Hh Lo Hit Hord Hr Hp Hon He Hg Eg Er.
  exact (stopped_ok L A Hh Lo it Hit ord Hord clock sch li rules fuel here ex cycles cycles' w limit msg Hr Hp Hon e t He goals gts Hg g i fuel0 Eg rounds st r Er w' order order' m).
Qed.
Print Assumptions C69_stopped_by_hook.
(** If instead the run saturated, with rules whose effect the rules can undo, then the check
    decides: it returns if all goals are provable and panics if some goal is not. *)
Theorem C69_saturated_decides {Op D} `{Countable Op} (L : lang Op) (A : analysis Op D) it ord clock {St} (sch : scheduler Op D St) (J : St -> Prop) li rules fuel here ex cycles
    cycles' w limit msg e t goals gts g i fuel0 rounds st r w' order order' :
  hook_free A -> lang_ok L -> enumerates it -> enumerates_keys ord ->
  Forall (rule_built ord) rules -> Forall pattern_rule rules -> Forall (fun rw => standard_applier (rw_applier rw)) rules -> undoable rules ->
  honest L it cycles' w sch -> thorough L it true w li sch J -> J st ->
  ExprTree e t -> Forall2 (stands_for ord) goals gts -> with_expr L A fuel0 e (eg_new ex, []) = Ok (g, [i]) ->
  run L A clock sch li rules fuel here [goal_hook L it cycles limit goals (eg_find g i) msg] rounds [i] g st tt = Ok (Some r) ->
  r_stop r = Some Saturated -> traverses (r_eg r) order -> traverses (r_eg r) order' ->
  exists N, forall fuel' limit', N <= fuel' -> N <= limit' ->
    (Forall (provable rules t) gts -> check_goals L it true w' fuel' limit' (r_eg r) order order' (eg_find g i) goals = Ok tt) /\
    (~ Forall (provable rules t) gts -> forall cy, check_goals L it cy w' fuel' limit' (r_eg r) order order' (eg_find g i) goals = Panic).
Proof.
  intros Hh Lo Hit Hord Hr Hp Ha Hun Hon Hth HJ He Hg Eg Er Es Ho Ho'.
  exact (saturated_decides L A Hh Lo it Hit ord Hord clock sch li rules fuel here ex cycles cycles' w limit msg Hr Hp Hon e t He goals gts Hg g i fuel0 Eg rounds st r Er
    J w' order order' Ha Hun Hth HJ Es Ho Ho').
Qed.
Print Assumptions C69_saturated_decides.
(** It comes to an end, with the same result for all large enough bounds of the model: the run
    stops for one of the reasons a run has, and then either [test_runner] returns, or it panics
    and some goal has no instance in the class of the start (if cyclic matches are not dropped). *)
Theorem C69_ends {Op D} `{Countable Op} (L : lang Op) (A : analysis Op D) Rd it ord clock {St} (sch : nat -> scheduler Op D St) (J : St -> Prop) li rules here ex cycles cycles'
    limit msg w' order order' goals gts e t st :
  hook_free A -> merge_climbs A Rd -> lang_ok L -> enumerates it -> enumerates_keys ord -> dependable L A it cycles' ord ex sch J -> Forall (usable ord ex) rules ->
  (forall g, traverses g (order g)) -> (forall g, traverses g (order' g)) -> Forall2 (stands_for ord) goals gts -> dag e -> ExprTree e t -> J st ->
  exists N g i r, with_expr L A 1 e (eg_new ex, []) = Ok (g, [i]) /\ ended clock li [goal_hook L it cycles limit goals (eg_find g i) msg] r /\
    ((forall fuel w rounds, N <= fuel -> N <= w -> 1 `max` li_iter li <= rounds ->
        prove L A it cycles limit clock (sch w) li rules here w' order order' ex fuel rounds msg st e goals = Ok (Some r)) \/
     ((forall fuel w rounds, N <= fuel -> N <= w -> 1 `max` li_iter li <= rounds ->
        prove L A it cycles limit clock (sch w) li rules here w' order order' ex fuel rounds msg st e goals = Panic) /\
      exists t', t' ∈ gts /\ (cycles = true -> 0 < limit -> ~ has_instance (r_eg r) t' (eg_find (r_eg r) (eg_find g i))))).
Proof.
  intros Hh Hc Lo Hit Hord Hd Hu Htr Htr' Hg.
  exact (prove_total L A Hh Rd Hc Lo it Hit ord Hord clock li rules here ex cycles cycles' limit msg w' sch J Hd Hu order order' Htr Htr' goals gts Hg e t st).
Qed.
Print Assumptions C69_ends.
(** From g(f(g(f(x,y)),y)) the goal f(?0,?1) is proved and stops the run; with the goal
    f(?0,?0) too the run saturates and the check panics. *)
Example C69_ex : hook_free unitan /\ lang_ok natlang /\ Forall (rule_built ord0) rules1 /\ Forall pattern_rule rules1 /\
  Forall (fun rw => standard_applier (rw_applier rw)) rules1 /\ undoable rules1 /\
  honest natlang it0 true 8 simple8 /\ thorough natlang it0 true 8 li0 simple8 (fun _ => True) /\ ExprTree smp_e smp_t /\
  (Forall2 (stands_for ord0) prv_ok [pat_f01_t] /\ prv prv_ok = Ok (Some prv_r) /\ prv prv_all = Panic) /\
  (prv_w = Ok (prv_g, [5]) /\ prv_run prv_ok = Ok (Some prv_t) /\ r_stop prv_t = Some (Other 4)) /\
  (Forall2 (stands_for ord0) prv_all [pat_f01_t; pat_f00_t] /\ prv_run prv_all = Ok (Some prv_s) /\ r_stop prv_s = Some Saturated /\ traverses (r_eg prv_s) (keys (r_eg prv_s))) /\
  (check_goals natlang it0 true 8 20 50 (r_eg prv_s) (keys (r_eg prv_s)) (keys (r_eg prv_s)) (eg_find prv_g 5) prv_ok = Ok tt /\
   check_goals natlang it0 true 8 20 50 (r_eg prv_s) (keys (r_eg prv_s)) (keys (r_eg prv_s)) (eg_find prv_g 5) prv_all = Panic).
Proof.
  refine (conj (fun _ => eq_refl) (conj natlang_ok (conj rules1_built (conj rules1_pattern (conj rules1_standard (conj rules1_undoable
    (conj (simple_honest natlang it0 true 8) (conj (simple_thorough natlang it0 true 8 li0) (conj smp_tree (conj (conj prv_ok_stands (conj prv_ok_eq prv_all_panics))
    (conj (conj prv_w_eq (conj prv_t_eq prv_t_stop)) (conj (conj prv_all_stands (conj prv_s_eq (conj prv_s_stop (keys_traverse _)))) prv_s_checks)))))))))))).
Qed.
(** The same start and goals, under the simple scheduler: one set of goals makes it return,
    the other makes it panic. *)
Example C69_ends_ex : hook_free unitan /\ merge_climbs unitan (fun _ _ => False) /\
  dependable natlang unitan it0 true ord0 false (simple_scheduler natlang it0 true) (fun _ => True) /\ Forall (usable ord0 false) rules1 /\
  (forall g : egraph nat unit, traverses g (keys g)) /\ dag smp_e /\ ExprTree smp_e smp_t /\
  (Forall2 (stands_for ord0) prv_ok [pat_f01_t] /\ prv prv_ok = Ok (Some prv_r)) /\ (Forall2 (stands_for ord0) prv_all [pat_f01_t; pat_f00_t] /\ prv prv_all = Panic).
Proof.
  exact (conj unitan_free (conj unitan_climbs (conj (simple_dependable natlang unitan natlang_ok it0 it0_ok true ord0 ord0_ok false) (conj (rules1_usable false)
    (conj keys_traverse (conj smp_dag (conj smp_tree (conj (conj prv_ok_stands prv_ok_eq) (conj prv_all_stands prv_all_panics))))))))).
Qed.
