(** Property C66: what a run puts into one class follows from the rules by equational logic.
    Vocabulary: DeriveSpec.v ([derivable]: equational logic with the rules; [pattern_rule],
    [undoable]), OptimumSpec.v ([rewrites], [plain_rule], [reversible]), Spec.v ([Rep]),
    ExplainSpec.v ([asserted]: asserted by the client with [union]), RunnerSpec.v
    ([rule_built], [standard_applier], [honest], [thorough], [hook_tidy]), CheckSpec.v
    ([reasons]: here, no unions), ExtractSpec.v ([orders], [superior], [traverses]). *)
From Verif Require Import Base UnionFind EGraphModel EGraphPres Spec EGraphReach Terms RecExprModel RecExprProofs ExprModel PatSpec MachineModel MatchSpec MatchProps
  RewriteModel AlgSpec RuleSpec RunnerModel RunnerSpec RunnerProofs BackoffSpec BackoffProofs ExtractModel ExtractSpec ExtractMain ExplainModel ExplainSpec CheckModel CheckSpec
  OptimumSpec OptimumProofs OptimumRun DeriveSpec DeriveProofs DeriveRun
  Examples ExamplesExpr ExamplesMatch ExamplesRewrite ExamplesRun ExamplesExtract ExamplesCheck ExamplesOptimum ExamplesDerive.

(** * C66 *)
(** However a run with rules between patterns ends, with or without explanations and under
    any scheduler that does not invent matches: if one class represents two terms
    afterwards, their equality is derivable from the rules and the equalities the client had
    asserted before the run. *)
Theorem C66_equal_terms_are_derivable {Op D} `{Countable Op} (L : lang Op) (A : analysis Op D) it ord cycles w clock {St Cl} (sch : scheduler Op D St)
    li rules fuel here (hooks : list (hook Op D Cl)) ex rounds roots g st cl r t u c :
  hook_free A -> lang_ok L -> enumerates it -> enumerates_keys ord ->
  Forall (rule_built ord) rules -> Forall pattern_rule rules -> honest L it cycles w sch ->
  Forall (fun h : hook Op D Cl => forall cl i, no_prune (hk_body h cl i) /\ reasons (fun _ => False) (hk_body h cl i)) hooks ->
  reachable_np L A ex g -> run L A clock sch li rules fuel here hooks rounds roots g st cl = Ok (Some r) ->
  Rep (r_eg r) t c -> Rep (r_eg r) u c -> derivable rules (fun t u => exists q, asserted (eg_log g) q t u) t u.
Proof.
  intros Hh Lo Hit Hord Hr Hp Hon Hhk R E.
  exact (run_derivable L A Hh Lo it Hit ord Hord clock sch li rules fuel here hooks ex cycles w Hr Hp Hon Hhk rounds roots g st cl r R E t u c).
Qed.
Print Assumptions C66_equal_terms_are_derivable.
(** What extraction returns after a run is derivably equal to the term asked for. *)
Theorem C66_extracted_term_is_derivable {Op D C} `{Countable Op} (L : lang Op) (A : analysis Op D) it ord cycles w clock {St Cl} (sch : scheduler Op D St)
    li rules fuel here (hooks : list (hook Op D Cl)) ex rounds roots g st cl r (pcmp : C -> C -> option comparison) (cf : node Op -> list C -> C) order fuel' cs i t :
  hook_free A -> lang_ok L -> enumerates it -> enumerates_keys ord ->
  Forall (rule_built ord) rules -> Forall pattern_rule rules -> honest L it cycles w sch ->
  Forall (fun h : hook Op D Cl => forall cl i, no_prune (hk_body h cl i) /\ reasons (fun _ => False) (hk_body h cl i)) hooks ->
  reachable_np L A ex g -> run L A clock sch li rules fuel here hooks rounds roots g st cl = Ok (Some r) ->
  orders pcmp -> traverses (r_eg r) order -> superior pcmp cf -> extractor_new pcmp cf fuel' (r_eg r) order = Ok cs -> Rep g t (eg_find g i) ->
  exists v e s k, (forall fuel1, k <= fuel1 -> find_best fuel1 (r_eg r) cs i = Ok (v, e)) /\ ExprTree e s /\
    derivable rules (fun t u => exists q, asserted (eg_log g) q t u) t s.
Proof.
  intros Hh Lo Hit Hord Hr Hp Hon Hhk R E.
  exact (run_extracts L A Hh Lo it Hit ord Hord clock sch li rules fuel here hooks ex cycles w Hr Hp Hon Hhk rounds roots g st cl r R E pcmp cf order fuel' cs i t).
Qed.
Print Assumptions C66_extracted_term_is_derivable.
(** f(x,y) and g(f(y,x)) end in one class. *)
Example C66_ex : Forall (rule_built ord0) rules0 /\ Forall pattern_rule rules0 /\ honest natlang it0 true 8 simple8 /\ reachable_np natlang unitan false (rw_g false) /\
  run natlang unitan (fun k => k) simple8 li0 rules0 20 9 ([] : list (hook nat unit unit)) 6 [5] (rw_g false) () () = Ok (Some sat_r) /\
  (Rep (r_eg sat_r) (ft xt yt) (eg_find (r_eg sat_r) 2) /\ Rep (r_eg sat_r) (gt (ft yt xt)) (eg_find (r_eg sat_r) 2)) /\
  orders (@usize_pcmp 8) /\ traverses (r_eg sat_r) (keys (r_eg sat_r)) /\
  extractor_new usize_pcmp (@ast_size nat 8) 9 (r_eg sat_r) (keys (r_eg sat_r)) = Ok sat_sizes /\ Rep (rw_g false) (gt (ft xt yt)) (eg_find (rw_g false) 4).
Proof.
  split; [apply rules0_built|]. split; [apply rules0_pattern|]. split; [apply simple_honest|]. split; [apply rw_g_np|]. split; [apply sat_run_eq|].
  split; [apply sat_together|]. split; [apply usize_orders|]. split; [apply keys_traverse|]. split; [apply sat_sizes_eq|apply rw_rep].
Qed.
(** Saturation decides equality, with or without explanations and with conditional rules: if
    what the rules do can be undone by the rules and nothing else was asserted, then after a
    run that stopped with [Saturated] two terms that were in the e-graph before it are in one
    class exactly if one can be rewritten to the other, exactly if their equality is
    derivable. *)
Theorem C66_saturation_decides_equality {Op D} `{Countable Op} (L : lang Op) (A : analysis Op D) it ord w clock {St Cl} (sch : scheduler Op D St) (J : St -> Prop)
    li rules fuel here (hooks : list (hook Op D Cl)) ex cycles rounds roots g st cl r t u i j :
  hook_free A -> lang_ok L -> enumerates it -> enumerates_keys ord ->
  Forall (rule_built ord) rules -> Forall pattern_rule rules -> Forall (fun rw => standard_applier (rw_applier rw)) rules -> undoable rules ->
  honest L it cycles w sch -> thorough L it true w li sch J ->
  Forall (fun h : hook Op D Cl => forall cl i, no_prune (hk_body h cl i) /\ reasons (fun _ => False) (hk_body h cl i)) hooks -> Forall (hook_tidy L A ex) hooks ->
  reachable_np L A ex g -> (forall a b q, EUnion a b q ∉ eg_log g) -> J st ->
  run L A clock sch li rules fuel here hooks rounds roots g st cl = Ok (Some r) -> r_stop r = Some Saturated ->
  Rep g t (eg_find g i) -> Rep g u (eg_find g j) ->
  (eg_find (r_eg r) i = eg_find (r_eg r) j <-> rewrites rules t u) /\ (rewrites rules t u <-> derivable rules (fun _ _ => False) t u).
Proof.
  intros Hh Lo Hit Hord Hr Hp Ha Hun Hon Hth Hhk Ht R Hnew HJ E Es Hi Hj.
  exact (run_decides_equality L A Hh Lo it Hit ord Hord clock sch li rules fuel here hooks ex cycles w Hr Hp Hon Hhk rounds roots g st cl r R E J Ha Ht Hth HJ Es t u i j Hun Hnew Hi Hj).
Qed.
Print Assumptions C66_saturation_decides_equality.
(** Unconditional rules that are reversible in the sense of C65 -- for example because all
    are given in both directions -- qualify. *)
Theorem C66_reversible_rules {Op D} `{Countable Op} (rules : list (rewrite Op D)) : Forall plain_rule rules -> reversible rules -> undoable rules.
Proof. exact (plain_undoable rules). Qed.
Print Assumptions C66_reversible_rules.
(** Commutativity, the conditional rule and its inverse, without explanations: f(x,y) and
    g(f(y,x)) become equal, x and f(x,y) do not. *)
Example C66_decides_ex : Forall (rule_built ord0) rules1 /\ Forall pattern_rule rules1 /\ Forall (fun rw => standard_applier (rw_applier rw)) rules1 /\ undoable rules1 /\
  honest natlang it0 true 8 simple8 /\ thorough natlang it0 true 8 li0 simple8 (fun _ => True) /\
  reachable_np natlang unitan false (rw_g false) /\ (forall a b q, EUnion a b q ∉ eg_log (rw_g false)) /\
  run natlang unitan (fun k => k) simple8 li0 rules1 20 9 ([] : list (hook nat unit unit)) 6 [5] (rw_g false) () () = Ok (Some undo_r) /\ r_stop undo_r = Some Saturated /\
  (Rep (rw_g false) (ft xt yt) (eg_find (rw_g false) 2) /\ Rep (rw_g false) (gt (ft yt xt)) (eg_find (rw_g false) 5)) /\ Rep (rw_g false) xt (eg_find (rw_g false) 0) /\
  eg_find (r_eg undo_r) 2 = eg_find (r_eg undo_r) 5 /\ eg_find (r_eg undo_r) 0 <> eg_find (r_eg undo_r) 2.
Proof.
  split; [apply rules1_built|]. split; [apply rules1_pattern|]. split; [apply rules1_standard|]. split; [apply rules1_undoable|]. split; [apply simple_honest|].
  split; [apply simple_thorough|]. split; [apply rw_g_np|]. split; [apply rw_g_new|]. split; [apply undo_run_eq|]. split; [vm_compute; reflexivity|].
  split; [apply rw_reps|]. split; [apply rw_rep_x|]. split; [vm_compute; reflexivity|vm_compute; discriminate].
Qed.
