(** Property theorems about the check of the recorded steps made by the e-graph itself (C54).
    Vocabulary: CheckSpec.v ([accepted_rule], [rule_steps], [rule_eqs], [between],
    [one_per_name], [not_a_rule], [reasons], [no_union]), ExplainSpec.v ([AddedAs],
    [asserted], [teq]). *)
From Verif Require Import Base EGraphModel Spec EGraphReach Terms RecExprModel ExprModel PatSpec MachineModel MatchSpec RewriteModel RuleSpec RunnerModel RunnerSpec
  ExplainModel ExplainSpec ExplainMain CheckModel CheckSpec CheckProofs CheckRun CheckSound CheckEachModel CheckEach
  Examples ExamplesExpr ExamplesMatch ExamplesRewrite ExamplesRun ExamplesCheck ExamplesCheckEach.

(** * C54 *)
(** In every e-graph whose unions under rule names are instances of those rules,
    [check_each_explain] with the rules answers [true]; it neither panics nor loops. *)
Theorem C54_recorded_steps_pass {Op D} `{Countable Op} (L : lang Op) (A : analysis Op D) (rules : list (rewrite Op D)) (g : egraph Op D) :
  reachable L A true g -> Forall accepted_rule rules -> rule_steps rules (asserted (eg_log g)) -> check_each_explain rules g = Ok true.
Proof. exact (recorded_pass L A rules g). Qed.
Print Assumptions C54_recorded_steps_pass.
(** eight recorded unions under two rules; the check fails where a hook disturbed a step *)
Example C54_pass_ex : (reachable natlang unitan true (r_eg chk_r) /\ rule_steps rules0 (asserted (eg_log (r_eg chk_r)))) /\ Forall accepted_rule rules0 /\
  check_each_explain rules0 (r_eg chk_r) = Ok true /\ check_each_explain [grow_rule] (r_eg grow_r) = Ok false.
Proof. exact (conj chk_reach (conj rules0_accepted (conj chk_each grow_each))). Qed.

(** What the answer [true] shows: if every union ever asserted gave the name of a rule
    between patterns, the terms of any two equal ids are equal by instances of the rules and
    congruence. *)
Theorem C54_passing_proves {Op D} `{Countable Op} (L : lang Op) (A : analysis Op D) (rules : list (rewrite Op D)) (g : egraph Op D) i j t u :
  reachable L A true g -> Forall accepted_rule rules -> one_per_name rules ->
  (forall a b r, EUnion a b r ∈ eg_log g -> exists rw lhs rhs, rw ∈ rules /\ rw_name rw = r /\ between rw lhs rhs) ->
  check_each_explain rules g = Ok true ->
  AddedAs (eg_log g) i t -> AddedAs (eg_log g) j u -> eg_find g i = eg_find g j -> teq (rule_eqs rules) t u.
Proof. exact (recorded_prove L A rules g i j t u). Qed.
Print Assumptions C54_passing_proves.
Example C54_proves_ex : reachable natlang unitan true (r_eg chk_r) /\ Forall accepted_rule rules0 /\ one_per_name rules0 /\
  (forall a b r, EUnion a b r ∈ eg_log (r_eg chk_r) -> exists rw lhs rhs, rw ∈ rules0 /\ rw_name rw = r /\ between rw lhs rhs) /\
  check_each_explain rules0 (r_eg chk_r) = Ok true /\ (known (r_eg chk_r) 5 /\ known (r_eg chk_r) 2 /\ eg_find (r_eg chk_r) 5 = eg_find (r_eg chk_r) 2).
Proof. exact (conj (proj1 chk_reach) (conj rules0_accepted (conj rules0_one (conj chk_named (conj chk_each chk_known))))). Qed.

(** A debug build, which makes this check after every iteration and panics if it fails, runs
    exactly like a release build: same result, same panics -- if hooks make no unions and
    hooks, conditions and client appliers give reasons of their own. *)
Theorem C54_debug_runs_agree {Op D} `{Countable Op} (L : lang Op) (A : analysis Op D) (clock : nat -> nat) {St Cl} (sch : scheduler Op D St) li
    (rules : list (rewrite Op D)) fuel here (hooks : list (hook Op D Cl)) rounds roots g st cl :
  (forall i, no_union (an_modify A i)) -> one_per_name rules -> Forall accepted_rule rules -> not_a_rule rules here ->
  Forall (fun rw => applier_reasons (not_a_rule rules) (rw_applier rw)) rules ->
  Forall (fun h : hook Op D Cl => forall cl i, reasons (not_a_rule rules) (hk_body h cl i)) hooks ->
  reachable L A true g -> rule_steps rules (asserted (eg_log g)) ->
  run_debug L A clock sch li rules fuel here hooks rounds roots g st cl = run L A clock sch li rules fuel here hooks rounds roots g st cl.
Proof.
  intros Hn Hone Hacc Hh Ha Hk.
  exact (debug_run L A fuel here (steady_no_union L A Hn) rules Hone Hacc Hh (fun i => no_union_reasons _ _ (Hn i)) clock sch li hooks Ha Hk rounds roots g st cl).
Qed.
Print Assumptions C54_debug_runs_agree.
Example C54_debug_ex : (forall i, no_union (an_modify unitan i)) /\ one_per_name rules0 /\ Forall accepted_rule rules0 /\ not_a_rule rules0 9 /\
  Forall (fun rw => applier_reasons (not_a_rule rules0) (rw_applier rw)) rules0 /\
  reachable natlang unitan true (rw_g true) /\ rule_steps rules0 (asserted (eg_log (rw_g true))) /\
  run natlang unitan (fun k => k) simple8 li0 rules0 20 9 [] 6 [5] (rw_g true) () () = Ok (Some chk_r).
Proof.
  exact (conj (fun _ => I) (conj rules0_one (conj rules0_accepted (conj rules0_here (conj (rules0_reasons _) (conj (rw_g_reach true) (conj (rw_g_steps _) chk_run_eq))))))).
Qed.

(** Without explanations the two builds agree for all rules and hooks. *)
Theorem C54_debug_runs_agree_unexplained {Op D} `{Countable Op} (L : lang Op) (A : analysis Op D) (clock : nat -> nat) {St Cl} (sch : scheduler Op D St) li
    (rules : list (rewrite Op D)) fuel here (hooks : list (hook Op D Cl)) rounds roots g st cl :
  Forall rule_shaped rules -> reachable L A false g ->
  run_debug L A clock sch li rules fuel here hooks rounds roots g st cl = run L A clock sch li rules fuel here hooks rounds roots g st cl.
Proof. intros Hr. exact (debug_run_off L A clock sch li rules fuel here hooks Hr rounds roots g st cl). Qed.
Print Assumptions C54_debug_runs_agree_unexplained.
Example C54_unexplained_ex : Forall rule_shaped rules0 /\ reachable natlang unitan false (rw_g false) /\
  run natlang unitan (fun k => k) simple8 li0 rules0 20 9 [] 6 [5] (rw_g false) () () = Ok (Some sat_r).
Proof. exact (conj rules0_shaped (conj (rw_g_reach false) sat_run_eq)). Qed.

(** With a hook that unites, the two builds differ: the same run ends in a release build and
    panics in a debug build. *)
Theorem C54_folding_hooks_agree_refuted : exists (A : analysis nat (option nat)) rules g r,
  one_per_name rules /\ Forall accepted_rule rules /\ not_a_rule rules 9 /\ (forall i, reasons (not_a_rule rules) (an_modify A i)) /\
  Forall (fun rw => applier_reasons (not_a_rule rules) (rw_applier rw)) rules /\
  reachable natlang A true g /\ rule_steps rules (asserted (eg_log g)) /\
  run natlang A (fun k => k) fsimple (Limits 1 60 90) rules 20 9 ([] : list (hook nat (option nat) unit)) 6 [0] g () () = Ok (Some r) /\
  run_debug natlang A (fun k => k) fsimple (Limits 1 60 90) rules 20 9 ([] : list (hook nat (option nat) unit)) 6 [0] g () () = Panic.
Proof.
  exact (ex_intro _ foldan (ex_intro _ [grow_rule] (ex_intro _ cst_g (ex_intro _ grow_r
    (conj (one_rule _) (conj grow_accepted (conj grow_here (conj grow_reasons (conj grow_appliers (conj cst_reach (conj cst_steps (conj grow_run_eq grow_debug)))))))))))).
Qed.
Print Assumptions C54_folding_hooks_agree_refuted.
