(** Property theorems about checking explanations against rules (C53).
    Vocabulary: CheckSpec.v ([instance_of], [between], [rule_steps], [accepted_rule],
    [rule_eqs], [not_a_rule], [reasons], [steady], [no_union], [arity_ok], [named],
    [steps_below]), ExplainSpec.v ([AddedAs], [asserted], [teq], [erase]). *)
From Verif Require Import Base EGraphModel Spec EGraphReach Terms RecExprModel ExprModel PatSpec MachineModel MatchSpec RewriteModel RuleSpec RunnerModel RunnerSpec
  ExplainModel ExplainSpec ExplainMain CheckModel CheckSpec CheckProofs CheckRun CheckSound ExplainMatch Examples ExamplesExpr ExamplesMatch ExamplesRewrite ExamplesRun ExamplesExplain ExamplesCheck.

(** * C53 *)
(** Explanations are accepted: in every e-graph whose unions under rule names are instances
    of those rules, any two equal ids have an explanation, and [check_proof] with the rules
    does not panic on it. *)
Theorem C53_explanations_pass {Op D} `{Countable Op} (L : lang Op) (A : analysis Op D) (rules : list (rewrite Op D)) (g : egraph Op D) l r :
  reachable L A true g -> Forall accepted_rule rules -> rule_steps rules (asserted (eg_log g)) ->
  known g l -> known g r -> eg_find g l = eg_find g r ->
  exists bound, forall fuel, bound <= fuel -> exists p, explain_id_equivalence fuel l r g = Ok p /\ check_proof rules p = Ok tt.
Proof. exact (explained_pass_ex L A rules g l r). Qed.
Print Assumptions C53_explanations_pass.
Example C53_pass_ex : reachable natlang unitan true (rw_g true) /\ Forall accepted_rule rules0 /\ rule_steps rules0 (asserted (eg_log (rw_g true))).
Proof. split; [apply rw_g_reach|]. split; [apply rules0_accepted|apply rw_g_steps]. Qed.

(** What a run unites under the name of a rule between patterns is an instance of the rule:
    the term of the one id is an instance of the left pattern, the term of the other the same
    instance of the right pattern -- whatever the scheduler, the limits and the hooks, if
    hooks, conditions and client appliers give reasons of their own and adding an e-node does
    not change the representatives of old ids. *)
Theorem C53_runs_record_instances {Op D} `{Countable Op} (L : lang Op) (A : analysis Op D) (clock : nat -> nat) {St Cl} (sch : scheduler Op D St) li
    (rules : list (rewrite Op D)) fuel here (hooks : list (hook Op D Cl)) rounds roots g st cl r :
  steady L A -> one_per_name rules -> Forall accepted_rule rules -> not_a_rule rules here ->
  (forall i, reasons (not_a_rule rules) (an_modify A i)) ->
  Forall (fun rw => applier_reasons (not_a_rule rules) (rw_applier rw)) rules ->
  Forall (fun h : hook Op D Cl => forall cl i, reasons (not_a_rule rules) (hk_body h cl i)) hooks ->
  reachable L A true g -> rule_steps rules (asserted (eg_log g)) ->
  run L A clock sch li rules fuel here hooks rounds roots g st cl = Ok (Some r) ->
  reachable L A true (r_eg r) /\ rule_steps rules (asserted (eg_log (r_eg r))).
Proof.
  intros Hst Hone Hacc Hh Hm Ha Hk R Hs E.
  destruct (runner_W L A fuel here Hst rules Hone Hacc Hh Hm clock sch li hooks Ha Hk rounds roots g st cl r R E) as (R' & _ & K).
  exact (conj R' (K Hs)).
Qed.
Print Assumptions C53_runs_record_instances.
(** The same for programs of a client between runs. *)
Theorem C53_clients_keep_instances {Op D} `{Countable Op} (L : lang Op) (A : analysis Op D) (rules : list (rewrite Op D)) fuel p (g g' : egraph Op D) :
  (forall i, reasons (not_a_rule rules) (an_modify A i)) -> reasons (not_a_rule rules) p ->
  reachable L A true g -> rule_steps rules (asserted (eg_log g)) -> run_prog L A fuel (modify_n L A fuel) p g = Ok g' ->
  rule_steps rules (asserted (eg_log g')).
Proof. intros Hm Hp R Hs E. exact (proj2 (proj2 (run_W L A fuel rules Hm p g g' R Hp E)) Hs). Qed.
Print Assumptions C53_clients_keep_instances.
(** Hooks that make no unions are steady. *)
Theorem C53_hooks_without_unions_are_steady {Op D} `{Countable Op} (L : lang Op) (A : analysis Op D) :
  (forall i, no_union (an_modify A i)) -> steady L A.
Proof. exact (steady_no_union L A). Qed.
Print Assumptions C53_hooks_without_unions_are_steady.
(** Both together: after a run, every explanation of two equal ids passes [check_proof]. *)
Theorem C53_explanations_after_a_run_pass {Op D} `{Countable Op} (L : lang Op) (A : analysis Op D) (clock : nat -> nat) {St Cl} (sch : scheduler Op D St) li
    (rules : list (rewrite Op D)) fuel here (hooks : list (hook Op D Cl)) rounds roots g st cl r i j :
  (forall i, no_union (an_modify A i)) -> one_per_name rules -> Forall accepted_rule rules -> not_a_rule rules here ->
  Forall (fun rw => applier_reasons (not_a_rule rules) (rw_applier rw)) rules ->
  Forall (fun h : hook Op D Cl => forall cl i, reasons (not_a_rule rules) (hk_body h cl i)) hooks ->
  reachable L A true g -> rule_steps rules (asserted (eg_log g)) ->
  run L A clock sch li rules fuel here hooks rounds roots g st cl = Ok (Some r) ->
  known (r_eg r) i -> known (r_eg r) j -> eg_find (r_eg r) i = eg_find (r_eg r) j ->
  exists bound, forall fuel, bound <= fuel -> exists p, explain_id_equivalence fuel i j (r_eg r) = Ok p /\ check_proof rules p = Ok tt.
Proof.
  intros Hn Hone Hacc Hh Ha Hk R Hs E.
  destruct (C53_runs_record_instances L A clock sch li rules fuel here hooks rounds roots g st cl r (steady_no_union L A Hn) Hone Hacc Hh
    (fun i => no_union_reasons _ _ (Hn i)) Ha Hk R Hs E) as [R' Hs'].
  exact (explained_pass_ex L A rules (r_eg r) i j R' Hacc Hs').
Qed.
Print Assumptions C53_explanations_after_a_run_pass.
(** f(x,y) = f(y,x) = g(f(y,x)) by two rules, one conditional, found by a run *)
Example C53_run_ex : (forall i, no_union (an_modify unitan i)) /\ one_per_name rules0 /\ Forall accepted_rule rules0 /\ not_a_rule rules0 9 /\
  Forall (fun rw => applier_reasons (not_a_rule rules0) (rw_applier rw)) rules0 /\
  run natlang unitan (fun k => k) simple8 li0 rules0 20 9 [] 6 [5] (rw_g true) () () = Ok (Some chk_r) /\
  (known (r_eg chk_r) 5 /\ known (r_eg chk_r) 2 /\ eg_find (r_eg chk_r) 5 = eg_find (r_eg chk_r) 2) /\
  (p ← explain_id_equivalence 20 5 2 (r_eg chk_r); make_flat p) = Ok chk_flat.
Proof.
  exact (conj (fun _ => I) (conj rules0_one (conj rules0_accepted (conj rules0_here (conj (rules0_reasons _) (conj chk_run_eq (conj chk_known chk_flat_eq))))))).
Qed.

(** What acceptance shows: if every annotation names a rule between patterns, and consecutive
    terms agree outside the annotated places, an accepted explanation proves its last term
    equal to its first by instances of the rules and congruence. *)
Theorem C53_accepted_explanations_prove {Op D} `{Countable Op} (rules : list (rewrite Op D)) p fl f l :
  Forall accepted_rule rules -> one_per_name rules -> make_flat p = Ok fl -> check_proof rules p = Ok tt ->
  Forall arity_ok fl -> Forall (named rules) fl -> steps_below fl -> head fl = Some f -> last fl = Some l ->
  teq (rule_eqs rules) (erase f) (erase l).
Proof.
  intros Hacc Hone Ef Ec Ha Hn Hb. unfold check_proof in Ec. rewrite Ef in Ec. exact (check_flat_sound rules Hacc Hone fl f l Ha Hn Hb Ec).
Qed.
Print Assumptions C53_accepted_explanations_prove.
(** ... and one wrong step is noticed *)
Example C53_accepted_ex : Forall arity_ok chk_flat /\ Forall (named rules0) chk_flat /\ steps_below chk_flat /\ check_flat rules0 chk_flat = Ok tt /\
  check_flat rules0 bad_flat = Panic.
Proof. exact (conj flat_arity (conj flat_named (conj flat_below (conj flat_checked eq_refl)))). Qed.

(** Acceptance alone does not show that: places without annotation are not compared, so an
    accepted explanation can begin with f(x) and end with g(y) where the only rule is x => y. *)
Theorem C53_acceptance_suffices_refuted : exists (rules : list (rewrite nat unit)) p fl f l,
  Forall accepted_rule rules /\ one_per_name rules /\ make_flat p = Ok fl /\ Forall arity_ok fl /\ Forall (named rules) fl /\
  head fl = Some f /\ last fl = Some l /\ check_proof rules p = Ok tt /\ ~ teq (rule_eqs rules) (erase f) (erase l).
Proof.
  exists [xy_rule], bogus, bogus_flat, (FT (Node 3 [0]) None None [FT (Node 0 []) None None []]), (FT (Node 4 [1]) None None [FT (Node 1 []) None (Some 1) []]).
  split; [exact xy_accepted|]. split; [apply one_rule|]. split; [vm_compute; reflexivity|]. split; [repeat constructor|]. split; [exact bogus_named|].
  split; [done|]. split; [done|]. split; [vm_compute; reflexivity|]. exact bogus_false.
Qed.
Print Assumptions C53_acceptance_suffices_refuted.

(** Without steadiness the claim about runs fails: with the constant-folding hook, an
    explanation the e-graph produces is refused by [check_proof] (a panic).  While the right
    side of ?0 => h(s(2), ?0) is added, the hook unites s(2) with the class of ?0, and the
    second occurrence is recorded as s(2). *)
Theorem C53_folding_hooks_pass_refuted : exists (A : analysis nat (option nat)) rules g r p,
  one_per_name rules /\ Forall accepted_rule rules /\ not_a_rule rules 9 /\ (forall i, reasons (not_a_rule rules) (an_modify A i)) /\
  Forall (fun rw => applier_reasons (not_a_rule rules) (rw_applier rw)) rules /\
  reachable natlang A true g /\ rule_steps rules (asserted (eg_log g)) /\
  run natlang A (fun k => k) fsimple (Limits 1 60 90) rules 20 9 ([] : list (hook nat (option nat) unit)) 6 [0] g () () = Ok (Some r) /\
  explain_id_equivalence 20 0 3 (r_eg r) = Ok p /\ check_proof rules p = Panic.
Proof.
  destruct grow_explained as (p & Ep & Ec).
  exact (ex_intro _ foldan (ex_intro _ [grow_rule] (ex_intro _ cst_g (ex_intro _ grow_r (ex_intro _ p
    (conj (one_rule _) (conj grow_accepted (conj grow_here (conj grow_reasons (conj grow_appliers (conj cst_reach (conj cst_steps (conj grow_run_eq (conj Ep Ec)))))))))))))).
Qed.
Print Assumptions C53_folding_hooks_pass_refuted.

(** * C40, continued *)
(** [explain_matches] proves the expression equal to an instance of the pattern, with one term
    of its class for each variable; it answers whenever the two are equal. *)
Theorem C40_explain_matches {Op D} `{Countable Op} (L : lang Op) (A : analysis Op D) fuel fuel' e t pat pt s (g g' : egraph Op D) p :
  steady L A -> reachable L A true g -> ExprTree e t -> pat_ok pat -> ExprTree pat pt ->
  explain_matches A (modify_n L A fuel) fuel' e pat s g = Ok (g', p) ->
  reachable L A true g' /\
  exists th, (forall v i, subst_get s v = Some i -> known g' i -> AddedAs (eg_log g') (eg_find g' i) (th v)) /\ proves (asserted (eg_log g')) p t (tsubst th pt).
Proof. intros Hs. exact (explain_matches_ok L A Hs fuel fuel' e t pat pt s g g' p). Qed.
Print Assumptions C40_explain_matches.
Theorem C40_explain_matches_total {Op D} `{Countable Op} (L : lang Op) (A : analysis Op D) fuel e t pat pt s (g g1 g2 : egraph Op D) l r :
  steady L A -> reachable L A true g -> ExprTree e t -> pat_ok pat -> ExprTree pat pt ->
  add_expr_uncanonical A (modify_n L A fuel) e g = Ok (g1, l) -> add_instantiation_noncanonical A (modify_n L A fuel) pat s g1 = Ok (g2, r) ->
  eg_find g2 l = eg_find g2 r ->
  exists bound, forall fuel', bound <= fuel' -> exists p, explain_matches A (modify_n L A fuel) fuel' e pat s g = Ok (g2, p).
Proof. intros Hs. exact (explain_matches_total L A Hs fuel e t pat pt s g g1 g2 l r). Qed.
Print Assumptions C40_explain_matches_total.
Example C40_explain_matches_ex : steady natlang unitan /\ reachable natlang unitan true (exp_g true) /\ ExprTree hx hxt /\ pat_ok hpat /\ ExprTree hpat hpt /\
  (length <$> (snd <$> explain_matches unitan (modify_n natlang unitan 5) 5 hx hpat [(0, 2)] (exp_g true))) = Ok 2.
Proof. exact (conj (steady_no_union natlang unitan (fun _ => I)) (conj (exp_reachable true) (conj hx_tree (conj hpat_ok (conj hpat_tree hpat_explained))))). Qed.
