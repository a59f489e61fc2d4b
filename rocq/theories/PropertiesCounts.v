(** Properties C34 and C35, continued: the counts an iteration reports, and the settings of
    the backoff scheduler.  Vocabulary: CountSpec.v, BackoffSpec.v. *)
From Verif Require Import Base UnionFind EGraphModel MachineModel RewriteModel RunnerModel RunnerSpec BackoffSpec CountSpec CountProofs
  Examples ExamplesMatch ExamplesRewrite ExamplesRun ExamplesCounts.

(** * C34 *)
(** The counts an iteration reports: the rules were applied one after the other (to the
    matches found), then the e-graph was rebuilt; each rule name with at least one answered
    id is listed exactly once, with the number of ids all rules of that name answered. *)
Theorem C34_applied_counts {Op D} `{Countable Op} (L : lang Op) (A : analysis Op D) clock {St Cl} (sch : scheduler Op D St) li rules fuel here
    (hooks : list (hook Op D Cl)) r r' itn :
  run_one L A clock sch li rules fuel here hooks r = Ok (r', itn) ->
  exists g1 mss k cs g2, applied_each L A fuel here (take k (zip rules mss)) g1 cs g2 /\
    rebuild L A fuel (modify_n L A fuel) g2 = Ok (r_eg r', it_rebuilds itn) /\
    NoDup (it_applied itn).*1 /\
    forall name n, (name, n) ∈ it_applied itn <-> total name cs = n /\ 0 < n.
Proof. exact (iteration_counts L A clock sch li rules fuel here hooks r r' itn). Qed.
Print Assumptions C34_applied_counts.
(** Two rules of one name: their counts are added. *)
Example C34_applied_counts_ex : it_applied cnt_it = cnt_applied.
Proof. vm_compute. reflexivity. Qed.

(** * C35 *)
(** A rule the client asked not to ban is never banned, whatever is searched when, and every
    search for it answers what a search without limit answers. *)
Theorem C35_do_not_ban {Op D} `{Countable Op} (L : lang Op) it cycles w debug limit ban pre post name b' i :
  Forall (fun s => ~ limits_rule name s) post ->
  used (D := D) L it cycles w debug (configure w limit ban (pre ++ SNoBan name :: post)) b' ->
  ~ banned b' name i /\
  forall (g : egraph Op D) rw ms b'', rw_name rw = name -> backoff_search L it cycles w debug i g rw b' = Ok (ms, b'') ->
    rewrite_search L it cycles w g rw (umax w) = Ok ms.
Proof. exact (do_not_ban_main L it cycles w debug limit ban pre post name b' i). Qed.
Print Assumptions C35_do_not_ban.
Example C35_do_not_ban_ex : used (D := unit) natlang it0 true 8 true (configure 8 1 3 ([] ++ SNoBan 1 :: [])) nb_b1 /\
  backoff_search natlang it0 true 8 true 1 (rw_g false) comm nb_b1 = Ok (comm_ms, nb_b2) /\
  backoff_search natlang it0 true 8 true 0 (rw_g false) comm (configure 8 1 3 []) = Ok ([], back_b1) /\ banned back_b1 1 0.
Proof.
  split_and!; [exact nb_used|apply snd_ok_eq; vm_compute; reflexivity|apply snd_ok_eq; vm_compute; reflexivity|apply banned_bool; reflexivity].
Qed.
(** The match limit and the ban length of a rule are those last set for it; a rule for which
    nothing was set has the defaults set last; no rule is banned before the first search. *)
Theorem C35_rule_settings w limit ban pre post name k :
  (Forall (fun s => ~ limits_rule name s) post -> rs_limit (rule_stats name (configure w limit ban (pre ++ SLimit name k :: post))) = k) /\
  (Forall (fun s => ~ bans_rule name s) post -> rs_ban (rule_stats name (configure w limit ban (pre ++ SBan name k :: post))) = k).
Proof. exact (conj (fun Hp => conf_limit w limit ban pre post name (SLimit name k) k eq_refl eq_refl Hp) (fun Hp => conf_ban w limit ban pre post name k Hp)). Qed.
Print Assumptions C35_rule_settings.
Theorem C35_default_settings w limit ban pre post name k :
  (Forall (fun s => names s <> Some name) (pre ++ SDefaultLimit k :: post) -> Forall (fun s => match s with SDefaultLimit _ => False | _ => True end) post ->
     rs_limit (rule_stats name (configure w limit ban (pre ++ SDefaultLimit k :: post))) = k) /\
  (Forall (fun s => names s <> Some name) (pre ++ SDefaultBan k :: post) -> Forall (fun s => match s with SDefaultBan _ => False | _ => True end) post ->
     rs_ban (rule_stats name (configure w limit ban (pre ++ SDefaultBan k :: post))) = k).
Proof. exact (conj (conf_default_limit w limit ban pre post name k) (conf_default_ban w limit ban pre post name k)). Qed.
Print Assumptions C35_default_settings.
Theorem C35_settings_ban_nothing w limit ban ss name i : ~ banned (configure w limit ban ss) name i.
Proof. exact (conf_not_banned w limit ban ss name i). Qed.
Print Assumptions C35_settings_ban_nothing.
Example C35_settings_ex : Forall (fun s => ~ limits_rule 1 s) [SBan 1 7; SLimit 2 9] /\ Forall (fun s => ~ bans_rule 1 s) [SLimit 2 9] /\
  rule_stats 1 (configure 8 100 5 [SLimit 1 4; SBan 1 7; SLimit 2 9]) = RStats 0 0 0 4 7 /\
  rule_stats 3 (configure 8 100 5 [SLimit 1 4; SDefaultBan 6; SDefaultLimit 50]) = RStats 0 0 0 50 6.
Proof. split_and!; [repeat constructor; cbn; lia|repeat constructor; cbn; lia|reflexivity|reflexivity]. Qed.
(** But a default set after anything was set for a rule does not reach that rule, even where
    nothing of the kind was set for it: the order of the builder calls matters. *)
Theorem C35_defaults_reach_named_rules_refuted : exists ss k, SDefaultBan k ∈ ss /\
  Forall (fun s => match s with SBan _ _ => False | SDefaultBan k' => k' = k | _ => True end) ss /\
  rs_ban (rule_stats 1 (configure 64 1000 5 ss)) <> k.
Proof. exact late_default. Qed.
Print Assumptions C35_defaults_reach_named_rules_refuted.
