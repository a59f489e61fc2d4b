(** Property C61: sizes and reports.  Vocabulary: SizeSpec.v, Spec.v, RuleSpec.v, RunnerSpec.v.
    The proofs are in SizeProofs.v. *)
From Verif Require Import Base UnionFind EGraphModel EGraphPres EGraphRuns Spec EGraphReach MachineModel RewriteModel RuleSpec RunnerModel RunnerSpec
  SizeModel SizeSpec SizeProofs Examples ExamplesMatch ExamplesRewrite ExamplesRun ExamplesSize.

(** * C61 *)
(** [number_of_classes] counts the different answers of [find], at every moment. *)
Theorem C61_classes {Op D} `{Countable Op} (L : lang Op) (A : analysis Op D) ex g :
  reachable L A ex g -> counted (an_answer g) (number_of_classes g) /\ number_of_classes g <= handed_out g.
Proof. intros R. exact (conj (classes_counted L A ex g R) (classes_le_ids L A ex g R)). Qed.
Print Assumptions C61_classes.
Example C61_classes_ex : reachable natlang unitan true (cong_g true false) /\ number_of_classes (cong_g true false) = 5 /\ handed_out (cong_g true false) = 6 /\
  number_of_classes (cong_g true true) = 3.
Proof. split; [apply cong_g_reachable|]. vm_compute. done. Qed.
(** [is_empty] says whether anything was ever added, at every moment. *)
Theorem C61_is_empty {Op D} `{Countable Op} (L : lang Op) (A : analysis Op D) ex g :
  reachable L A ex g -> is_empty g = true <-> handed_out g = 0.
Proof. exact (empty_iff L A ex g). Qed.
Print Assumptions C61_is_empty.
Example C61_is_empty_ex : is_empty (cong_g true false) = false /\ is_empty (eg_new true : egraph nat unit) = true.
Proof. vm_compute. done. Qed.
(** After a rebuild [total_number_of_nodes] counts the nodes with canonical children that
    [lookup] finds. *)
Theorem C61_nodes {Op D} `{Countable Op} (L : lang Op) (A : analysis Op D) ex g :
  lang_ok L -> reachable_np L A ex g -> eg_clean g = true ->
  counted (found_node g) (total_number_of_nodes g) /\ number_of_classes g <= total_number_of_nodes g.
Proof. intros Lo R Ec. exact (conj (nodes_counted L A ex g Lo R Ec) (classes_le L A ex g R)). Qed.
Print Assumptions C61_nodes.
(** ... and it is bounded by [total_size] and by the number of ids, also after pruning. *)
Theorem C61_bounds {Op D} `{Countable Op} (L : lang Op) (A : analysis Op D) ex g :
  lang_ok L -> reachable L A ex g -> eg_clean g = true ->
  total_number_of_nodes g <= total_size g /\ total_number_of_nodes g <= handed_out g.
Proof. exact (sizes_le L A ex g). Qed.
Print Assumptions C61_bounds.
Example C61_nodes_ex : lang_ok natlang /\ reachable_np natlang unitan true (cong_g true true) /\ eg_clean (cong_g true true) = true /\
  total_number_of_nodes (cong_g true true) = 4 /\ total_number_of_nodes (cong_g true false) = 6.
Proof. split; [apply natlang_ok|]. split; [apply cong_g_reachable_np|]. vm_compute. done. Qed.
(** [total_size] (documented as the number of e-nodes, actually the size of the hashcons index) is not the
    number of nodes even after a rebuild: it can be larger than
    [total_number_of_nodes], and larger than the number of nodes ever added. *)
Theorem C61_total_size_refuted : exists g : egraph nat unit,
  reachable_np natlang unitan false g /\ eg_clean g = true /\ total_number_of_nodes g < total_size g /\ handed_out g < total_size g.
Proof. exists stale_g. split; [exact stale_np|]. split; [vm_compute; reflexivity|]. split; apply Nat.ltb_lt; vm_compute; reflexivity. Qed.
Print Assumptions C61_total_size_refuted.
(** The node limit is compared with [total_size]: a run can stop with [NodeLimit] although no
    more nodes than the limit were ever added. *)
Theorem C61_node_limit_refuted : exists (g : egraph nat unit) r li n,
  reachable_np natlang unitan false g /\
  run natlang unitan (fun k => k) (simple_scheduler natlang it0 true 8) li [] 20 9 ([] : list (hook nat unit unit)) 6 [] g () () = Ok (Some r) /\
  r_stop r = Some (NodeLimit n) /\ handed_out (r_eg r) <= li_node li /\ total_number_of_nodes (r_eg r) <= li_node li.
Proof.
  exists stale_g, stale_r, (Limits 6 4 90), 5. split; [exact stale_np|]. split; [exact stale_run_eq|]. split; [vm_compute; reflexivity|].
  split; apply Nat.leb_le; vm_compute; reflexivity.
Qed.
Print Assumptions C61_node_limit_refuted.

(** The report of a finished run can be made (the stop reason is there), and its numbers count
    what they say. *)
Theorem C61_report {Op D} `{Countable Op} (L : lang Op) (A : analysis Op D) clock {St Cl} (sch : scheduler Op D St) li rules fuel here
    (hooks : list (hook Op D Cl)) ord ex rounds roots g st cl r :
  lang_ok L -> Forall (rule_built ord) rules -> Forall hook_np hooks -> reachable_np L A ex g ->
  run L A clock sch li rules fuel here hooks rounds roots g st cl = Ok (Some r) ->
  exists rp, make_report r = Ok rp /\
    r_stop r = Some (rp_stop rp) /\ rp_iterations rp = length (r_iters r) /\ 0 < rp_iterations rp /\
    counted (an_answer (r_eg r)) (rp_classes rp) /\ counted (found_node (r_eg r)) (rp_nodes rp) /\ counted (in_index (r_eg r)) (rp_memo rp) /\
    rp_classes rp <= rp_nodes rp <= rp_memo rp /\ rp_rebuilds rp = sum_list (it_rebuilds <$> r_iters r).
Proof. exact (run_report L A clock sch li rules fuel here hooks ord ex rounds roots g st cl r). Qed.
Print Assumptions C61_report.
Example C61_report_ex : Forall (rule_built ord0) rules0 /\ reachable_np natlang unitan false (rw_g false) /\ sat_run = Ok (Some sat_r) /\
  make_report sat_r = Ok (Report 2 Saturated 5 3 6 1).
Proof. split; [exact rules0_built|]. split; [exact (rw_g_np false)|]. split; [exact sat_run_eq|]. vm_compute. reflexivity. Qed.
(** The merges that the iterations report account for the number of classes: classes at the end
    and merges together are the classes at the beginning and the ids handed out in between.
    Without explanations, for rules made of patterns and hooks that only look; [n0] are the merges of the first rebuild,
    which no iteration reports. *)
Theorem C61_merges_reported {Op D} `{Countable Op} (L : lang Op) (A : analysis Op D) clock {St Cl} (sch : scheduler Op D St) li rules fuel here
    (hooks : list (hook Op D Cl)) rounds roots g st cl r g0 n0 :
  hook_free A -> Forall (fun rw => pattern_applier (rw_applier rw)) rules -> Forall (only_looks L A fuel) hooks ->
  reachable L A false g -> rebuild L A fuel (modify_n L A fuel) g = Ok (g0, n0) ->
  run L A clock sch li rules fuel here hooks rounds roots g st cl = Ok (Some r) ->
  number_of_classes (r_eg r) + (n0 + sum_list (reported <$> r_iters r)) + handed_out g = number_of_classes g + handed_out (r_eg r).
Proof. intros Hh Hr Hk. exact (run_ledger L A Hh clock sch li rules fuel here hooks Hr Hk rounds roots g st cl r g0 n0). Qed.
Print Assumptions C61_merges_reported.
Example C61_merges_ex : hook_free unitan /\ Forall (fun rw => pattern_applier (rw_applier rw)) rules0 /\
  reachable natlang unitan false (rw_g false) /\ sat_run = Ok (Some sat_r) /\
  number_of_classes (r_eg sat_r) = 3 /\ (reported <$> r_iters sat_r) = [3; 0] /\ number_of_classes (rw_g false) = 6 /\
  handed_out (r_eg sat_r) = 6.
Proof.
  split; [done|]. split; [exact rules0_patterns|]. split; [exact (reachable_np_reachable _ _ _ _ (rw_g_np false))|]. split; [exact sat_run_eq|].
  vm_compute. done.
Qed.
