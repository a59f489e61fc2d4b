{
 "claims": [
  {
   "property": "C01",
   "status": "proved",
   "theorems": [
    "C01_find_is_union_closure"
   ],
   "note": "find terminates within the array size, is canonical, and equals the equivalence closure of the unions made; union is applied to leaders as egraph.rs does"
  },
  {
   "property": "C02",
   "status": "proved",
   "theorems": [
    "C02_path_compression_invisible"
   ],
   "note": "strict (panicking, fuelled) find and find_mut"
  },
  {
   "property": "C03",
   "status": "proved",
   "theorems": [
    "C03_union_leader",
    "C03_union_merges_named_classes"
   ],
   "note": "any reachable e-graph, hooks allowed for the first two parts; exact merging for hook-free analyses"
  },
  {
   "property": "C04",
   "status": "proved",
   "theorems": [
    "C04_equalities_persist"
   ],
   "note": "any later program over the API, any hooks"
  },
  {
   "property": "C05",
   "status": "proved",
   "theorems": [
    "C05_hashcons_rebuilt",
    "C05_hashcons_plain",
    "C05_hashcons_same_node",
    "C05_hashcons_explained_refuted"
   ],
   "note": "rebuilt e-graphs in full; un-rebuilt without explanations, or identical node; the general un-rebuilt statement with explanations is false of the code and refuted"
  },
  {
   "property": "C06",
   "status": "proved",
   "theorems": [
    "C06_lookup_exact",
    "C06_lookup_after_add",
    "C06_lookup_miss",
    "C06_lookup_after_add_explained_refuted"
   ],
   "note": "exactness in rebuilt e-graphs; lookup after add without explanations; refuted for un-rebuilt e-graphs with explanations"
  },
  {
   "property": "C07",
   "status": "proved",
   "theorems": [
    "C07_closure_sound"
   ],
   "note": "all reachable e-graphs, arbitrary analysis hooks, explanations on or off"
  },
  {
   "property": "C08",
   "status": "proved",
   "theorems": [
    "C08_closure_complete"
   ],
   "note": "all rebuilt reachable e-graphs, arbitrary analysis hooks, explanations on or off"
  },
  {
   "property": "C09",
   "status": "proved",
   "theorems": [
    "C09_classes_canonical",
    "C09_classes_cover"
   ],
   "note": "covering direction assumes nobody deletes nodes through IndexMut (otherwise false by design)"
  },
  {
   "property": "C10",
   "status": "proved",
   "theorems": [
    "C10_operator_index_exact"
   ],
   "note": "assumes nobody deletes nodes through IndexMut after the rebuild"
  },
  {
   "property": "C11",
   "status": "proved",
   "theorems": [
    "C11_rebuild_count",
    "C11_rebuild_idempotent"
   ],
   "note": "count for hook-free analyses; idempotence for any hooks"
  },
  {
   "property": "C12",
   "status": "proved",
   "theorems": [
    "C12_rebuild_terminates"
   ],
   "note": "hook-free analyses whose merge moves along a well-founded relation (the unit analysis is the empty relation)"
  },
  {
   "property": "C13",
   "status": "proved",
   "theorems": [
    "C13_no_panic",
    "C13_ids_stay_valid"
   ],
   "note": "clients and hooks that pass only ids they were given; OutOfFuel (divergence of a hook) is not a panic"
  },
  {
   "property": "C14",
   "status": "proved",
   "theorems": [
    "C14_data_above_added_nodes",
    "C14_data_above_listed_nodes"
   ],
   "note": "Any hooks that do not overwrite data; explanations on or off; nodes added and nodes listed. [reachable_kd] excludes set_analysis_data / direct pokes of data (property is about data computed by the analysis)."
  },
  {
   "property": "C15",
   "status": "proved",
   "theorems": [
    "C15_data_least",
    "C15_data_order_independent"
   ],
   "note": "Least assignment among all pre-fixpoints, and order independence for antisymmetric orders."
  },
  {
   "property": "C16",
   "status": "proved",
   "theorems": [
    "C16_merge_max",
    "C16_merge_min",
    "C16_merge_option",
    "C16_did_merge_or"
   ],
   "note": "merge_max, merge_min, merge_option and the or of DidMerge; Ord given by a comparison function satisfying the laws of Ord."
  },
  {
   "property": "C17",
   "status": "proved",
   "theorems": [
    "C17_queue_refines_list"
   ],
   "note": "Refinement to a list for all operation sequences, including the debug assertion of is_empty."
  },
  {
   "property": "C18",
   "status": "proved",
   "theorems": [
    "C18_pattern_new",
    "C18_match_sound",
    "C18_match_instances",
    "C18_search_sound"
   ],
   "note": "Compiler and register machine modelled instruction by instruction; every work-list and hash iteration order; pattern tree is that of the compacted AST."
  },
  {
   "property": "C19",
   "status": "proved",
   "theorems": [
    "C19_match_complete",
    "C19_search_complete"
   ],
   "note": "For analyses that allow e-matching cycles (the default); unpruned rebuilt e-graphs."
  },
  {
   "property": "C20",
   "status": "proved",
   "theorems": [
    "C20_match_no_duplicates",
    "C20_search_no_duplicates"
   ],
   "note": "Also up to class names within one class."
  },
  {
   "property": "C21",
   "status": "proved",
   "theorems": [
    "C21_match_limit",
    "C21_search_limit"
   ],
   "note": "For one class and for the whole e-graph; includes absence of panics."
  },
  {
   "property": "C22",
   "status": "proved",
   "theorems": [
    "C22_matching_nodes"
   ],
   "note": "Including the debug assertions of the fast path."
  },
  {
   "property": "C23",
   "status": "proved",
   "theorems": [
    "C23_find_best_is_optimal",
    "C23_order_irrelevant",
    "C23_exceeding_children_refuted"
   ],
   "note": "For every iteration order and every cost function that depends on operator and child costs, is monotone in the child costs and not below them; reported and actual cost compare equal. C23_exceeding_children_refuted: the documented condition alone (cost greater than the children's) does not give minimality."
  },
  {
   "property": "C24",
   "status": "proved",
   "theorems": [
    "C24_terminates_well_founded",
    "C24_terminates_in_rounds",
    "C24_no_panic",
    "C24_exactly_the_finite",
    "C24_find_best_total",
    "C24_best_node",
    "C24_cheap_cycles_refuted"
   ],
   "note": "Termination for costs in a well-founded order (any cost function) and, with a bound of #classes+1 rounds, for monotone cost functions over any total preorder; find_best is total for every cost function not below its children. C24_cheap_cycles_refuted: without that find_best may loop."
  },
  {
   "property": "C25",
   "status": "proved",
   "theorems": [
    "C25_ast_size",
    "C25_ast_depth",
    "C25_ast_size_fits",
    "C25_ast_depth_fits",
    "C25_smallest_term"
   ],
   "note": "AstSize for usize of any width, saturating; AstDepth without overflow (a depth that large does not fit in memory)."
  },
  {
   "property": "C26",
   "status": "proved",
   "theorems": [
    "C26_add_expr_represents",
    "C26_add_expr_no_panic",
    "C26_lookup_right_after_add_expr",
    "C26_lookup_expr_exact",
    "C26_lookup_expr_ids_exact",
    "C26_lookup_expr_unused_refuted",
    "C26_lookup_any_time_later"
   ],
   "note": "Adding: any hooks, both modes, any e-graph not pruned through IndexMut. Lookup right after (no rebuild): without explanations and hook-free; rebuilt e-graphs: exact in both modes. lookup_expr on a list with unused nodes is refuted; lookup_expr_ids is characterised for all lists."
  },
  {
   "property": "C27",
   "status": "proved",
   "theorems": [
    "C27_is_dag",
    "C27_compact",
    "C27_compact_root_refuted",
    "C27_build_recexpr",
    "C27_extract",
    "C27_join_recexprs"
   ],
   "note": "compact keeps the root for expressions in which every non-root node is used (refuted otherwise, see DESIGN findings); build_recexpr, extract, join_recexprs unconditional."
  },
  {
   "property": "C28",
   "status": "proved",
   "theorems": [
    "C28_parser_reads_the_grammar",
    "C28_printable_names",
    "C28_print_parse",
    "C28_pretty_parse",
    "C28_symbol_lang",
    "C28_patterns",
    "C28_parse_exact",
    "C28_parse_pattern",
    "C28_white_space",
    "C28_parse_answers",
    "C28_never_panics_refuted",
    "C28_all_names_refuted",
    "C28_pretty_quotes_refuted"
   ],
   "note": "For the s-expression code of src/sexp.rs (no_std builds; with std the parser is an external crate, not modelled). Parser characterised exactly by a grammar; round trips for Display, pretty and patterns; refuted for names with a tab (Display) or a space (pretty), and the text (() x) panics."
  },
  {
   "property": "C29",
   "status": "proved",
   "theorems": [
    "C29_subst_is_a_map",
    "C29_subst_no_duplicates",
    "C29_var_parse",
    "C29_var_roundtrip"
   ],
   "note": "Subst map laws; variable texts characterised exactly and round trip of exactly the parseable variables."
  },
  {
   "property": "C30",
   "status": "proved",
   "theorems": [
    "C30_rejected",
    "C30_accepted_no_panic",
    "C30_unused_variable_refuted",
    "C30_multi_searcher_explained_refuted",
    "C30_conditional_multi_refuted"
   ],
   "note": "Acceptance is characterised for all searchers and appliers; absence of panics for searchers whose AST has no unused nodes, any applier and hooks. Refuted cases: unused variable node in the searcher AST; multi-pattern searcher with pattern applier and explanations on; conditional applier over a multi-pattern."
  },
  {
   "property": "C31",
   "status": "proved",
   "theorems": [
    "C31_instances_equal",
    "C31_no_change_reported",
    "C31_answers_count_merges",
    "C31_answered_ids"
   ],
   "note": "Both sides represented for any hooks and both modes; exactness (iff, over all algebras) for hook-free analyses; the answered ids count the merges exactly, for appliers made of patterns and hook-free analyses."
  },
  {
   "property": "C32",
   "status": "proved",
   "theorems": [
    "C32_runs_are_sound",
    "C32_schedulers_are_honest"
   ],
   "note": "All rules with searchers from the constructors and pattern / multi-pattern / conditional appliers valid in the algebra, all honest schedulers, hooks whose effect is true in the algebra, analyses without hooks (modify does nothing)."
  },
  {
   "property": "C33",
   "status": "proved",
   "theorems": [
    "C33_saturated_is_settled",
    "C33_nothing_left",
    "C33_schedulers",
    "C33_zero_ban_refuted"
   ],
   "note": "For pattern, multi-pattern and ConditionEqual appliers, every thorough scheduler (SimpleScheduler; BackoffScheduler while its bans last beyond the iteration they are decided in) and hooks that leave a rebuilt e-graph rebuilt. C33_zero_ban_refuted: with ban length 0 the backoff scheduler reports Saturated after dropping matches."
  },
  {
   "property": "C34",
   "status": "proved",
   "theorems": [
    "C34_applied_counts",
    "C34_limits",
    "C34_final_state"
   ],
   "note": "All rules, schedulers, hooks, clocks and limits; with an iteration limit of 0 one (empty) iteration is still recorded. Includes the counts per rule name that an iteration reports."
  },
  {
   "property": "C35",
   "status": "proved",
   "theorems": [
    "C35_do_not_ban",
    "C35_rule_settings",
    "C35_default_settings",
    "C35_settings_ban_nothing",
    "C35_defaults_reach_named_rules_refuted",
    "C35_search",
    "C35_can_stop",
    "C35_ban_ends"
   ],
   "note": "The claim about the threshold assumes that the shifted numbers fit the machine word; otherwise checked_shl loses high bits (see DESIGN.md). Includes the builder methods; refuted: a default set after a rule-specific setting does not reach that rule."
  },
  {
   "property": "C36",
   "status": "proved",
   "theorems": [
    "C36_condition_equal",
    "C36_stale_id_refuted",
    "C36_fires",
    "C36_only_when_true",
    "C36_client_condition"
   ],
   "note": "ConditionEqual exact on the canonical substitutions returned by searches; refuted for stale ids. Conditional rules: fire / do not fire / only conditional equalities; client conditions that read the match."
  },
  {
   "property": "C37",
   "status": "proved",
   "theorems": [
    "C37_multi_new",
    "C37_multi_search",
    "C37_variable_first_clause_refuted",
    "C37_apply",
    "C37_apply_only"
   ],
   "note": "Search and apply. A bare variable as root of the first clause is refuted (panic)."
  },
  {
   "property": "C38",
   "status": "proved",
   "theorems": [
    "C38_equality_of_terms",
    "C38_modes_agree",
    "C38_stated_equalities"
   ],
   "note": "Both modes; equalities characterised by the stated equations between terms. The comparison of two runs of one client is for analyses without hooks (hooks may read ids, which differ between the modes)."
  },
  {
   "property": "C39",
   "status": "proved",
   "theorems": [
    "C39_forest_mirrors_classes"
   ],
   "note": "any reachable e-graph with explanations enabled, any hooks"
  },
  {
   "property": "C40",
   "status": "proved",
   "theorems": [
    "C40_explain_matches",
    "C40_explain_matches_total",
    "C40_explanations_exist_and_are_valid",
    "C40_every_id_has_one_term",
    "C40_explain_equivalence",
    "C40_explain_equivalence_total",
    "C40_any_path_memo",
    "C40_proofs_are_consequences",
    "C40_unequal_ids_refused"
   ],
   "note": "Tree explanations for every reachable e-graph, any hooks. The length optimiser is not modelled as code, but every content it may leave in the path memo is covered (soundness); termination and absence of panics are for the unoptimised memo."
  },
  {
   "property": "C41",
   "status": "proved",
   "theorems": [
    "C41_flattening",
    "C41_first_and_last",
    "C41_annotations"
   ],
   "note": "For every valid tree proof."
  },
  {
   "property": "C42",
   "status": "proved",
   "theorems": [
    "C42_id_to_expr_returns_what_was_added",
    "C42_expression_of_id",
    "C42_term_is_represented"
   ],
   "note": "First theorem with explanations on; the others in both modes."
  },
  {
   "property": "C43",
   "status": "proved",
   "theorems": [
    "C43_copy_without_unions",
    "C43_clients_that_rebuild_before_adding",
    "C43_duplicate_terms_refuted",
    "C43_panic_refuted"
   ],
   "note": "For hook-free analyses: when no term has two ids (shown for clients that rebuild after stating an equality), copy_without_unions succeeds and has the same ids, each alone in its class with exactly its term. The unrestricted claim is refuted: with a term added again between a union and the next rebuild the copy mis-wires terms or panics (witnesses)."
  },
  {
   "property": "C44",
   "status": "proved",
   "theorems": [
    "C44_intersection_exact",
    "C44_intersection_rebuilt",
    "C44_intersection_terminates",
    "C44_not_rebuilt_refuted"
   ],
   "note": "For a result analysis without hooks and rebuilt inputs (any analyses, hooks, explanation modes): two terms are together in the result exactly if they are together in both inputs, before and after rebuilding the result; the construction never panics and terminates. C44_not_rebuilt_refuted: for inputs that are not rebuilt terms get lost."
  },
  {
   "property": "C45",
   "status": "proved",
   "theorems": [
    "C45_union_imports",
    "C45_union_exact",
    "C45_union_keeps",
    "C45_union_terminates",
    "C45_other_terms_refuted"
   ],
   "note": "Any hooks for the import; exactness and termination for analyses without hooks. C45_other_terms_refuted: terms of the other e-graph that occur in no asserted equality are not transferred (the documentation does not promise it)."
  },
  {
   "property": "C46",
   "status": "proved",
   "theorems": [
    "C46_cycle_breaking"
   ],
   "note": "For every rebuilt reachable e-graph and every order of the classes; also: the search terminates and every reported e-node is on a cycle."
  },
  {
   "property": "C47",
   "status": "proved",
   "theorems": [
    "C47_content",
    "C47_commutes",
    "C47_same_session",
    "C47_reachable",
    "C47_order_refuted",
    "C47_discriminant_refuted"
   ],
   "note": "Translation modelled as operator/discriminant/data maps that keep children. Content preservation for any translation; translated e-graphs are reachable in the target language when the translation keeps order and discriminants, and two refuted-witness theorems show what breaks otherwise."
  },
  {
   "property": "C48",
   "status": "proved",
   "theorems": [
    "C48_visits",
    "C48_len",
    "C48_try_for_each",
    "C48_all_any",
    "C48_no_short_circuit_refuted",
    "C48_join"
   ],
   "note": "Closures are state-passing functions. The documented claim that all/any do not short-circuit is refuted by C48_no_short_circuit_refuted."
  },
  {
   "property": "C49",
   "status": "proved",
   "theorems": [
    "C49_debug_check_passes"
   ],
   "note": "any reachable clean e-graph, any hooks"
  },
  {
   "property": "C50",
   "status": "proved",
   "theorems": [
    "C50_solution_to_expression",
    "C50_smallest_with_sharing",
    "C50_lost_solution_refuted"
   ],
   "note": "The solver is external: theorems hold for every integer answer satisfying bounds and constraints (f64 rounding and near-integer answers are not modelled). C50_lost_solution_refuted: on cyclic e-graphs the problem can be unsolvable (solve panics) although the root has a term, depending on the iteration order of the classes."
  },
  {
   "property": "C51",
   "status": "proved",
   "theorems": [
    "C51_language_order",
    "C51_matches",
    "C51_from_op",
    "C51_read_back",
    "C51_read_back_refuted",
    "C51_print_parse",
    "C51_parse_exact"
   ],
   "note": "Declarations are lists of variants of the four forms of the macro with arbitrary payload parsers and printers; macro expansion itself (hygiene, generics) is not modelled. The documented contract that printed e-nodes read back is refuted in general and characterised exactly."
  },
  {
   "property": "C52",
   "status": "proved",
   "theorems": [
    "C52_truthful_programs",
    "C52_truthful_sessions",
    "C52_runs_are_sound"
   ],
   "note": "Generalises C32 to analyses with data and modify hooks. The client's obligation [truthful] is stated over API programs and what they may observe; programs that delete e-nodes are allowed in C52_truthful_programs, not in runs (rule_built)."
  },
  {
   "property": "C53",
   "status": "proved",
   "theorems": [
    "C53_explanations_pass",
    "C53_runs_record_instances",
    "C53_clients_keep_instances",
    "C53_hooks_without_unions_are_steady",
    "C53_explanations_after_a_run_pass",
    "C53_accepted_explanations_prove",
    "C53_acceptance_suffices_refuted",
    "C53_folding_hooks_pass_refuted"
   ],
   "note": "Acceptance of produced explanations (steady hooks; hooks without unions are steady), recorded steps are rule instances after every run, and soundness of acceptance under explicit conditions. Two refuted theorems: acceptance alone does not imply validity (unannotated places are not compared), and with a hook that unites while a right side is being added, check_proof refuses an explanation the e-graph produced."
  },
  {
   "property": "C54",
   "status": "proved",
   "theorems": [
    "C54_recorded_steps_pass",
    "C54_passing_proves",
    "C54_debug_runs_agree",
    "C54_debug_runs_agree_unexplained",
    "C54_folding_hooks_agree_refuted"
   ],
   "note": "The check answers true whenever the recorded steps are instances of their rules, its answer true proves equalities of equal ids, and debug and release runs agree if hooks make no unions; refuted for hooks that unite (finding 22)."
  },
  {
   "property": "C55",
   "status": "proved",
   "theorems": [
    "C55_optimised_explanations",
    "C55_unequal_ids_refused",
    "C55_num_congr",
    "C55_num_congr_counts_refuted"
   ],
   "note": "Existence, validity and repeatability for all iteration orders and heaps. One refuted theorem: get_num_congr does not count congruences as documented."
  },
  {
   "property": "C56",
   "status": "proved",
   "theorems": [
    "C56_interleaved_explanations_are_valid",
    "C56_switched_off_again",
    "C56_interleaved_equalities",
    "C56_interleaved_programs_do_not_panic",
    "C56_interleaved_explanations_do_not_panic",
    "C56_interleaved_explanations_end_refuted"
   ],
   "note": "Validity of answers and undisturbed equalities under any interleaving; one refuted theorem: an interleaved explanation can recurse forever."
  },
  {
   "property": "C57",
   "status": "proved",
   "theorems": [
    "C57_no_longer_than_unions",
    "C57_never_longer",
    "C57_never_longer_refuted"
   ],
   "note": "Two theorems, one with the hypothesis that no asserted union joins e-nodes congruent anyway, one with the hypothesis that no asserted union was redundant when made; one refuted theorem: with redundant unions an optimised explanation can be longer."
  },
  {
   "property": "C58",
   "status": "proved",
   "theorems": [
    "C58_lines_are_expressions",
    "C58_lines_read_back_refuted",
    "C58_shared_explanation",
    "C58_optimised",
    "C58_lets_are_abbreviations",
    "C58_let_text_reads_back",
    "C58_texts_determine_the_explanation",
    "C58_lines_determine_the_explanation",
    "C58_let_text_without_names_refuted",
    "C58_lines_without_names_refuted",
    "C58_shared_once_refuted",
    "C58_tree_size"
   ],
   "note": "Flat lines, let form, unambiguity of the three texts and the tree size; four refuted theorems for clashing or unparsable names and for sharing (findings 27, 28)."
  },
  {
   "property": "C59",
   "status": "proved",
   "theorems": [
    "C59_equivs",
    "C59_check_goals",
    "C59_every_class_has_a_term",
    "C59_alpha_rename",
    "C59_alpha_canonical",
    "C59_alpha_idempotent",
    "C59_alpha_parsed",
    "C59_alpha_compacted",
    "C59_alpha_terms_refuted",
    "C59_try_from",
    "C59_unique_leaves"
   ],
   "note": "equivs exact for both answers about cyclic matches; check_goals complete when cyclic matches are allowed, sound always. One refuted theorem: alpha_rename depends on the order of the nodes in the AST (finding 29)."
  },
  {
   "property": "C60",
   "status": "proved",
   "theorems": [
    "C60_run_ends",
    "C60_simple_scheduler",
    "C60_backoff_scheduler",
    "C60_programs_end",
    "C60_hooks_refuted",
    "C60_fixed_width_refuted",
    "C60_run_bound",
    "C60_program_bound"
   ],
   "note": "Totality of runs and of API programs for analyses without hooks, for all large enough widths of usize; independence of the bounds for all analyses. Two refuted theorems: hooks that call themselves, and a fixed width (finding 30)."
  },
  {
   "property": "C61",
   "status": "proved",
   "theorems": [
    "C61_classes",
    "C61_is_empty",
    "C61_nodes",
    "C61_bounds",
    "C61_total_size_refuted",
    "C61_node_limit_refuted",
    "C61_report",
    "C61_merges_reported"
   ],
   "note": "Sizes, emptiness, report and the account of merges of a run. Two _refuted theorems: total_size can exceed the number of nodes ever added, also after a rebuild, and the node limit is compared with it."
  },
  {
   "property": "C62",
   "status": "proved",
   "theorems": [
    "C62_draws",
    "C62_heads",
    "C62_faithful",
    "C62_unrebuilt_refuted",
    "C62_emptied_refuted",
    "C62_quotes_refuted"
   ],
   "note": "The text of Display for Dot, read back by a line reader. Three _refuted theorems: edges to undeclared nodes without a rebuild or with an emptied class, and unescaped labels. Files and child processes are not modelled."
  },
  {
   "property": "C63",
   "status": "proved",
   "theorems": [
    "C63_program",
    "C63_search",
    "C63_rebuilt",
    "C63_explain",
    "C63_search_loaded_refuted",
    "C63_explained_refuted"
   ],
   "note": "Saving and loading: which fields are skipped (not serde's formats). E-graphs without explanations behave alike under programs that do not look at the skipped fields; searches agree after a rebuild (order of equal hash tables is the same in the model). With explanations: explanations valid; behaviour alike is refuted. Search before the rebuild is refuted."
  },
  {
   "property": "C64",
   "status": "proved",
   "theorems": [
    "C64_sound",
    "C64_complete",
    "C64_lookup",
    "C64_canonical",
    "C64_cover",
    "C64_index",
    "C64_no_panic",
    "C64_switch_on",
    "C64_switched",
    "C64_explain"
   ],
   "note": "Lives mix programs, switching explanations and saving/loading; core exactness theorems (C06-C10, C13, C40) restated for them."
  },
  {
   "property": "C65",
   "status": "proved",
   "theorems": [
    "C65_closed_under_rewriting",
    "C65_joinable_terms_become_equal",
    "C65_cheapest_rewrite",
    "C65_saturation_decides_equality",
    "C65_both_directions"
   ],
   "note": "Closure under rewriting, joinable terms, extraction of a cheapest rewrite after saturation; equality decided for reversible unconditional rules with explanations enabled. Conditions count as provable if their sides can be rewritten to a common term. Multi-pattern rules play no part in the rewriting relation."
  },
  {
   "property": "C66",
   "status": "proved",
   "theorems": [
    "C66_equal_terms_are_derivable",
    "C66_extracted_term_is_derivable",
    "C66_saturation_decides_equality",
    "C66_reversible_rules"
   ],
   "note": "Both modes of explanations, every stop reason, every honest scheduler; rules between patterns with ConditionEqual conditions (not multi-pattern rules, not client appliers: their effect is not an equation between patterns; C32 speaks of them). The decision theorem extends the one of C65 to e-graphs without explanations and to conditional rules."
  },
  {
   "property": "C67",
   "status": "proved",
   "theorems": [
    "C67_roots",
    "C67_roots_equal",
    "C67_simplify_correct",
    "C67_simplify_total",
    "C67_no_new_operators",
    "C67_text"
   ],
   "note": "The client of tests/simple.rs for any language, rules, cost function and scheduler. Derivability as in C66 (not multi-pattern rules or client appliers). Operators with data are operators of the signature (an operator is a discriminant with its data). No hooks in the client; C67_roots allows hooks that neither union nor delete."
  },
  {
   "property": "C68",
   "status": "proved",
   "theorems": [
    "C68_pattern",
    "C68_term",
    "C68_found"
   ],
   "note": "Variable names (the code makes ?i from id i) are an arbitrary function of the id; C68_found asks that it is injective. A pattern is represented by its expression. The recursion of id_to_pattern_internal has fuel, which C68_pattern shows never runs out."
  },
  {
   "property": "C69",
   "status": "proved",
   "theorems": [
    "C69_prove_sound",
    "C69_stopped_by_hook",
    "C69_saturated_decides",
    "C69_ends"
   ],
   "note": "The core of test_runner for a new runner: the environment variables, the part about explanations (C40, C53, C57) and the benchmarking are not modelled. A search of the hook that panics counts as no match; on rebuilt e-graphs it does not panic."
  }
 ]
}