{"id": "C01", "title": "find returns a canonical representative", "statement": "After any sequence of make_set/union/find/find_mut calls, find(x) terminates on every id handed out, returns an id r with find(r)=r, and two ids have the same representative exactly when a chain of unions connects them.", "quantifier": "all finite sequences of union-find calls whose union arguments are roots, all ids", "why_tests_cant": "The parent array can take unboundedly many shapes; a test only sees a few chains and cannot exclude a cycle or a wrong root on some other history.", "anchors": ["src/unionfind.rs: UnionFind::make_set, find, find_mut, union"]}
{"id": "C02", "title": "path compression is invisible", "statement": "find_mut(x) returns the same id as find(x), and after it every id has exactly the representative it had before.", "quantifier": "all reachable union-find states and all ids", "why_tests_cant": "Path halving rewrites arbitrary interior links; an error would show up only for particular depths and later queries.", "anchors": ["src/unionfind.rs: UnionFind::find_mut"]}
{"id": "C03", "title": "union merges exactly the two classes named", "statement": "EGraph::union(a,b) afterwards makes find(a)=find(b), returns true exactly when they were different before, and (before rebuild, without analysis hooks) merges no other pair of classes.", "quantifier": "all reachable e-graphs, all pairs of valid ids", "why_tests_cant": "Needs every e-graph state and every third id that must be unaffected.", "anchors": ["src/egraph.rs: EGraph::union, perform_union"]}
{"id": "C04", "title": "equalities are never forgotten", "statement": "Once find(a)=find(b) holds it keeps holding under every later add, union, rebuild or analysis hook; ids stay valid forever.", "quantifier": "all reachable e-graphs, all continuations of API calls (including calls made by analysis hooks)", "why_tests_cant": "Histories are unbounded.", "anchors": ["src/egraph.rs: EGraph::add, union, rebuild, find"]}
{"id": "C05", "title": "hash-consing: adding the same node twice gives the same class", "statement": "Adding an e-node, and then adding any e-node with the same operator and pairwise equal children classes, yields ids of the same class; no new class is created by the second add.", "quantifier": "all reachable e-graphs, all e-nodes with valid children", "why_tests_cant": "Depends on the memo being right for every possible earlier history, including histories with stale memo keys.", "anchors": ["src/egraph.rs: EGraph::add, add_uncanonical, lookup, make_new_eclass"]}
{"id": "C06", "title": "lookup agrees with add", "statement": "lookup(n) returns Some(id) right after add(n) returned id's class; and in a rebuilt e-graph lookup(n)=Some(c) exactly when some e-node congruent to n is present, in which case c is its class and add(n) would create no class.", "quantifier": "all reachable (rebuilt) e-graphs, all e-nodes", "why_tests_cant": "Absence of hits on stale hash-cons keys must hold for all histories.", "anchors": ["src/egraph.rs: EGraph::lookup, lookup_internal, add"]}
{"id": "C07", "title": "rebuild computes exactly the congruence closure: soundness", "statement": "At every moment, ids a and b are in the same class only if a=b follows from the unions the client (or hooks) asserted by reflexivity, symmetry, transitivity and congruence over the e-nodes added.", "quantifier": "all API histories, all pairs of ids", "why_tests_cant": "A spurious merge needs only one bad history; tests cannot enumerate them.", "anchors": ["src/egraph.rs: perform_union, process_unions, rebuild"]}
{"id": "C08", "title": "rebuild computes exactly the congruence closure: completeness", "statement": "After rebuild returns, every equality that follows from the asserted unions by congruence over the added e-nodes is reflected by find.", "quantifier": "all API histories ending in rebuild, all pairs of ids, any analysis", "why_tests_cant": "A missed upward merge depends on worklist order and parent-list bookkeeping over arbitrary histories.", "anchors": ["src/egraph.rs: process_unions, perform_union (parents, pending), make_new_eclass, rebuild"]}
{"id": "C09", "title": "rebuilt classes are canonical, deduplicated and disjoint", "statement": "After rebuild every class lists its e-nodes sorted, without duplicates and with canonical children, each e-node occurs in exactly one class, and the classes partition the set of e-nodes added (modulo canonicalisation).", "quantifier": "all API histories ending in rebuild", "why_tests_cant": "Global property of the whole class table for all histories.", "anchors": ["src/egraph.rs: rebuild_classes, classes, check_memo, Index"]}
{"id": "C10", "title": "operator index is exact after rebuild", "statement": "After rebuild, classes_for_op(op) lists exactly the ids of classes containing an e-node with that discriminant.", "quantifier": "all API histories ending in rebuild, all discriminants", "why_tests_cant": "An incomplete index silently loses matches for specific histories only.", "anchors": ["src/egraph.rs: rebuild_classes, classes_for_op"]}
{"id": "C11", "title": "rebuild is idempotent and its count is right", "statement": "The number returned by rebuild is the number of classes it merged (hook-free analysis), and rebuilding a rebuilt e-graph merges nothing, returns 0 and leaves classes unchanged.", "quantifier": "all API histories", "why_tests_cant": "Counting error or missed fixpoint depends on the history.", "anchors": ["src/egraph.rs: rebuild, process_unions, number_of_classes"]}
{"id": "C12", "title": "rebuild terminates", "statement": "rebuild terminates on every reachable e-graph for the unit analysis, and for every hook-free analysis whose merge climbs a well-founded order.", "quantifier": "all reachable e-graphs", "why_tests_cant": "Termination is not testable.", "anchors": ["src/egraph.rs: process_unions"]}
{"id": "C13", "title": "no internal panic on valid use", "statement": "add, union, lookup, find and rebuild never hit an internal assertion or missing-class panic when given ids previously returned by the e-graph.", "quantifier": "all API histories with valid ids, any analysis hooks", "why_tests_cant": "Any single panicking history would falsify it.", "anchors": ["src/egraph.rs: get_class_mut, make_new_eclass assert, Index/IndexMut, perform_union"]}
{"id": "C14", "title": "analysis data is an upper bound of its e-nodes after rebuild", "statement": "After rebuild, for a lattice analysis (merge = join reporting changes truthfully), every class's data is above make(n) for every e-node n added into the class.", "quantifier": "all API histories ending in rebuild, all lattice analyses without data-changing hooks", "why_tests_cant": "Requires that every data change be propagated to all parents through the deduplicating work queue.", "anchors": ["src/egraph.rs: process_unions (analysis_pending), perform_union, make_new_eclass, set_analysis_data; src/language.rs: Analysis, DidMerge"]}
{"id": "C15", "title": "analysis data is the least fixpoint", "statement": "If make is monotone then after rebuild the data assignment is the least one satisfying C14's inequalities for the final classes; hence it does not depend on the order of operations.", "quantifier": "all API histories ending in rebuild", "why_tests_cant": "Order-independence quantifies over all histories.", "anchors": ["src/egraph.rs: process_unions; src/language.rs: Analysis"]}
{"id": "C16", "title": "provided merge helpers obey the DidMerge contract", "statement": "merge_max, merge_min and merge_option store the max/min/option-join and their DidMerge flags are true exactly when the result differs from the first/second argument; DidMerge | is pointwise or.", "quantifier": "all argument values of any ordered type", "why_tests_cant": "Infinite value space.", "anchors": ["src/language.rs: merge_max, merge_min, merge_option, DidMerge BitOr"]}
{"id": "C17", "title": "analysis work queue is a duplicate-free FIFO", "statement": "A UniqueQueue behaves as a first-in first-out queue in which an element already waiting is not inserted again; nothing inserted is lost.", "quantifier": "all sequences of insert/extend/pop", "why_tests_cant": "Unbounded operation sequences.", "anchors": ["src/util.rs: UniqueQueue"]}
{"id": "C18", "title": "e-matching is sound", "statement": "Every substitution returned by searching a pattern in a class of a rebuilt e-graph instantiates the pattern to a term represented in that class, and binds every pattern variable.", "quantifier": "all reachable rebuilt e-graphs, all patterns, all classes, every order the pattern compiler may choose", "why_tests_cant": "All patterns x all e-graphs x compiler orders.", "anchors": ["src/machine.rs: Machine::run, Compiler::compile, Program::run_with_limit; src/pattern.rs: search_eclass_with_limit"]}
{"id": "C19", "title": "e-matching is complete", "statement": "If a pattern instance under a substitution of canonical classes is represented in a class of a rebuilt e-graph, searching that class returns that substitution; searching the whole e-graph returns every such class.", "quantifier": "all reachable rebuilt e-graphs, patterns, classes and substitutions, every compiler order", "why_tests_cant": "Same as C18; missing matches are silent.", "anchors": ["src/machine.rs; src/pattern.rs: search_with_limit; src/eclass.rs: for_each_matching_node"]}
{"id": "C20", "title": "e-matching returns no duplicates", "statement": "A search of one class returns each substitution at most once, and a search of the e-graph returns each class at most once.", "quantifier": "all reachable rebuilt e-graphs, patterns", "why_tests_cant": "Depends on canonical deduplicated class contents for every history.", "anchors": ["src/machine.rs; src/pattern.rs"]}
{"id": "C21", "title": "search limits only truncate", "statement": "Searching with limit k returns a prefix of the unlimited result, with exactly min(k,total) substitutions.", "quantifier": "all programs, e-graphs, limits", "why_tests_cant": "All limits and all e-graphs.", "anchors": ["src/machine.rs: run_with_limit; src/rewrite.rs: search_eclasses_with_limit; src/pattern.rs"]}
{"id": "C22", "title": "the fast path of node matching is equivalent to the slow path", "statement": "for_each_matching_node visits the same e-nodes in the same order whether it uses the linear scan (small classes) or binary search (50 or more nodes), for every class of a rebuilt e-graph.", "quantifier": "all sorted classes of any size, all pattern nodes", "why_tests_cant": "The binary-search path only triggers on large classes with particular layouts.", "anchors": ["src/eclass.rs: EClass::for_each_matching_node"]}
{"id": "C23", "title": "extraction returns a minimum-cost represented term", "statement": "For a monotone cost function find_best(id) returns a term represented in id's class, whose cost_rec equals the reported cost, and no represented term of the class costs less.", "quantifier": "all e-graphs with rebuilt classes, all monotone cost functions, all iteration orders of the class table", "why_tests_cant": "Optimality quantifies over the (infinite) set of represented terms.", "anchors": ["src/extract.rs: Extractor::find_costs, make_pass, find_best, node_total_cost, cost_rec; src/language.rs: build_recexpr"]}
{"id": "C24", "title": "extraction terminates and never loops on cyclic classes", "statement": "The cost fixpoint terminates, assigns a cost to exactly the classes that represent a finite term, and rebuilding the term terminates even when classes are cyclic and even for a cost function that is only weakly monotone (cost not below any child's), such as saturating AstSize.", "quantifier": "all e-graphs, all cost functions into a well-founded order, all iteration orders", "why_tests_cant": "Cycles plus saturated costs need particular graphs; termination is not testable.", "anchors": ["src/extract.rs: find_costs, find_best; src/language.rs: try_build_recexpr; AstSize"]}
{"id": "C25", "title": "AstSize and AstDepth measure size and depth", "statement": "AstSize.cost_rec equals the number of nodes of the term's tree (saturating at the maximum) and AstDepth.cost_rec the height of the tree.", "quantifier": "all expressions", "why_tests_cant": "All expressions.", "anchors": ["src/extract.rs: AstSize, AstDepth, CostFunction::cost_rec"]}
{"id": "C26", "title": "expressions added can be looked up and are represented", "statement": "add_expr(e) returns a class in which e is represented; lookup_expr(e) then returns that class; in a rebuilt e-graph lookup_expr(e) is Some exactly when e is represented.", "quantifier": "all e-graph histories, all expressions", "why_tests_cant": "All expressions and histories.", "anchors": ["src/egraph.rs: add_expr, add_expr_uncanonical, lookup_expr, lookup_expr_ids"]}
{"id": "C27", "title": "RecExpr manipulation preserves the term", "statement": "compact, extract(root), build_recexpr, join_recexprs and substitution of the root's children denote the same tree as their inputs and produce valid DAGs (children before parents).", "quantifier": "all well-formed expressions and indices", "why_tests_cant": "All DAG shapes with arbitrary sharing.", "anchors": ["src/language.rs: RecExpr::compact, extract, is_dag, Language::build_recexpr, try_build_recexpr, join_recexprs"]}
{"id": "C28", "title": "printing and parsing round-trip", "statement": "Parsing the printed form of an expression (Display or pretty at any width) or of a pattern gives back an expression denoting the same term, when operator names are names the printer can write; the parser accepts exactly the written s-expressions and always answers except on lists headed by an empty list.", "quantifier": "all expressions", "why_tests_cant": "All expressions / strings.", "anchors": ["src/language.rs: RecExpr Display, FromStr, to_sexp; src/sexp.rs"]}
{"id": "C29", "title": "pattern variables and substitutions behave like a map", "statement": "Subst::insert/get obey map laws (last binding wins, old value returned, others untouched); Var parsing accepts exactly the texts made of a question mark and a non-empty rest, where a rest starting with # must go on with a 32-bit decimal number, and printing a parsed variable then parsing gives it back.", "quantifier": "all substitutions, variables, names", "why_tests_cant": "All values.", "anchors": ["src/subst.rs: Subst, Var::from_str, Display"]}
{"id": "C30", "title": "rules with unbound right-hand variables are rejected, accepted rules never panic on them", "statement": "Rewrite::new returns an error exactly when the applier mentions a variable the searcher does not bind, and applying an accepted pattern rule to its own matches never fails on a missing variable.", "quantifier": "all searcher/applier patterns, all e-graphs and matches", "why_tests_cant": "All patterns.", "anchors": ["src/rewrite.rs: Rewrite::new; src/pattern.rs: apply_pat, Searcher::vars, Applier::vars"]}
{"id": "C31", "title": "applying a rule equates exactly the instances", "statement": "Applying a pattern rule to a match adds the right-hand instance and unions it with the matched class: afterwards the instance of both sides under that substitution are represented in the same class.", "quantifier": "all e-graphs, rules, matches", "why_tests_cant": "All rules and e-graphs.", "anchors": ["src/pattern.rs: apply_matches, apply_one, apply_pat; src/rewrite.rs"]}
{"id": "C32", "title": "equality saturation is equationally sound", "statement": "After any number of Runner iterations with pattern rules, any two terms represented in one class are equal in every algebra that satisfies the rules and the initial unions.", "quantifier": "all rule sets, start terms, schedulers, iteration counts, all algebras", "why_tests_cant": "Quantifies over all runs and all models.", "anchors": ["src/run.rs: Runner::run, run_one; src/pattern.rs; src/egraph.rs"]}
{"id": "C33", "title": "Saturated means saturated", "statement": "If the runner (no hooks, scheduler that never skips, no custom hooks) stops with StopReason::Saturated then every match of every rule in the final e-graph is already an equality: applying any rule once more changes no class.", "quantifier": "all rule sets and start e-graphs", "why_tests_cant": "All runs.", "anchors": ["src/run.rs: run_one, can_be_saturated, check_limits"]}
{"id": "C34", "title": "runner limits and bookkeeping", "statement": "Runner::run always ends with a stop_reason when an iteration limit is set; performs at most max(1,iter_limit) iterations; reports iteration, node and time limit exactly under the documented comparisons; IterationLimit i reports the limit.", "quantifier": "all rule sets, e-graphs, limits, clocks", "why_tests_cant": "All runs.", "anchors": ["src/run.rs: Runner::run, RunnerLimits::check_limits"]}
{"id": "C35", "title": "backoff scheduler bookkeeping", "statement": "A rule is searched with limit threshold+1; it is banned exactly when its matches exceed match_limit*2^times_banned (while this fits the word); a banned rule yields no matches until banned_until; can_stop is true only when no rule is banned and otherwise unbans at least one rule, so banned rules are eventually retried.", "quantifier": "all sequences of searches, all limits", "why_tests_cant": "All sequences of iterations.", "anchors": ["src/run.rs: BackoffScheduler::search_rewrite, can_stop, rule_stats"]}
{"id": "C36", "title": "conditional rules fire only when the condition holds", "statement": "ConditionalApplier applies the inner applier exactly when the condition returns true; ConditionEqual is true only if both instances are in the same class.", "quantifier": "all e-graphs, substitutions, conditions", "why_tests_cant": "All e-graphs.", "anchors": ["src/rewrite.rs: ConditionalApplier, ConditionEqual"]}
{"id": "C37", "title": "multi-patterns match the conjunction and apply bindings in order", "statement": "A multipattern search returns exactly the substitutions satisfying all clauses, patterns bound to the same variable being in the same class.", "quantifier": "all multipatterns, rebuilt e-graphs, compiler orders", "why_tests_cant": "All patterns and e-graphs.", "anchors": ["src/multipattern.rs; src/machine.rs: compile_from_multi_pat"]}
{"id": "C38", "title": "explanations mode does not change equalities", "statement": "With explanations enabled, the equivalences of rebuilt e-graphs are the same congruence closure as without.", "quantifier": "all API histories", "why_tests_cant": "All histories.", "anchors": ["src/egraph.rs: add_uncanonical, perform_union; src/explain.rs"]}
{"id": "C39", "title": "the explanation forest mirrors the classes", "statement": "With explanations enabled two ids are connected in the proof forest exactly when they are in the same class; each edge is either an asserted union with its rule or a congruence between same-operator nodes with pairwise equal children.", "quantifier": "all API histories", "why_tests_cant": "All histories.", "anchors": ["src/explain.rs: Explain::add, union, make_leader"]}
{"id": "C40", "title": "explanations are valid proofs", "statement": "explain_equivalence of two equal terms yields a proof whose first term is the left one, last the right one, and each step is one asserted union/rule application or a congruence on proofs about children; it never loops or panics. explain_matches of an expression and a pattern equal to it under a substitution yields such a proof whose last term is the pattern with one term of its class for each variable (if adding an e-node merges no classes).", "quantifier": "all API histories, all pairs of equal ids", "why_tests_cant": "All histories; well-foundedness of recursive congruence proofs is not testable.", "anchors": ["src/explain.rs: explain_enodes, get_path_unoptimized, common_ancestor, explain_adjacent; Explanation::check_proof", "src/egraph.rs: explain_equivalence, explain_id_equivalence, explain_matches"]}
{"id": "C41", "title": "flattened explanations change one rewrite at a time", "statement": "In a flat explanation each consecutive pair of terms differs by exactly one annotated rewrite, and stripping annotations from first/last gives the explained terms.", "quantifier": "all tree explanations", "why_tests_cant": "All proofs.", "anchors": ["src/explain.rs: flatten_proof, flatten_explanation, combine_rewrites, get_sexp, has_rewrite_forward/backward"]}
{"id": "C42", "title": "id_to_expr returns the term that was added", "statement": "With explanations enabled, id_to_expr(add_expr_uncanonical(e)) denotes e, forever; the term of any id is represented in its class.", "quantifier": "all API histories", "why_tests_cant": "All histories.", "anchors": ["src/egraph.rs: id_to_expr, add_expr_uncanonical; src/explain.rs: node_to_explanation"]}
{"id": "C43", "title": "copy_without_unions forgets exactly the unions", "statement": "copy_without_unions produces an e-graph representing all the terms with two terms equal only if identical.", "quantifier": "all e-graphs with explanations", "why_tests_cant": "All histories.", "anchors": ["src/egraph.rs: copy_without_unions"]}
{"id": "C44", "title": "e-graph intersection", "statement": "After g.egraph_intersect-style construction, two terms are equal in the result only if they are equal in both inputs; terms represented in both inputs and added are represented.", "quantifier": "all pairs of e-graphs", "why_tests_cant": "All pairs of e-graphs.", "anchors": ["src/egraph.rs: egraph_intersect, intersect_classes"]}
{"id": "C45", "title": "egraph_union imports all equalities", "statement": "After egraph_union(other), every equality asserted in other holds between the corresponding terms.", "quantifier": "all pairs of e-graphs with explanations", "why_tests_cant": "All pairs.", "anchors": ["src/egraph.rs: egraph_union; src/explain.rs: get_union_equalities"]}
{"id": "C46", "title": "ILP extraction cycle breaking", "statement": "The pairs reported by the cycle finder hit every cycle among classes, so any selection avoiding them is acyclic.", "quantifier": "all e-graphs, all iteration orders", "why_tests_cant": "All graphs.", "anchors": ["src/lp_extract.rs: find_cycles"]}
{"id": "C47", "title": "LanguageMapper preserves structure", "statement": "Mapping an e-graph through an operator translation keeps ids, equalities and class contents (translated).", "quantifier": "all e-graphs and injective operator maps", "why_tests_cant": "All e-graphs.", "anchors": ["src/egraph.rs: LanguageMapper, SimpleLanguageMapper"]}
{"id": "C48", "title": "Language default helpers agree with children()", "statement": "for_each, fold, all, any, len, is_leaf, map_children and update_children visit the children left to right exactly once.", "quantifier": "all nodes, all closures", "why_tests_cant": "All closures.", "anchors": ["src/language.rs: Language"]}
{"id": "C49", "title": "rebuild's own debug consistency check never fails", "statement": "The check_memo assertion that debug builds run at the end of rebuild (each listed e-node is in the memo table and maps to its class; no e-node in two classes; class ids right) passes on every reachable rebuilt e-graph.", "quantifier": "all API histories, any analysis hooks, explanations on or off", "why_tests_cant": "A debug assertion in a test run covers only that run.", "anchors": ["src/egraph.rs: check_memo, rebuild"]}
{"id": "C50", "title": "ILP extraction returns a term of the root with sharing counted once", "statement": "Given any answer of the solver that satisfies the problem it is handed, LpExtractor::solve_multiple returns, without panicking, an acyclic expression with one node per class whose root entries are terms of the root classes, costing at most the objective; with an optimal answer nothing admitted by the problem is cheaper, and on acyclic e-graphs with AstSize nothing smaller exists at all.", "quantifier": "all rebuilt e-graphs, all class orders, all solver answers, all non-negative costs", "why_tests_cant": "The tests use three small acyclic e-graphs and one solver.", "anchors": ["src/lp_extract.rs: LpExtractor::solve_multiple, build_ilp_model, add_constraints, extract_solution"]}
{"id": "C51", "title": "Languages made by define_language! meet the conditions of the e-graph and read back what they print", "statement": "For the enum made by define_language!, whatever variants it declares: the derived order is total and keeps equal discriminants together (what searching a class by operator relies on); matches holds exactly for the same variant and payload with equally many children; from_op never panics, gives the first variant in order of declaration that takes the name with that many children, and fails exactly if there is none. An e-node is read back from its printed operator and children exactly if its payload reads back and no variant declared earlier takes the text; so Var(Symbol) values that look like numbers do not read back in a language with Num before Var. Expressions all of whose e-nodes read back survive printing and parsing.", "quantifier": "all declarations (any list of variants of the four forms, any payload types), all e-nodes, names, child lists and expressions", "why_tests_cant": "a test fixes one enum; which variant captures a name depends on the declaration order and on the parsers of all earlier payload types", "anchors": ["src/macros.rs: define_language!, __define_language!", "src/language.rs: FromOp, LanguageChildren"]}
{"id": "C52", "title": "A sound analysis stays sound, and rewriting with it stays sound", "statement": "If make, remake and merge of an analysis only say true things about an algebra (given true data for the children), its modify hook only asserts true facts, and rules are true in the algebra - where conditions and custom appliers may read the data and call the API - then at every point the data of each class are true of the value of every term in it, ids of one class have equal values, and a run of the runner preserves this. Constant folding is an instance.", "quantifier": "all algebras, analyses, hooks, rules (patterns, multi-patterns, conditions, custom appliers), schedulers, limits, runner hooks, e-graphs and client programs", "why_tests_cant": "data are recomputed, merged and acted upon in an order that depends on the whole history; a wrong intermediate datum need not be visible in any one test", "anchors": ["src/language.rs: Analysis", "src/egraph.rs: add, perform_union, process_unions, rebuild, set_analysis_data", "src/rewrite.rs: Applier, Condition", "src/run.rs: Runner::run"]}
{"id": "C53", "title": "Explanations pass the library's own check against the rules, and passing means something", "statement": "After any run with explanations on, Explanation::check_proof with the rules of the run accepts (does not panic on) the explanation of any two equal ids, since what the runner records under a rule's name is an instance of that rule's two patterns. Conversely, if every annotation names a rule between patterns and consecutive terms agree outside annotated places, an accepted explanation proves its last term equal to its first by instances of the rules and congruence.", "quantifier": "all e-graphs, rule sets (patterns, conditions, custom appliers, multi-patterns), schedulers, limits, hooks that make no unions, and all explanations", "why_tests_cant": "a test checks the explanations it asks for; whether the recorded step is an instance depends on how adding the two sides interleaves with hooks and on which id a variable is read as", "anchors": ["src/explain.rs: Explanation::check_proof, check_rewrite_at, check_rewrite, FlatTerm::rewrite, make_bindings, from_pattern, make_rule_table", "src/egraph.rs: union_instantiations, add_instantiation_noncanonical", "src/rewrite.rs: Rewrite::apply", "src/run.rs: Runner::run"]}
{"id": "C54", "title": "The runner's debug check of the recorded steps", "statement": "EGraph::check_each_explain(rules) answers true on every e-graph in which what was united under the name of a rule is an instance of that rule's two patterns; it does not panic. If it answers true and every reason ever given is the name of a rule between patterns, the terms of any two equal ids are equal by instances of the rules and congruence. Since debug builds of the Runner assert it after every iteration, a debug build and a release build of the same run behave the same, provided analysis hooks make no unions and hooks and client appliers give reasons of their own. (With hooks that unite while a right-hand side is being added they do not: the debug build can panic.)", "quantifier": "for all languages, analyses, e-graphs reached by API calls with explanations enabled, rule sets accepted by Rewrite::new, schedulers, limits, hooks and runs", "why_tests_cant": "tests run one build on a few rule sets; the agreement of two builds and the strength of the check are statements over all runs", "anchors": ["src/explain.rs: check_each_explain, node_to_flat_explanation, check_rewrite, make_rule_table", "src/egraph.rs: EGraph::check_each_explain", "src/run.rs: Runner::run_one (debug_assert!)"]}
{"id": "C55", "title": "Explanations with the length optimiser on", "statement": "With optimize_explanation_lengths on (the default), explaining two ids of one class succeeds: the optimiser neither panics nor runs forever, whatever the iteration order of hash maps and whatever entry of least cost the heap returns, and what is answered proves the first term equal to the second from the asserted equalities. This holds again after any number of such explanations, which change nothing but an internal memo. Two ids of different classes are refused. get_num_congr always answers a number (though not the documented count of congruences: an e-graph with one e-node has one).", "quantifier": "for all languages, analyses, e-graphs reached by API calls with explanations enabled, orders of iteration, heaps, pairs of equal ids, and sequences of explanations in between", "why_tests_cant": "the optimiser is a heuristic with truncation constants, a shortest path search, an offline ancestor table and stale memo entries; tests exercise a few graphs and one hash order, while termination and validity are claims over all of them", "anchors": ["src/explain.rs: explain_equivalence, calculate_shortest_explanations, greedy_short_explanations, shortest_path_modulo_congruence, find_congruence_neighbors, calculate_common_ancestor, tarjan_ocla, distance_between, populate_path_length, get_num_congr", "src/egraph.rs: explain_id_equivalence, get_num_congr, with_explanation_length_optimization"]}
{"id": "C56", "title": "Explanations interleaved with other operations", "statement": "When additions, unions and rebuilds are interleaved in any order with explanations made with the length optimiser on, every explanation that is answered, with the optimiser on or off, is a proof of the term of the first id equal to the term of the second from the asserted equalities; equalities between ids are the same as without the explanations, and no other operation is made to panic. Asking for an explanation of two equal ids either gives one or does not end. (It may not end: an explanation can leave memo entries which, after the e-graph has grown, lead a later explanation in a circle.)", "quantifier": "for all languages, analyses, orders of iteration, heaps and interleavings of API calls with explanation requests", "why_tests_cant": "the memo of an earlier explanation is consulted after arbitrary later growth of the e-graph; tests explain once at the end of a run", "anchors": ["src/explain.rs: shortest_explanation_memo, explain_enodes, get_path, get_path_unoptimized, populate_path_length, calculate_shortest_explanations", "src/egraph.rs: explain_id_equivalence, explain_equivalence"]}
{"id": "C57", "title": "The length optimiser shortens explanations", "statement": "The length of an explanation is the number of terms of its flat form. With the length optimiser on, the explanation answered for two ids has no more steps than the shortest chain of asserted unions between them, provided no asserted union joined two e-nodes congruence joins anyway. Provided no asserted union was redundant when it was made, it is never longer than the explanation answered with the optimiser off. Both hold after any number of earlier explanations. (With redundant unions the second claim is false: an optimised explanation can be longer than the one it replaces.)", "quantifier": "for all languages, analyses, e-graphs reached by API calls with explanations enabled, sequences of earlier explanations, orders of iteration, heaps and pairs of equal ids", "why_tests_cant": "the optimiser minimises estimates (forest distances of children) truncated by constants, and what it stores is read back through caches; tests compare two lengths on a handful of graphs", "anchors": ["src/explain.rs: calculate_shortest_explanations, greedy_short_explanations, shortest_path_modulo_congruence, distance_between, congruence_distance, populate_path_length, get_path, get_neighbor, shortest_explanation_memo", "src/egraph.rs: with_explanation_length_optimization, without_explanation_length_optimization, explain_id_equivalence"]}
{"id": "C58", "title": "Printed explanations say what the explanation is", "statement": "The first line of a flat explanation is the text of the left expression, and every line gives back (get_recexpr) an expression of its term, if operator names print and parse. The tree form with lets is an abbreviation of the tree form without: replacing the bound names gives exactly the tree form, also after the pretty-printed text is parsed again, if no operator or rule is called v_0, v_1, .... Each of the three texts determines the explanation (operators, rules and places) if names can be read back and do not coincide with the words the printer uses. The tree size is the number of different connections made by rules in the explanation, below the number of lines. (Without the conditions on names all three are false: texts coincide, and reading a line back panics; and a let does not make every shared term be written once.)", "quantifier": "for all languages, names of operators and rules, e-graphs, equal ids, and explanations produced by them (with or without the length optimiser)", "why_tests_cant": "sharing depends on pointer identity of terms produced through two caches; a clash of names needs an operator called like a bound variable or a marker, which no test has", "anchors": ["src/explain.rs: Explanation::get_flat_strings, get_flat_string, get_string, get_string_with_let, get_sexp, get_sexp_with_let, find_to_let_bind, get_tree_size, tree_size, TreeTerm::get_sexp_with_bindings, FlatTerm::get_sexp, FlatTerm::get_string, FlatTerm::get_recexpr, node_to_explanation, explain_adjacent, explain_enodes"]}
{"id": "C59", "title": "Queries say what is in the e-graph; alpha-renaming is canonical", "statement": "equivs on a rebuilt e-graph returns exactly the one class that represents both expressions, or nothing when no class does, whatever the analysis says about cyclic matches. check_goals returns when every goal pattern has an instance in the class of the id, and never returns when one of them has none (it panics, and the extraction for its message succeeds: every class holds a finite term). alpha_rename never panics, renames different variables to different variables, is idempotent, and gives two pattern ASTs the same result exactly when they are renamings of each other; for patterns parsed from text, as they are or compacted, exactly when the pattern terms are. (For ASTs that list the nodes of the same term in another order it gives different results.) Turning a pattern into an expression succeeds exactly on patterns without variables and otherwise reports the first one. assert_unique_leaves panics exactly on classes with two different leaves.", "quantifier": "for all languages, rebuilt e-graphs never pruned, expressions, goal patterns, ids, iteration orders, pattern ASTs and texts", "why_tests_cant": "exactness of an answer on all e-graphs, and a statement about all pairs of patterns, cannot be sampled; tests call equivs on one saturated graph", "anchors": ["src/egraph.rs: EGraph::equivs, EGraph::check_goals", "src/pattern.rs: PatternAst::alpha_rename, From<RecExpr> for Pattern, TryFrom<PatternAst> for RecExpr", "src/eclass.rs: EClass::leaves, EClass::assert_unique_leaves"]}
{"id": "C60", "title": "A run ends with a stop reason and without panicking", "statement": "Runner::run, with rules accepted by Rewrite::new, hooks that only use ids they know and rebuild what they change, an analysis without modify whose merges cannot go on for ever, and the simple or backoff scheduler (or any scheduler that answers with matches searching can find), returns: no loop of rebuild, search, application or the runner itself goes on for ever, nothing panics, and there is a stop reason. The same holds for any sequence of API calls on known ids. How much longer the loops would have been allowed to run does not change the outcome. (An analysis whose modify sets the data of its own class never returns from add. The numbers must fit the machine word: for every width of usize there is a run under the backoff scheduler, of a rule with match limit 0, that panics after as many iterations as there are bits.)", "quantifier": "for all languages, reachable e-graphs never pruned, with and without explanations, rules, hooks, limits, clocks, scheduler states, hash orders and all large enough widths of usize", "why_tests_cant": "termination and absence of panics on all inputs cannot be observed by running finitely many; the panic after 64 bans needs a run longer than the ones in the tests", "anchors": ["src/run.rs: Runner::run, Runner::run_one, SimpleScheduler, BackoffScheduler::search_rewrite, BackoffScheduler::can_stop", "src/egraph.rs: EGraph::rebuild, EGraph::set_analysis_data", "src/rewrite.rs: Rewrite::new, Rewrite::apply"]}
{"id": "C61", "title": "The sizes count what they say, and the report of a run accounts for every merge", "statement": "number_of_classes is at every moment the number of different answers of find; is_empty holds exactly when nothing was added; after a rebuild total_number_of_nodes is the number of nodes with canonical children that lookup finds, at least the number of classes and at most the number of ids handed out and total_size. total_size is the size of the index and can exceed even the number of nodes ever added, so that a run can stop with NodeLimit although no more nodes than the limit were ever added. The report of a finished run can be made without panic and its numbers count just these things. The applications and rebuild merges that the iterations report, with the merges of the first rebuild, are exactly the difference between ids handed out and loss of classes: no merge is left out or counted twice.", "quantifier": "for all languages, reachable e-graphs, rules, hooks, limits, clocks and schedulers; the count of nodes and the report for e-graphs never pruned; the account of merges without explanations, for rules made of patterns and hooks that only look", "why_tests_cant": "a count is a statement on all nodes and classes of all reachable e-graphs; a merge counted twice or missed changes no equality a test compares", "anchors": ["src/egraph.rs: EGraph::is_empty, EGraph::total_size, EGraph::total_number_of_nodes, EGraph::number_of_classes", "src/run.rs: Runner::report, Report, Iteration::applied, Iteration::n_rebuilds, Runner::check_limits"]}
{"id": "C62", "title": "The GraphViz output draws the e-graph", "statement": "Dot writes its text without panic, and reading the text gives one cluster per class, one declared node per e-node labelled with its operator, and for every child position of every node exactly one edge, clipped at the cluster of the child's class and showing the position by its port or a number. After a rebuild, unless a class was emptied by hand, every edge ends at a declared node of that cluster (a self edge at the node itself), and the text determines the classes and their nodes. Without a rebuild, or after emptying a class, an edge can end at an undeclared node; labels are not escaped, so with quotes in operator names different e-graphs can have the same text.", "quantifier": "for all languages, reachable e-graphs with and without explanations, orders of the class table, harmless lines of configuration, with and without anchors; operator names without quote, backslash and newline", "why_tests_cant": "that a text can be read back is a statement about all e-graphs and names; the tests only write files and never read them", "anchors": ["src/dot.rs: Dot, Display for Dot, Dot::edge, Dot::with_config_line, Dot::with_anchors", "src/egraph.rs: EGraph::dot"]}
{"id": "C63", "title": "Saving and loading an e-graph is not noticed after the rebuild the documentation asks for", "statement": "An e-graph without explanations, saved at any moment and loaded again, behaves like the original under every sequence of additions, unions, changes of analysis data, deletions of nodes and rebuilds: same answers, same panics, same classes. After a rebuild every pattern and multi-pattern search finds the same matches; an e-graph saved after a rebuild is the same again, with the same index, after the loaded one is rebuilt, which makes no unions. With explanations the loaded e-graph still has a valid explanation for every equality. Before the rebuild a search on the loaded e-graph can silently find nothing; with explanations an equality stated again is recorded twice.", "quantifier": "for all languages, analyses and programs that do not look at the skipped fields, all e-graphs (rebuilt or not) and patterns; serde's own formats are not modelled", "why_tests_cant": "equality of all later behaviours is a statement about unboundedly many programs; the one test writes a three-node e-graph and never loads it", "anchors": ["src/egraph.rs: EGraph (serde attributes), default_classes_by_op, vectorize", "src/explain.rs: Explain (serde attributes)"]}
{"id": "C64", "title": "Switching explanations, saving and loading never break an e-graph", "statement": "For an e-graph made by any sequence of client programs, switching explanations on (where allowed) and off, saving and loading: ids are equal only if this follows from the additions and unions by congruence, after a rebuild exactly then; lookup, class contents, the index by operators are exact after a rebuild; programs with known ids do not panic; while explanations are on, every equality has a valid explanation. Switching explanations on panics exactly if they are off and something was added.", "quantifier": "for all languages, analyses, and all finite sequences of programs, switches, saves and loads", "why_tests_cant": "sequences mixing the modes are unboundedly many; the tests never switch explanations off on an e-graph with contents, and never load one", "anchors": ["src/egraph.rs: EGraph::with_explanations_enabled, EGraph::with_explanations_disabled, EGraph::are_explanations_enabled, EGraph (serde attributes)", "src/explain.rs: Explain (serde attributes)"]}
{"id": "C65", "title": "Saturated runs are closed under rewriting, and extraction then finds the cheapest rewrite", "statement": "If Runner::run stops with Saturated (with a scheduler that drops no matches when it agrees to stop, rules made of patterns perhaps with ConditionEqual conditions, an analysis without modify hooks), then every e-class that represents a term represents every term obtained from it by rewriting with the rules anywhere in the term, in any number of steps; a conditional rule may be used when both sides of its conditions can be rewritten to a common term. Hence two terms added before the run that rewrite to a common term are equal afterwards, whether or not the common term was ever added. The term that Extractor::find_best returns for an added term costs no more than any rewrite of that term, and has the same value in every algebra that satisfies the rules. If the rules are unconditional and can be undone by the rules (for example all are given in both directions), then with explanations enabled two added terms are equal after the run exactly if one can be rewritten to the other: saturation decides equality.", "quantifier": "for all languages, rule sets, e-graphs reachable by programs that delete no e-nodes, schedulers, limits, clocks, hooks, cost functions and terms, and all rewrite sequences of any length", "why_tests_cant": "a test compares one extracted term with one expected term; the claim is about all terms reachable by rewriting, usually infinitely many, and about all rule sets for which a run happens to saturate", "anchors": ["src/run.rs: Runner::run, StopReason::Saturated", "src/rewrite.rs: Rewrite::search, Rewrite::apply, ConditionEqual", "src/pattern.rs: Pattern::apply_matches", "src/extract.rs: Extractor::new, Extractor::find_best", "src/egraph.rs: EGraph::find, EGraph::union_instantiations"]}
{"id": "C66", "title": "Whatever a run makes equal follows from the rules by equational logic; saturation decides equality", "statement": "After Runner::run, however it ended, with explanations enabled or not, and with any scheduler that only passes on matches searching can find: if one e-class represents two terms, then their equality can be derived by equational logic (reflexivity, symmetry, transitivity, congruence) from the rules read as equations, conditional rules being usable only when the equations their ConditionEqual conditions ask for can themselves be derived, and from the equalities the client asserted with union before the run. In particular the term Extractor::find_best returns is derivably equal to the term asked for. If what the rules do can be undone by the rules, nothing was asserted before and the run stopped with Saturated, then two terms that were in the e-graph before are equal afterwards exactly if one can be rewritten to the other, exactly if their equality is derivable. (Rules from a pattern to a pattern, perhaps with ConditionEqual conditions; an analysis without modify hooks; runner hooks that neither union nor delete e-nodes.)", "quantifier": "for all languages, sets of pattern rules, e-graphs reachable by programs that delete no e-nodes, honest schedulers, limits, clocks, such hooks, and all terms", "why_tests_cant": "a test can show that two expected terms are equal, not that no two terms among the usually infinitely many of an e-class are equal without reason", "anchors": ["src/run.rs: Runner::run", "src/rewrite.rs: Rewrite::search, Rewrite::apply, ConditionEqual, ConditionalApplier", "src/pattern.rs: Pattern::apply_matches, Pattern::apply_one, apply_pat", "src/egraph.rs: EGraph::union, EGraph::union_instantiations, EGraph::add_instantiation_noncanonical", "src/extract.rs: Extractor::find_best"]}
{"id": "C67", "title": "Simplifying an expression: the answer is provably equal, not more expensive, made of known operators, and there always is one", "statement": "The usual client of the library (Runner::default().with_expr(&e).run(&rules), then Extractor::find_best of roots[0]; from text to text with parse and to_string): after the run, roots has one id for every with_expr, in order, and each is the class of its expression. However the run stopped, the expression found is derivable from e by equational logic with the rules, its cost is the one reported and at most the cost of e, and it uses no operator (with its number of children) that neither e nor a rule has. If the run stopped with Saturated, nothing e can be rewritten to is cheaper, and if what the rules do can be undone by the rules, nothing derivably equal to e is cheaper and two of the expressions are in one class exactly if their equality is derivable. There always is an answer: no panic, no endless loop. If the operators' names can be printed and read again, the text printed reads as that expression.  (Rules from a pattern to a pattern, perhaps with ConditionEqual conditions; an analysis without modify hooks; a cost function that is monotone and not below the costs of the children.)", "quantifier": "for all languages, rules, expressions, texts of expressions, cost functions of this kind, honest schedulers, limits, clocks and iteration orders", "why_tests_cant": "tests simplify a handful of expressions with a handful of rules and compare with one expected answer; they cannot exclude that some other expression is simplified to something not equal to it, or not at all", "anchors": ["src/run.rs: Runner::with_expr, Runner::run, Runner::roots", "src/extract.rs: Extractor::new, Extractor::find_best", "src/language.rs: RecExpr::from_str, RecExpr::fmt", "tests/simple.rs: simplify"]}
{"id": "C68", "title": "The pattern of an id is its term cut at the given ids", "statement": "id_to_pattern answers for every id the e-graph knows, whatever ids the client gives for variables. The pattern may be passed to Pattern::new. It is the term of the id (as id_to_expr gives it) in which the given ids have become variables; the substitution is defined for exactly the variables of the pattern and gives each what the client gave for its id. Putting the terms of the given ids for the variables gives the term of the id back. If each given id is equal to the id it stands for, the instance of the pattern is in the class of the id.", "quantifier": "all languages, analyses, e-graphs reached by any sequence of operations (for the last sentence: without pruning e-nodes by direct access to a class), all ids, all maps from ids to ids", "why_tests_cant": "the claim is about every e-graph, id and map; tests try a handful of small terms", "anchors": ["src/egraph.rs: EGraph::id_to_pattern, EGraph::id_to_pattern_internal, EGraph::id_to_expr"]}
{"id": "C69", "title": "Proving goals: a proof that is reported exists, and saturation decides", "statement": "The client of test_runner adds an expression, installs a hook that stops the run once every goal pattern matches in the class of the expression, runs rules between patterns, and calls check_goals. If this returns, every goal has an instance whose equality with the expression is derivable from the rules by equational logic. If the hook stopped the run, all goals are provable in this sense and the check that follows succeeds, although the e-graph has been rebuilt in between. If the run saturated with rules whose effect the rules can undo, check_goals returns when all goals are provable and panics when one is not. In every case the whole comes to an end: the run stops for one of the documented reasons, and then the client returns or panics over a goal that has no instance in the class.", "quantifier": "all languages, analyses without hooks, rules between patterns, goals, expressions, honest schedulers (for the last sentence: thorough ones), limits, clocks and iteration orders", "why_tests_cant": "tests run a handful of proofs that are known to exist; they cannot exclude that a goal is reported as proved for some other rules although it does not follow", "anchors": ["src/test.rs: test_runner", "src/run.rs: Runner::with_hook, Runner::run", "src/egraph.rs: EGraph::check_goals", "src/rewrite.rs: Searcher::search_eclass"]}
