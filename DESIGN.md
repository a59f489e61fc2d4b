# Formal model of egg in Rocq: design

Subject: `egraphs-good/egg` at the commit in `/repo` (Rust, read as text only).
Everything machine-checked lives in `rocq/theories`; it is plain Gallina on top of the
Coq standard library and std++ (`gmap`, `gset`).

## 1. Method

* The code is modelled function by function as total executable Gallina functions.
* A Rust panic is the explicit value `Panic`; a loop that may diverge takes fuel and
  returns `OutOfFuel` when it is exhausted.  Theorems exclude both where the property
  says so.
* The analysis (`make`, `merge`, `modify`) is a parameter.  `modify` is an arbitrary
  *program* over the public API (`add`, `union`, reading the whole e-graph, overwriting
  data, pruning a class), so theorems quantify over every hook behaviour.
* Hash-map iteration order and the pattern compiler's tie breaking are parameters
  (an arbitrary order / an arbitrary choice function): theorems hold for all of them.
* `EGraphModel.v`-style files hold definitions only; `*Proofs.v` hold lemmas;
  `Properties*.v` hold only the property theorems, each with `Print Assumptions` and an
  `Example` showing a concrete case that meets the hypotheses.

## 2. Simplifications common to the whole model

* `Id` is `nat` (the code truncates `usize` to `u32`; more than 2^32 ids is not modelled).
* A language e-node is an operator (any countable type with decidable equality) plus a
  list of children.  Payload data is part of the operator.  `discriminant` is a function
  of the operator.
* Logging, timing instrumentation, `deterministic` cfgs are not modelled; of serde (C63) only which fields are skipped and which tables are written as lists, not the formats.
* User closures are total functions; a panic inside a user closure is not modelled.

## 3. Properties: what is modelled, how it is proved

Theorem names are `Cxx_...`; the file is the `Properties*.v` file named in the third column.
`MANIFEST.json` lists every theorem name per property with the scope of the claim.

| id | model | theorems in | proof |
|----|-------|-------------|-------|
| C01, C02 | `UnionFind.v`: `unionfind.rs` on `list nat` | PropertiesCore | every parent pointer goes down a rank, so `find` ends within the array; refinement to the equivalence generated by the unions |
| C03-C06 | `EGraphModel.v`: add/union/lookup/rebuild | PropertiesCore | one state invariant (`EGraphInv.v`) preserved by each step of each operation (`EGraphSteps/Pres/Runs`) |
| C07, C08 | same, arbitrary hooks | PropertiesCore | the invariant relates memo, parent lists and the pending queue to `Derives`, the inductively defined least congruence of the unions stated and nodes added |
| C09, C10, C49 | `rebuild_classes`, `classes_by_op`, `check_memo` | PropertiesCore, PropertiesSafe | class contents against the node table; sortedness and exactness of the index |
| C11, C12 | `process_unions` | PropertiesCore, PropertiesSafe | counting classes; lexicographic measure (classes, data along a well-founded relation, queue lengths) |
| C13 | all operations | PropertiesSafe | `Panic` excluded by the invariant, for clients that pass ids they were given |
| C14, C15, C16, C17 | analysis queue, helpers, `UniqueQueue` | PropertiesAnalysis | invariant with pending parents; least pre-fixpoint; refinement of the queue to a list |
| C18-C22, C37 | `MachineModel.v`: pattern compiler and register machine instruction by instruction, search with limits, `for_each_matching_node` with its bisection | PropertiesMatch | compiler invariant (what is still to do) x machine invariant; uniqueness of derivations; bisection against linear scan |
| C23-C25 | `ExtractModel.v` | PropertiesExtract | fixpoint invariant; last-improvement argument for acyclicity |
| C26, C27, C42 | `ExprModel.v`, `RecExprModel.v` | PropertiesExpr, PropertiesExplain | induction on the prefix / on the tree |
| C28, C29 | `TextModel.v` | PropertiesText, PropertiesExpr | grammar as an inductive relation, parser shown equivalent to it; induction on terms |
| C30, C31, C36, C37 | `RewriteModel.v` | PropertiesRewrite | representation of instances; exactness by constructing the free algebra (`Completion.v`); answered ids counted against classes and e-nodes (`AnswerProofs.v`) and found among the matched classes (`AnswerIds.v`) |
| C32-C35 | `RunnerModel.v`, `CountSpec.v` (counts per rule, scheduler settings) | PropertiesRun, PropertiesCounts | invariants over iterations; quiescence of one iteration implies no rule has anything to add |
| C38-C41 | `ExplainModel.v` | PropertiesExplain, PropertiesCheck (`explain_matches`) | forest invariant with edge ages; termination by edge age; flattening by induction on proofs |
| C43-C45 | `UtilModel.v` | PropertiesUtil | canonicity of the copied ids; simulation of both inputs by the result |
| C46, C50 | `LpModel.v` | PropertiesLp | depth-first-search invariant; every integer solution gives a term |
| C47 | `MapModel.v` | PropertiesMap | simulation between the two e-graphs |
| C48 | `LangModel.v` | PropertiesLang | induction on children; work list argument for `build_recexpr`-style copying |
| C51 | `MacroModel.v`: `define_language!` as a list of variants | PropertiesMacro | lexicographic order; first-match induction over the declaration; reuses C28 |
| C52 | `TruthSpec.v` (no new code modelled): truth of data, programs, rules in an algebra | PropertiesTruth | invariant (node table, unions, data true of values) through every primitive step, hooks by induction on nesting; rules as in C27/C32 |
| C53 | `CheckModel.v` (check_proof and what it calls), `CheckSpec.v` (instances, conditions) | PropertiesCheck | bindings of a pattern against a flat term by induction on the pattern; recorded unions as instances: ids kept under `steady`, terms of ids unique; run by the generic run relation |
| C54 | `CheckEachModel.v` (check_each_explain, a run with the debug assertion) | PropertiesCheckEach | a link of the forest is a recorded union (forest invariant), so C53's instance lemma applies; converse by induction on the order in which edges were recorded; debug and release runs agree iteration by iteration |
| C55 | `OptModel.v` (the length optimiser, all of it), `OptSpec.v` | PropertiesOpt | the search is Dijkstra's: an entry of the memo is the first hop of a cheapest walk whose other hops are entries too; an explanation ends because the pair (distance in the forest, height of the term) falls lexicographically from a congruence to its children; orders and heaps are parameters |
| C56 | same, `reach_opt` (calls and explanations in any order) | PropertiesOpt | the invariant of the forest is separated from the memo (`EGraphDirect.v`), and validity needs nothing of the memo (`OptInterleave.v`); absence of panics needs that every entry is an explainable hop with an entry to go on from (`OptNoPanic.v`) |
| C57 | same, `ShortSpec.v` (chains of unions, `informative`, `irredundant`) | PropertiesShort | the steps of an explanation are counted hop by hop (`ExplainCount.v`, `OptShort.v`): a hop with a rule step recorded counts one, any other the forest distances of the children; paths read from the memo cost at most any walk (`OptShortPath.v`); the asserted unions give a walk (`OptShortMain.v`); without redundant unions the recorded rule steps are exactly the links of the forest, so the unoptimised explanation costs the forest distance exactly (`OptLean.v`) |
| C58 | `PrintModel.v` (all printed forms; the producer again, with its caches and the addresses of shared terms), `PrintSpec.v` (memories, what a let stands for, same explanation) | PropertiesPrint | the sharing producer refines the one of C40 and leaves a consistent memory (`PrintShare.v`); printing with bindings is undone by replacing names in reverse order, by induction on the bindings made (`PrintProofs.v`); texts are unique writings of s-expressions (C28), from which annotations and operators are read off (`PrintFlat.v`, `PrintMain.v`); the size counts distinct connections by an invariant on the two sets seen (`PrintSize.v`) |
| C59 | `QueryModel.v` (`equivs`, `check_goals`, `alpha_rename`, conversions between patterns and expressions, unique leaves), `QuerySpec.v` (instances, renamings) | PropertiesQuery | a ground pattern compiles to a single lookup, so search finds its class exactly once (`QueryProofs.v`); every class has a term by induction on ids, so extraction succeeds; `alpha_rename` as a renaming by the first occurrences, which commutes with injective renamings, with the layout of parsed terms and with compaction (`QueryAlpha.v`) |
| C60 | `run`, `run_prog` and everything they call; `TotalSpec.v` (usable rules, well-behaved hooks, dependable schedulers) | PropertiesTotal | `okT`: from some bound on the answer is the same, closed under sequencing (`TotalProofs.v`); searching beyond all matches gives the same list because blocks of equal classes are cut uniquely, then the two schedulers and the runner (`RunTotal.v`); monotonicity of every function in the fuel for arbitrary analyses (`FuelProofs.v`) |
| C61 | `is_empty`, `total_size`, `total_number_of_nodes`, `number_of_classes`, `Runner::report` (`SizeModel.v`); `SizeSpec.v` (exactly n things, canonical ids, found nodes, keys of the index, merges reported) | PropertiesSize | bijections between class keys and canonical ids, nodes of classes and found nodes; a ledger `classes after + merges + ids before = classes before + ids after` carried through apply, rebuild, hooks and the loop (`AnswerProofs.v`, `SizeProofs.v`) |
| C62 | `Display for Dot` (`DotModel.v`); `DotSpec.v` (a reader of the files by lines, what it means that a graph draws an e-graph) | PropertiesDot | every line reads as the statement it was written for, lines are found again since no part contains a newline; the statements assemble to an explicit graph, which draws the e-graph (`DotProofs.v`) |
| C63 | the serde attributes of `EGraph`, `Explain` (`SerdeModel.v`: `save`, `load`); `SerdeSpec.v` (twins, programs that do not look at the skipped parts) | PropertiesSerde | simulation: every operation keeps two e-graphs equal but for the index and the flag `clean`; `rebuild` makes both equal up to operators listed without classes; explanations: totality and soundness with an empty path memo (C40) |
| C64 | `with_explanations_enabled`, `with_explanations_disabled` (`LifeModel.v`), with `save`, `load` and all programs; `LifeSpec.v` (`lives`) | PropertiesLife | induction over the life: each of the invariants behind C06-C10, C13, C40 (`Inv`, the explanation forest, the history of additions) survives programs (as in those proofs), switching explanations and loading |
| C65 | no new code: `run`, `rewrite_apply`, `extractor_new`, `find_best`; `OptimumSpec.v` (`rewrites`: rewriting terms with the rules, `reversible`) | PropertiesOptimum | from C33 (all matches settled): induction over the rewriting; the classes of the subterms give a match (terms of a rebuilt e-graph have one class), so the right-hand side is represented; then C23 and C32. For the decision: all unions recorded in the run carry names of rules (invariant over the run) and are instances (C53), C38 |
| C66 | no new code: `run`, `rewrite_apply`, `find_best`; `DeriveSpec.v` (`derivable`: equational logic with the rules and given facts, `undoable`) | PropertiesDerive | a term for every id such that every addition and union recorded is derivable; the invariant is kept by every call of the run (the argument of C32 for the terms modulo derivability, an equivalence and a congruence: no quotient, no axiom); for the decision, derivability and rewriting coincide if rules can be undone, then C65 |
| C67 | `SimplifyModel.v`: `with_expr`, `with_exprs`, `simplify`, `simplify_text` (the client of `tests/simple.rs`) on top of `run`, `find_best`, `parse_expr`, `print_expr`; `SimplifySpec.v` (`term_over`, `rule_over`: signatures; `nameable`) | PropertiesSimplify | roots: what was represented stays represented, the run does not touch `roots`; equality from C66 (nothing was asserted in a new e-graph), optimality from C23 and C65, totality from C60, C24 and totality of adding; no new operators: invariant over every call of the run (what the log records is over the signature) and the terms of a class are made of recorded nodes; texts: C28 |
| C68 | `UtilModel.v`: `id_to_pattern`; `PatternIdSpec.v` (`CutTree`: the term of an id cut at given ids) | PropertiesPatternId | induction on the id (children of a recorded e-node are older): invariant on the pattern, substitution and cache built so far; the instance is in the class of the id because every recorded e-node is listed in its class (`reach_listed`) |
| C69 | `ProveModel.v`: `goal_hook`, `prove` (the core of `test_runner`, src/test.rs:57-83) on top of `with_expr`, `run`, `check_goals`; `ProveSpec.v` (`provable`) | PropertiesProve | what a goal matches has a ground instance (every class has a term, C59), which is derivable (C66); the hook is asked on a rebuilt e-graph and what it saw is kept by the last rebuild; conversely C65 after saturation and C59 for the check; that it ends (`ProveTotal.v`): C60's totality of `run` with the goal hook, which does nothing to the e-graph, and of the search for each goal |

## 4. Trusted base

* The Coq 8.16.1 kernel (with `vm_compute`, used in examples and refutation witnesses).
* `Print Assumptions` is written under every theorem of the `Properties*.v` files. For each
  of them it prints `Closed under the global context`: no axiom is used, not even one of the
  standard library. No `Axiom`, `Parameter`, section-less `Variable`, `Admitted`, or switched
  off kernel check occurs in the development.
* Libraries used: Coq standard library, std++ 1.8 (finite maps and sets, lists).
* The correspondence between `/repo` and the definitions of the model files. Each definition
  cites the lines it models and says where it simplifies. This correspondence is by reading.
* `Spec.v`, `Terms.v`, `PatSpec.v`, `MatchSpec.v`, `AlgSpec.v`, `RuleSpec.v`, `RunnerSpec.v`,
  `BackoffSpec.v`, `ExtractSpec.v`, `ExplainSpec.v`, `CheckSpec.v`, `CountSpec.v`, `LpSpec.v`, `MapSpec.v`, `LangSpec.v`,
  `TextSpec.v`, `OptSpec.v`, `ShortSpec.v`, `PrintSpec.v`, `QuerySpec.v`, `TotalSpec.v`, `SizeSpec.v`, `DotSpec.v`, `SerdeSpec.v`, `LifeSpec.v`, `OptimumSpec.v`, `DeriveSpec.v`, `SimplifySpec.v`, `PatternIdSpec.v`, `ProveSpec.v`: the notions the theorems are stated with.

### 4.1 Modelled

| file | modelled | not modelled |
|------|----------|--------------|
| `unionfind.rs` | all | - |
| `eclass.rs` | fields `id`, `nodes`, `data`, `parents`; `for_each_matching_node`, `leaves`, `assert_unique_leaves` | iterators as such |
| `egraph.rs` | add (both modes), `add_uncanonical`, `add_expr`, `add_instantiation`, `lookup`, `lookup_expr(_ids)`, union (with and without justification), `perform_union`, `process_unions`, `rebuild_classes`, `rebuild`, `check_memo`, `set_analysis_data`, `classes_mut`/`IndexMut`, `id_to_expr`, `copy_without_unions`, `egraph_union`, `egraph_intersect`, `LanguageMapper` on an e-graph, `equivs`, `check_goals` (without its log messages), switching explanations, which fields serde skips | `dump`, serde formats, `Debug`, `pre_union` (a hook with no effect by default) |
| `language.rs` | `Language` default methods, `RecExpr` functions, `DidMerge`, `merge_*`, `AstSize`/`AstDepth` callers, printing and parsing | `SimpleLanguageMapper`'s own `Op` conversions (parameters), `Symbol` interning |
| `pattern.rs`, `machine.rs`, `multipattern.rs`, `subst.rs` | all of the compiler, machine, search, application; `alpha_rename`, `TryFrom` a pattern | the symbolic names are `nat` in the matching model (texts only in `TextModel.v`) |
| `rewrite.rs` | `Rewrite::new`, appliers, conditions | - |
| `run.rs` | runner loop (release and debug builds), limits, stop reasons, both schedulers and their builders, `with_expr` and `roots`, the counters of `Report` | timing values (an arbitrary clock), log output, `Report` printing |
| `extract.rs` | `Extractor` (fixpoint and reconstruction), `AstSize`, `AstDepth` | - |
| `lp_extract.rs` | cycle search, problem construction, reading the answer | the solver, f64 |
| `explain.rs` | forest, tree proofs, flattening, checks, the length optimiser (`OptModel.v`), `check_proof` and `check_each_explain` against rules, printing and sharing (`PrintModel.v`), `explain_matches` | - |
| `sexp.rs`, `util.rs` | printing/parsing for `no_std` builds, `pretty_print`, `UniqueQueue` | `symbolic_expressions` (the external parser used with `std`) |
| `macros.rs` | `define_language!`: the methods it generates, for any list of variants | macro expansion itself; `rewrite!`, `multi_rewrite!` (thin calls of what C30 models) |
| `dot.rs` | `Display for Dot` (`DotModel.v`) | writing files, starting programs |
| `test.rs` | the core of `test_runner`: hook, run, `check_goals` (`ProveModel.v`) | environment variables, the explanation part, benchmarking, `test_fn!` |
| `lib.rs`, tutorials | - | all |

### 4.2 Simplifications that matter for reading the claims

* Ids are unbounded naturals; overflow of `u32` ids is not modelled.
* Hash iteration order is an arbitrary parameter wherever the code iterates over a hash map:
  a function of the contents (in C55 and C56, the same function throughout).
* User code is a total function or, for `modify` and hooks, a total program over the API
  (`prog`) whose possible divergence shows as `OutOfFuel`; it does not panic by itself.
* Explanation proofs are modelled as trees in C40, C41, C53, C55-C57; the code shares subproofs
  by `Rc` and caches per-node terms. `PrintModel.v` models this too, an `Rc` being a number given
  out at allocation, and C58_shared_explanation says that the trees are the same.

* Texts (C28, C51, C58 and every other claim about printed or parsed text) are those of the
  minimal s-expression code in src/sexp.rs, which `no_std` builds use. Builds with `std` use the
  crate `symbolic_expressions`, meant to be compatible but not in the repository and not modelled.

## 5. Findings

Claims one may expect (some of them documented) that are false of the code as modelled; each
`_refuted` theorem has a concrete witness.

1. C05/C06, `C05_hashcons_explained_refuted`, `C06_lookup_after_add_explained_refuted`: with
   explanations on and before a rebuild, adding a node again may give another class, and
   `lookup` of a node just added may answer with nothing.
2. `compact` changes the root of an expression whose last node duplicates an earlier one
   (C27_compact_root_refuted).
3. `lookup_expr` answers `None` when an unused node of the list is not represented
   (C26_lookup_expr_unused_refuted).
4. Parsing `(() x)` as an expression reaches `unreachable!` (C28_never_panics_refuted). Names
   with a tab or newline are printed without quotes and do not parse back
   (C28_all_names_refuted); `pretty` drops the quotes (C28_pretty_quotes_refuted);
   the empty expression prints as `()` which does not parse; `?#+12` is the variable `?#12`.
5. A multi-pattern whose first clause is a bare variable panics at search time, also in a case
   that the guard in the compiler does not see (C37_variable_first_clause_refuted).
6. A multi-pattern searcher with a plain pattern as applier panics once explanations are on
   (C30_multi_searcher_explained_refuted); a conditional applier over a multi-pattern panics
   (C30_conditional_multi_refuted).
7. `Pattern::vars` counts variable nodes that the root does not reach, which searching does not
   bind: an accepted rule can panic (C30_unused_variable_refuted).
8. `ConditionEqual` is false for variables bound to ids that are not canonical
   (C36_stale_id_refuted).
9. With `allow_ematching_cycles` false, a class searched under a stale id escapes the check.
10. `BackoffScheduler` with ban length 0 reports `Saturated` although a rule was cut off
    (C33_zero_ban_refuted). `checked_shl` loses high bits and panics from 64 bans on.
11. With an iteration limit of 0 the runner still records one iteration.
12. A cost function that only satisfies the documented condition need not give a minimum
    (C23_exceeding_children_refuted); one that goes below its children can make `find_best`
    loop (C24_cheap_cycles_refuted).
13. The explanation optimiser's `calculate_common_ancestor` registers the node pair of the
    start instead of the child pair (performance or missing shortcuts only; see C40_any_path_memo
    for why validity of proofs does not depend on it).
14. With explanations one node can have two ids, and `copy_without_unions` then panics or
    mis-wires terms (C43_duplicate_terms_refuted, C43_panic_refuted).
15. `egraph_union` does not transfer terms of the other e-graph that occur in no asserted
    equality (C45_other_terms_refuted). `egraph_intersect` loses terms on inputs that are not
    rebuilt, and its result is not rebuilt (C44_not_rebuilt_refuted).
16. ILP extraction: nodes banned to break cycles depend on the iteration order and can make the
    problem unsolvable although the root has a finite term (C50_lost_solution_refuted).
17. `LanguageMapper`: a translation that does not keep the order leaves node lists unsorted in
    an e-graph marked clean (C47_order_refuted); translated operators with equal discriminants
    drop index entries (C47_discriminant_refuted).
18. `Language::all`/`any` do short-circuit although the documentation says otherwise
    (C48_no_short_circuit_refuted). `join_recexprs` copies shared subterms.
19. `union` marks the e-graph as not clean even when nothing is merged; the memo keeps stale
    keys, which `total_size` counts.
20. In a language made by `define_language!` an e-node need not read back from what it prints:
    an earlier variant may take the text, as `Num(u32)` does for `Var("7")`
    (C51_read_back_refuted; the documentation of `FromOp` asks for it and says the macro
    provides it). By inspection only: the arm of the macro for variants with data and children
    takes `[$($gen:ident)*]` without commas, so it cannot be used in an enum with several type
    parameters.
21. `Explanation::check_proof` does not compare terms outside annotated places, so it accepts a
    hand-made explanation from f(x) to g(y) where the only rule is x => y
    (C53_acceptance_suffices_refuted). An annotation with an unknown name is accepted too.
22. With a `modify` hook that makes unions, an explanation that the e-graph itself produces can
    be refused by `check_proof` with the same rules (C53_folding_hooks_pass_refuted): while the
    right side is being added (`add_instantiation_noncanonical`), the hook unites a new e-node
    with the class of a variable, whose later occurrences are then read as another term. The
    same run panics in a debug build and ends in a release build
    (C54_folding_hooks_agree_refuted).
23. The order of the builder calls of `BackoffScheduler` matters: a default set with
    `with_initial_match_limit` or `with_ban_length` after a rule-specific setting does not reach
    that rule, not even the field the rule-specific call did not mention
    (C35_defaults_reach_named_rules_refuted).
24. With the length optimiser on (the default) and explanations interleaved with other
    operations, a later explanation can recurse without end, a stack overflow in the code
    (C56_interleaved_explanations_end_refuted): memo entries written by the first explanation
    are kept, and the limit on congruence edges per class lets the second one route a new
    congruence through them in a circle. Without interleaving, or with the optimiser off from the start, every
    explanation ends (C55, C40).
25. `get_num_congr` is documented to count congruences between nodes; it counts one for every
    root of the forest and counts the congruences in the forest twice
    (C55_num_congr_counts_refuted). By inspection only, no effect on answers: the common
    ancestor table is asked for pairs of congruent ids, while the distances look up pairs of
    their children, so the lookups mostly miss.
26. The length optimiser can lengthen an explanation (C57_never_longer_refuted). It estimates a
    congruence by the forest distances between the children, but the explanation without the
    optimiser already uses the direct steps of redundant unions between the children. Witness:
    a chain of four unions from `a` to `b`, a redundant union of `a` and `b`, `f(a)` and `f(b)`
    merged by congruence, then `f(a)` and `f(b)` united with a third term `m`. Without the
    optimiser: one step (the congruence, with the direct step between the children). With it:
    two steps through `m`, because the congruence is estimated at four.
27. Printed explanations are ambiguous if names clash with the printer's words
    (C58_let_text_without_names_refuted, C58_lines_without_names_refuted). Shared terms are bound
    to `v_0`, `v_1`, ... whatever the operators are called: `h(f(x), f(x), f(x))` and
    `h(f(x), f(x), v_0)` give the same text with lets. With an operator called `Rewrite=>` two
    explanations that apply a rule at different places have the same lines.
    `FlatTerm::get_recexpr` goes through text, so it panics on an operator whose name does not
    print and parse, such as a quotation mark (C58_lines_read_back_refuted).
28. `get_string_with_let` does not write every shared term once (C58_shared_once_refuted): terms
    are bound in the order their second occurrence is found, so a term may be bound before a
    shared part of it, and then spells it out.
29. `alpha_rename` is canonical only for a fixed order of the nodes of the AST: `(+ ?a ?b)` listed
    as `?a, ?b, +` and as `?b, ?a, +` gets `(+ ?x ?y)` and `(+ ?y ?x)` (C59_alpha_terms_refuted).
    Patterns parsed from text are listed in order of occurrence, so for them it is canonical
    (C59_alpha_parsed, C59_alpha_compacted).
30. A rule given the match limit 0 (one way to switch a rule off) with ban length 1 is banned once
    more in every iteration, and the run panics in `checked_shl(..).unwrap()` when the number of
    bans reaches the number of bits of a `usize`; proved for every width (C60_fixed_width_refuted).
    With larger limits this needs a rule with more than `limit * 2^bans` matches each time.
31. A `modify` that calls `set_analysis_data` on the class it is called for never returns, also when
    the data does not change (C60_hooks_refuted): `set_analysis_data` calls `modify` again.
32. Because of the stale keys of finding 19, `total_size` can exceed the number of nodes ever added
    (C61_total_size_refuted); `NodeLimit` is compared with it, so a run can stop with `NodeLimit(5)` for a limit of 4
    on an e-graph in which only 4 nodes were ever made (C61_node_limit_refuted).
33. `Dot` writes an edge to `{child}.0` with the id that stands in the node, not its leader: on an e-graph that is not
    rebuilt the edge ends at an undeclared node, which GraphViz would add outside of all clusters (C62_unrebuilt_refuted); so does an
    edge to a class emptied by hand (C62_emptied_refuted). Labels are not escaped (C62_quotes_refuted).
34. **A loaded e-graph** (`egraph.rs:82-89`, `explain.rs:50-72`). The index by operators is not saved, and a search that does not find
    the operator of the root in the index answers with no matches before the assertion about `clean` is reached: until `rebuild` is called
    (the documentation asks for it) a search on a loaded e-graph silently finds nothing (C63_search_loaded_refuted). The lengths of
    explanations are not saved either, so an equality that is stated again after loading is recorded a second time
    (C63_explained_refuted); explanations stay valid (C63_explain).

## 6. Testing the theorems against wrong programs

`seeded/LOG.jsonl` records edits of the model that imitate realistic bugs, made in a scratch
copy, with the proofs that then fail. Edits that turn out to leave all claims true (equivalent
programs) are logged as such. `theorems_failed` names the declaration at which each file first
fails, usually a lemma below the property theorems; that a proof script fails does not by itself
show that the claim became false. An edit at which only an example fails counts as a survivor.
