(** Property theorems about queries and pattern ASTs (C59).
    Vocabulary: QuerySpec.v ([stands_for], [has_instance], [variant], [var_in], [pattern_ast],
    [rename_term]), PatSpec.v ([rooted]), Spec.v ([Rep], [known], [traverses]). *)
From Coq Require Import NArith String.
From Verif Require Import Base EGraphModel Spec EGraphReach Terms RecExprModel ExprModel PatSpec MachineModel MatchSpec ExtractModel ExtractSpec TextModel TextSpec TextMain
  EGraphPres QueryModel QuerySpec QueryProofs QueryAlpha Examples ExamplesExpr ExamplesMatch ExamplesExtract ExamplesText ExamplesQuery.

(** * C59 *)
(** [equivs] answers with the one class that holds both expressions, or with nothing when no
    class does: in every rebuilt e-graph never pruned, for any fuel and limit large enough,
    and whether or not the analysis allows cyclic matches. *)
Theorem C59_equivs {Op D} `{Countable Op} (L : lang Op) (A : analysis Op D) (it : gset nat -> list nat) (ord : gmap (nat * nat) (node Op) -> list (nat * nat))
    cycles ex (g : egraph Op D) (e1 e2 : list (node Op)) t1 t2 :
  lang_ok L -> enumerates it -> enumerates_keys ord -> reachable_np L A ex g -> eg_clean g = true ->
  dag e1 -> rooted e1 -> ExprTree e1 t1 -> dag e2 -> rooted e2 -> ExprTree e2 t2 ->
  exists N, forall fuel limit, N <= fuel -> 1 <= limit ->
    (forall c, Rep g t1 c -> Rep g t2 c -> equivs L it cycles ord fuel limit g e1 e2 = Ok [c]) /\
    ((forall c, Rep g t1 c -> ~ Rep g t2 c) -> equivs L it cycles ord fuel limit g e1 e2 = Ok []).
Proof. intros Lo Hit Hord R Ec. exact (equivs_exact L A Lo it Hit ord Hord cycles ex g R Ec e1 e2 t1 t2). Qed.
Print Assumptions C59_equivs.
Example C59_equivs_ex : reachable_np natlang unitan false match_g /\ eg_clean match_g = true /\
  (dag e_fxy /\ rooted e_fxy /\ ExprTree e_fxy t_fxy) /\ (dag e_fyx /\ rooted e_fyx /\ ExprTree e_fyx t_fyx) /\
  equivs natlang it0 true ord0 50 50 match_g e_fxy e_fyx = Ok [2] /\ equivs natlang it0 true ord0 50 50 match_g e_fxy [Node 0 []] = Ok [].
Proof. exact (conj match_g_np (conj match_g_clean (conj e_fxy_ok (conj e_fyx_ok (conj equivs_run equivs_run_empty))))). Qed.

(** [check_goals] returns when every goal matches in the class of the id, and panics when some
    goal has no instance there: it never returns with a goal unmet, whatever the analysis
    says about cyclic matches. *)
Theorem C59_check_goals {Op D} `{Countable Op} (L : lang Op) (A : analysis Op D) (it : gset nat -> list nat) (ord : gmap (nat * nat) (node Op) -> list (nat * nat))
    ex (g : egraph Op D) w order order' id ps ts :
  lang_ok L -> enumerates it -> enumerates_keys ord -> reachable_np L A ex g -> eg_clean g = true ->
  traverses g order -> traverses g order' -> Forall2 (stands_for ord) ps ts -> known g id ->
  exists N, forall fuel limit, N <= fuel -> N <= limit ->
    (Forall (fun t => has_instance g t (eg_find g id)) ts -> check_goals L it true w fuel limit g order order' id ps = Ok tt) /\
    (~ Forall (fun t => has_instance g t (eg_find g id)) ts -> forall cycles, check_goals L it cycles w fuel limit g order order' id ps = Panic).
Proof.
  intros Lo Hit Hord R Ec. exact (check_goals_exact L A Lo it Hit ord Hord ex g R Ec w order order' id ps ts).
Qed.
Print Assumptions C59_check_goals.
Example C59_check_goals_ex : reachable_np natlang unitan false match_g /\ eg_clean match_g = true /\ traverses match_g (keys match_g) /\
  stands_for ord0 (compiled pat_f01) pat_f01_t /\ stands_for ord0 (compiled pat_f00) pat_f00_t /\ stands_for ord0 (compiled pat_gf) pat_gf_t /\
  check_goals natlang it0 true 64 50 50 match_g (keys match_g) (keys match_g) 2 [compiled pat_f01; compiled pat_f00] = Ok tt /\
  check_goals natlang it0 true 64 50 50 match_g (keys match_g) (keys match_g) 2 [compiled pat_f01; compiled pat_gf] = Panic.
Proof. exact (conj match_g_np (conj match_g_clean (conj (keys_traverse match_g) (conj pat_f01_stands (conj pat_f00_stands (conj pat_gf_stands (conj goals_met goals_missed))))))). Qed.

(** Every class of an e-graph never pruned holds a finite term -- so there is always something
    to extract. *)
Theorem C59_every_class_has_a_term {Op D} `{Countable Op} (L : lang Op) (A : analysis Op D) ex (g : egraph Op D) i :
  reachable_np L A ex g -> known g i -> exists t, Rep g t (eg_find g i).
Proof. intros R. exact (class_term L A ex g R i). Qed.
Print Assumptions C59_every_class_has_a_term.

(** [alpha_rename] never panics on a pattern AST and its result is the pattern with different
    variables renamed to different variables. *)
Theorem C59_alpha_rename {Op} (p : list (node (vop Op))) :
  pattern_ast p -> exists q, alpha_rename p = Ok q /\ variant p q /\ pattern_ast q.
Proof. exact (alpha_total p). Qed.
Print Assumptions C59_alpha_rename.
(** The result identifies the pattern up to renaming, and is its own result. *)
Theorem C59_alpha_canonical {Op} (p q : list (node (vop Op))) :
  pattern_ast p -> pattern_ast q -> alpha_rename p = alpha_rename q <-> variant p q.
Proof. intros Hp Hq. split; [exact (variant_alpha p q Hp Hq)|exact (alpha_variant p q Hp)]. Qed.
Print Assumptions C59_alpha_canonical.
Theorem C59_alpha_idempotent {Op} (p q : list (node (vop Op))) :
  pattern_ast p -> alpha_rename p = Ok q -> alpha_rename q = Ok q.
Proof. exact (alpha_idem p q). Qed.
Print Assumptions C59_alpha_idempotent.
Example C59_alpha_ex : pattern_ast ast_ab /\ alpha_rename ast_ab = Ok ast_xy /\ variant ast_ab ast_xy /\
  mkvar <$> [0; 1; 2; 3; 4; 5; 16] = [Ok v_x; Ok v_y; Ok (VSym (txt "?z")); Ok (VSym (txt "?w")); Ok (VSym (txt "?v0")); Ok (VSym (txt "?v1")); Ok (VSym (txt "?v12"))].
Proof. exact (conj ast_ab_ok (conj alpha_ab (conj ab_variant mkvars))). Qed.
(** For patterns parsed from text -- as ASTs and as compacted by [Pattern::new] -- the results
    agree exactly when the pattern terms differ by a renaming of variables. *)
Theorem C59_alpha_parsed {Op} (from_op : text -> list nat -> option (node Op)) fuel1 fuel2 (s1 s2 : text) e1 e2 t1 t2 :
  (forall op cs n, from_op op cs = Some n -> nch n = cs) ->
  parse_expr (vfrom_op from_op) fuel1 s1 = Ok (inr e1) -> parse_expr (vfrom_op from_op) fuel2 s2 = Ok (inr e2) ->
  ExprTree e1 t1 -> ExprTree e2 t2 ->
  alpha_rename e1 = alpha_rename e2 <->
  exists r : var -> var, (forall v w, TextSpec.occurs (VVar v) t1 -> TextSpec.occurs (VVar w) t1 -> r v = r w -> v = w) /\ t2 = rename_term r t1.
Proof. exact (alpha_parsed from_op fuel1 fuel2 s1 s2 e1 e2 t1 t2). Qed.
Print Assumptions C59_alpha_parsed.
Theorem C59_alpha_compacted {Op} `{Countable Op} (from_op : text -> list nat -> option (node Op)) fuel1 fuel2 (s1 s2 : text) e1 e2 c1 c2 t1 t2 :
  (forall op cs n, from_op op cs = Some n -> nch n = cs) ->
  parse_expr (vfrom_op from_op) fuel1 s1 = Ok (inr e1) -> parse_expr (vfrom_op from_op) fuel2 s2 = Ok (inr e2) ->
  rx_compact e1 = Ok c1 -> rx_compact e2 = Ok c2 -> ExprTree c1 t1 -> ExprTree c2 t2 ->
  alpha_rename c1 = alpha_rename c2 <->
  exists r : var -> var, (forall v w, TextSpec.occurs (VVar v) t1 -> TextSpec.occurs (VVar w) t1 -> r v = r w -> v = w) /\ t2 = rename_term r t1.
Proof. exact (alpha_compact from_op fuel1 fuel2 s1 s2 e1 e2 c1 c2 t1 t2). Qed.
Print Assumptions C59_alpha_compacted.
Example C59_parsed_ex : (e ← parsed "(+ ?b (mul ?a ?a))"; alpha_rename e) = (e ← parsed "(+ ?p (mul ?q ?q))"; alpha_rename e) /\
  (e ← parsed "(+ ?b (mul ?a ?a))"; alpha_rename e) <> (e ← parsed "(+ ?p (mul ?q ?p))"; alpha_rename e) /\ exists e, (e ← parsed "(+ ?b (mul ?a ?a))"; alpha_rename e) = Ok e.
Proof. exact parse_same. Qed.
(** For ASTs in general the order of the nodes matters: the same pattern term, listed in two
    orders, gets two results. *)
Theorem C59_alpha_terms_refuted : exists (p q : list (node (vop nat))) (t : term (vop nat)),
  pattern_ast p /\ pattern_ast q /\ ExprTree p t /\ ExprTree q t /\ alpha_rename p <> alpha_rename q.
Proof. exact terms_refuted. Qed.
Print Assumptions C59_alpha_terms_refuted.

(** Turning a pattern back into an expression: it succeeds exactly on the patterns made from
    that expression, and otherwise reports the first variable. *)
Theorem C59_try_from {Op} (ast : list (node (pop Op))) :
  (forall e, expr_from ast = inl e <-> ast = embed_node <$> e) /\
  (forall v, expr_from ast = inr v <-> exists i cs, ast !! i = Some (Node (PVar v) cs) /\ forall j n w, j < i -> ast !! j = Some n -> nop n <> PVar w).
Proof. exact (expr_from_spec ast). Qed.
Print Assumptions C59_try_from.
Example C59_try_from_ex : expr_from [Node (POp 0) []; Node (PVar 7) []; Node (PVar 8) []; Node (POp 5) [0; 1]] = inr 7 /\ expr_from (embed_node <$> e_fxy) = inl e_fxy.
Proof. exact try_from_runs. Qed.

(** [assert_unique_leaves] panics exactly on classes with two different leaves. *)
Theorem C59_unique_leaves {Op D} `{EqDecision Op} (c : eclass Op D) :
  (assert_unique_leaves c = Ok tt <-> forall f g, Node f [] ∈ c_nodes c -> Node g [] ∈ c_nodes c -> f = g) /\
  (assert_unique_leaves c = Ok tt \/ assert_unique_leaves c = Panic).
Proof. exact (unique_leaves_spec c). Qed.
Print Assumptions C59_unique_leaves.
Example C59_leaves_ex : assert_unique_leaves (EClass 0 [Node 0 []; Node 5 [0; 0]; Node 0 []] tt []) = Ok tt /\
  assert_unique_leaves (EClass 0 [Node 0 []; Node 5 [0; 0]; Node 1 []] tt []) = Panic.
Proof. exact leaves_run. Qed.
