(** Property theorems about greedy extraction (C23, C24, C25).
    Vocabulary: ExtractSpec.v ([orders], [superior], [monotone], [by_operator], [tsize],
    [theight], [inhabited], [traverses]), Spec.v ([Rep]), AlgSpec.v ([geval]), Terms.v ([ExprTree], [dag]). *)
From Verif Require Import Base EGraphModel Spec EGraphReach Terms RecExprModel RecExprProofs AlgSpec ExtractModel ExtractSpec ExtractMain ExtractNode Examples ExamplesExpr ExamplesExtract.

(** * C23 *)
(** For a cost function that is monotone and not below the costs of the children: the
    expression found is represented by the class, its own cost compares equal to the reported
    one, and no represented term costs less.  The class table may be visited in any order.
    (If costs that compare equal are equal, as for integers, the two costs are the same.) *)
Theorem C23_find_best_is_optimal {Op D} `{Countable Op} {C} (L : lang Op) (A : analysis Op D) ex
    (pcmp : C -> C -> option comparison) (cf : node Op -> list C -> C) (F : Op -> list C -> C)
    (g : egraph Op D) order fuel cs i :
  orders pcmp -> reachable L A ex g -> inhabited g -> traverses g order ->
  by_operator cf F -> monotone pcmp cf -> superior pcmp cf ->
  extractor_new pcmp cf fuel g order = Ok cs -> (exists t, Rep g t (eg_find g i)) ->
  exists v e t k, (forall fuel', k <= fuel' -> find_best fuel' g cs i = Ok (v, e)) /\ find_best_cost g cs i = Ok v /\
    dag e /\ ExprTree e t /\ Rep g t (eg_find g i) /\ cost_rec cf e = Ok (geval F t) /\ pcmp (geval F t) v = Some Eq /\
    forall t', Rep g t' (eg_find g i) -> cle pcmp v (geval F t').
Proof. intros Ho R Hi Hord. exact (extract_optimal L A ex pcmp cf Ho g order R Hi Hord F fuel cs i). Qed.
Print Assumptions C23_find_best_is_optimal.
(** a cyclic class, with sizes that saturate at 3 *)
Example C23_ex : orders (@usize_pcmp 2) /\ reachable_np natlang unitan false cyc_g /\ inhabited cyc_g /\ traverses cyc_g (keys cyc_g) /\
  by_operator size2 (size_op 2) /\ monotone usize_pcmp size2 /\ superior usize_pcmp size2 /\
  extractor_new usize_pcmp size2 5 cyc_g (keys cyc_g) = Ok (sat_costs (keys cyc_g)) /\ Rep cyc_g cyc_t (eg_find cyc_g 2) /\
  (snd <$> find_best 9 cyc_g (sat_costs (keys cyc_g)) 3) = Ok [Node 0 []; Node 5 [0; 0]].
Proof.
  split_and!; [apply usize_orders|apply cyc_np|exact (np_inhabited _ _ _ _ cyc_np)|apply keys_traverse|apply ast_size_op|
    apply ast_size_monotone|apply ast_size_superior|apply sat_costs_eq|apply cyc_rep|vm_compute; reflexivity].
Qed.

(** The order in which the hash map happens to iterate does not matter for the cost found. *)
Theorem C23_order_irrelevant {Op D} `{Countable Op} {C} (L : lang Op) (A : analysis Op D) ex
    (pcmp : C -> C -> option comparison) (cf : node Op -> list C -> C) (F : Op -> list C -> C)
    (g : egraph Op D) order order' fuel fuel' cs cs' i v :
  orders pcmp -> reachable L A ex g -> inhabited g -> traverses g order -> traverses g order' ->
  by_operator cf F -> monotone pcmp cf -> superior pcmp cf ->
  extractor_new pcmp cf fuel g order = Ok cs -> extractor_new pcmp cf fuel' g order' = Ok cs' ->
  find_best_cost g cs i = Ok v -> exists v', find_best_cost g cs' i = Ok v' /\ pcmp v v' = Some Eq.
Proof. intros Ho R Hi H1 H2. exact (extract_order L A ex pcmp cf Ho g order order' R Hi H1 H2 F fuel fuel' cs cs' i v). Qed.
Print Assumptions C23_order_irrelevant.
Example C23_order_ex : traverses cyc_g (keys cyc_g) /\ traverses cyc_g (reverse (keys cyc_g)) /\ keys cyc_g <> reverse (keys cyc_g) /\
  extractor_new usize_pcmp size2 5 cyc_g (keys cyc_g) = Ok (sat_costs (keys cyc_g)) /\
  extractor_new usize_pcmp size2 5 cyc_g (reverse (keys cyc_g)) = Ok (sat_costs (reverse (keys cyc_g))) /\
  (proj1_sig <$> find_best_cost cyc_g (sat_costs (keys cyc_g)) 3) = Ok 3%N.
Proof.
  split_and!; [apply keys_traverse|apply reverse_traverse, keys_traverse|vm_compute; done|apply sat_costs_eq|apply sat_costs_rev|vm_compute; reflexivity].
Qed.

(** The condition in the documentation of [CostFunction] -- the cost of a node exceeds the
    costs of its children -- does not suffice: without monotonicity the reported cost need
    not be minimal. *)
Theorem C23_exceeding_children_refuted : exists (g : egraph nat unit) order (cf : node nat -> list nat -> nat) F fuel cs i v t,
  reachable_np natlang unitan false g /\ eg_clean g = true /\ traverses g order /\ by_operator cf F /\
  (forall n vs v, v ∈ vs -> nat_pcmp v (cf n vs) = Some Lt) /\
  extractor_new nat_pcmp cf fuel g order = Ok cs /\ find_best_cost g cs i = Ok v /\ Rep g t (eg_find g i) /\ geval F t < v.
Proof. exact greedy_misses. Qed.
Print Assumptions C23_exceeding_children_refuted.

(** * C24 *)
(** The cost computation ends for every cost function whose costs cannot decrease forever,
    monotone or not, in every iteration order. *)
Theorem C24_terminates_well_founded {Op D} `{Countable Op} {C} (L : lang Op) (A : analysis Op D) ex
    (pcmp : C -> C -> option comparison) (cf : node Op -> list C -> C) (g : egraph Op D) order :
  orders pcmp -> reachable L A ex g -> inhabited g ->
  well_founded (fun a b => pcmp a b = Some Lt) -> exists fuel cs, extractor_new pcmp cf fuel g order = Ok cs.
Proof. intros Ho R Hi. exact (extract_terminates_wf L A ex pcmp cf Ho g order R Hi). Qed.
Print Assumptions C24_terminates_well_founded.
Example C24_wf_ex : reachable_np natlang unitan false cyc_g /\ traverses cyc_g (keys cyc_g) /\ orders nat_pcmp /\
  well_founded (fun a b => nat_pcmp a b = Some Lt) /\ length (keys cyc_g) = 2.
Proof. split_and!; [apply cyc_np|apply keys_traverse|apply nat_orders|apply nat_pcmp_wf|vm_compute; reflexivity]. Qed.

(** For a monotone cost function not below its children it ends within as many rounds as
    there are classes, plus one, even if costs could decrease forever (as fractions can). *)
Theorem C24_terminates_in_rounds {Op D} `{Countable Op} {C} (L : lang Op) (A : analysis Op D) ex
    (pcmp : C -> C -> option comparison) (cf : node Op -> list C -> C) (F : Op -> list C -> C) (g : egraph Op D) order :
  orders pcmp -> reachable L A ex g -> inhabited g -> traverses g order ->
  by_operator cf F -> monotone pcmp cf -> superior pcmp cf ->
  exists cs, extractor_new pcmp cf (S (length order)) g order = Ok cs.
Proof. intros Ho R Hi Hord. exact (extract_terminates L A ex pcmp cf Ho g order R Hi Hord F). Qed.
Print Assumptions C24_terminates_in_rounds.
Example C24_rounds_ex : reachable_np natlang unitan false cyc_g /\ inhabited cyc_g /\ traverses cyc_g (keys cyc_g) /\
  orders nat_pcmp /\ by_operator (@ast_depth nat) depth_op /\ monotone nat_pcmp (@ast_depth nat) /\ superior nat_pcmp (@ast_depth nat).
Proof.
  split_and!; [apply cyc_np|exact (np_inhabited _ _ _ _ cyc_np)|apply keys_traverse|apply nat_orders|apply ast_depth_op|
    apply ast_depth_monotone|apply ast_depth_superior].
Qed.

(** It does not panic as long as no class was emptied by hand ... *)
Theorem C24_no_panic {Op D} `{Countable Op} {C} (L : lang Op) (A : analysis Op D) ex
    (pcmp : C -> C -> option comparison) (cf : node Op -> list C -> C) (g : egraph Op D) order fuel :
  orders pcmp -> reachable_np L A ex g -> extractor_new pcmp cf fuel g order <> Panic.
Proof. intros Ho R. exact (extract_no_panic L A ex pcmp cf Ho g order (reachable_np_reachable L A ex g R) (np_inhabited L A ex g R) fuel). Qed.
Print Assumptions C24_no_panic.

(** ... and gives a cost to exactly the classes that represent some finite term: for the
    others [find_best_cost] panics. *)
Theorem C24_exactly_the_finite {Op D} `{Countable Op} {C} (L : lang Op) (A : analysis Op D) ex
    (pcmp : C -> C -> option comparison) (cf : node Op -> list C -> C) (g : egraph Op D) order fuel cs i :
  orders pcmp -> reachable L A ex g -> inhabited g -> traverses g order -> extractor_new pcmp cf fuel g order = Ok cs ->
  ((exists v, find_best_cost g cs i = Ok v) <-> exists t, Rep g t (eg_find g i)) /\
  (find_best_cost g cs i = Panic <-> ~ exists t, Rep g t (eg_find g i)).
Proof. intros Ho R Hi Hord. exact (extract_exactly L A ex pcmp cf Ho g order R Hi Hord fuel cs i). Qed.
Print Assumptions C24_exactly_the_finite.
Example C24_exactly_ex : reachable natlang unitan false prune_g /\ inhabited prune_g /\ traverses prune_g (keys prune_g) /\
  extractor_new nat_pcmp ast_depth 5 prune_g (keys prune_g) = Ok prune_costs /\
  find_best_cost prune_g prune_costs 0 = Panic /\ find_best_cost prune_g prune_costs 2 = Ok 1.
Proof.
  split_and!; [apply prune_reachable|apply prune_inhabited|apply keys_traverse|apply prune_costs_eq|vm_compute; reflexivity|vm_compute; reflexivity].
Qed.

(** Rebuilding the expression ends, for every cost function that is not below its children;
    cyclic classes and equal (saturated) costs included. *)
Theorem C24_find_best_total {Op D} `{Countable Op} {C} (L : lang Op) (A : analysis Op D) ex
    (pcmp : C -> C -> option comparison) (cf : node Op -> list C -> C) (g : egraph Op D) order fuel cs i :
  orders pcmp -> reachable L A ex g -> inhabited g -> traverses g order -> superior pcmp cf ->
  extractor_new pcmp cf fuel g order = Ok cs -> (exists t, Rep g t (eg_find g i)) ->
  exists v e t k, (forall fuel', k <= fuel' -> find_best fuel' g cs i = Ok (v, e)) /\ find_best_cost g cs i = Ok v /\
    dag e /\ ExprTree e t /\ Rep g t (eg_find g i).
Proof. intros Ho R Hi Hord. exact (extract_total L A ex pcmp cf Ho g order R Hi Hord fuel cs i). Qed.
Print Assumptions C24_find_best_total.
(** [find_best_node] answers for every id, with a node of its class: the root of what
    [find_best] answers, whose children are what it answers for the children of the node. *)
Theorem C24_best_node {Op D} `{Countable Op} {C} (L : lang Op) (A : analysis Op D) ex
    (pcmp : C -> C -> option comparison) (cf : node Op -> list C -> C) (g : egraph Op D) order fuel cs i :
  orders pcmp -> reachable L A ex g -> inhabited g -> traverses g order -> superior pcmp cf ->
  extractor_new pcmp cf fuel g order = Ok cs -> (exists t, Rep g t (eg_find g i)) ->
  exists n c ts v e k, find_best_node g cs i = Ok n /\ eg_classes g !! eg_find g i = Some c /\ n ∈ c_nodes c /\
    (forall fuel', k <= fuel' -> find_best fuel' g cs i = Ok (v, e)) /\ ExprTree e (TNode (nop n) ts) /\
    Forall2 (fun x u => exists v' e' k', (forall fuel', k' <= fuel' -> find_best fuel' g cs x = Ok (v', e')) /\ ExprTree e' u) (nch n) ts.
Proof. intros Ho R Hi Hord. exact (best_node L A ex pcmp cf Ho g order R Hi Hord fuel cs i). Qed.
Print Assumptions C24_best_node.
(** one-bit sizes: all costs are equal, and both classes are cyclic *)
Example C24_total_ex : superior usize_pcmp (@ast_size nat 1) /\
  (cs ← extractor_new usize_pcmp (@ast_size nat 1) 5 cyc_g (keys cyc_g); snd <$> find_best 9 cyc_g cs 3) = Ok [Node 0 []; Node 5 [0; 0]] /\
  (cs ← extractor_new usize_pcmp (@ast_size nat 1) 5 cyc_g (keys cyc_g); find_best_node cyc_g cs 3) = Ok (Node 5 [0; 0]).
Proof. split; [apply ast_size_superior|]. split; vm_compute; reflexivity. Qed.

(** That condition is needed: otherwise [find_best] may run forever. *)
Theorem C24_cheap_cycles_refuted : exists (g : egraph nat unit) order (cf : node nat -> list nat -> nat) F fuel cs i,
  reachable_np natlang unitan false g /\ eg_clean g = true /\ traverses g order /\ by_operator cf F /\ monotone nat_pcmp cf /\
  extractor_new nat_pcmp cf fuel g order = Ok cs /\ (exists t, Rep g t (eg_find g i)) /\ forall fuel', find_best fuel' g cs i = OutOfFuel.
Proof. exact cheap_cycles_loop. Qed.
Print Assumptions C24_cheap_cycles_refuted.

(** * C25 *)
(** [AstSize.cost_rec] is the number of nodes of the tree, saturating at [usize::MAX]; the
    [usize] type may have any number of bits. *)
Theorem C25_ast_size {Op} `{Countable Op} w (e : list (node Op)) t : dag e -> ExprTree e t ->
  exists v, cost_rec (ast_size w) e = Ok v /\ proj1_sig v = N.min (2 ^ N.pos w - 1) (N.of_nat (tsize t)).
Proof. exact (ast_size_rec w e t). Qed.
Print Assumptions C25_ast_size.
(** [AstDepth.cost_rec] is the height. *)
Theorem C25_ast_depth {Op} `{Countable Op} (e : list (node Op)) t : dag e -> ExprTree e t -> cost_rec ast_depth e = Ok (theight t).
Proof. exact (ast_depth_rec e t). Qed.
Print Assumptions C25_ast_depth.
(** a shared subexpression counts twice *)
Example C25_ex : dag ex_shared /\ ExprTree ex_shared ex_shared_t /\ (proj1_sig <$> cost_rec (ast_size 64) ex_shared) = Ok 5%N /\
  (proj1_sig <$> cost_rec (ast_size 2) ex_shared) = Ok 3%N /\ cost_rec ast_depth ex_shared = Ok 3.
Proof. split_and!; [apply rx_is_dag_dag; reflexivity|apply ex_shared_tree|vm_compute; reflexivity..]. Qed.

(** Both meet the conditions of the theorems above. *)
Theorem C25_ast_size_fits {Op} w : orders (@usize_pcmp w) /\ well_founded (fun a b : usize w => usize_pcmp a b = Some Lt) /\
  superior usize_pcmp (@ast_size Op w) /\ monotone usize_pcmp (@ast_size Op w) /\ exists F, by_operator (@ast_size Op w) F.
Proof.
  exact (conj (usize_orders w) (conj (usize_wf w) (conj (ast_size_superior w) (conj (ast_size_monotone w) (ex_intro _ _ (ast_size_op w)))))).
Qed.
Print Assumptions C25_ast_size_fits.
Theorem C25_ast_depth_fits {Op} : orders nat_pcmp /\ well_founded (fun a b => nat_pcmp a b = Some Lt) /\
  superior nat_pcmp (@ast_depth Op) /\ monotone nat_pcmp (@ast_depth Op) /\ exists F, by_operator (@ast_depth Op) F.
Proof.
  exact (conj nat_orders (conj nat_pcmp_wf (conj ast_depth_superior (conj ast_depth_monotone (ex_intro _ _ ast_depth_op))))).
Qed.
Print Assumptions C25_ast_depth_fits.

(** So the smallest term is found, whatever the iteration order: [Extractor::new(.., AstSize)]
    ends, and the size of the expression found is the least among all represented terms
    (up to saturation). *)
Theorem C25_smallest_term {Op D} `{Countable Op} (L : lang Op) (A : analysis Op D) ex w (g : egraph Op D) order i :
  reachable L A ex g -> inhabited g -> traverses g order -> (exists t, Rep g t (eg_find g i)) ->
  exists cs v e t k, extractor_new usize_pcmp (ast_size w) (S (length order)) g order = Ok cs /\
    (forall fuel', k <= fuel' -> find_best fuel' g cs i = Ok (v, e)) /\ ExprTree e t /\ Rep g t (eg_find g i) /\
    proj1_sig v = N.min (2 ^ N.pos w - 1) (N.of_nat (tsize t)) /\
    forall t', Rep g t' (eg_find g i) -> (proj1_sig v <= N.of_nat (tsize t'))%N.
Proof. exact (smallest_term L A ex w g order i). Qed.
Print Assumptions C25_smallest_term.
Example C25_smallest_ex : inhabited cyc_g /\ traverses cyc_g (keys cyc_g) /\ Rep cyc_g cyc_t (eg_find cyc_g 2) /\ tsize cyc_t = 5.
Proof. split_and!; [exact (np_inhabited _ _ _ _ cyc_np)|apply keys_traverse|apply cyc_rep|reflexivity]. Qed.
