(** Property theorems about extraction by integer linear programming (C46, C50).
    Vocabulary: Spec.v ([Rep], [known]), LpSpec.v ([uses], [feasible], [optimal],
    [selection], [built_from], [total]).  The solver itself is external: the theorems are
    about every answer that satisfies the bounds and constraints it is given. *)
From Verif Require Import Base EGraphModel EGraphPres Spec EGraphReach Terms RecExprModel LpModel LpSpec LpProofs LpExtract Examples ExamplesLp.

(** * C46 *)
(** The search for cycles ends without panicking; without the e-nodes it reports no class
    can reach itself, so every choice of e-nodes that avoids them is acyclic.  Every
    reported e-node does lie on a cycle. *)
Theorem C46_cycle_breaking {Op D} `{Countable Op} (L : lang Op) (A : analysis Op D) ex (g : egraph Op D) (o : list nat) :
  lang_ok L -> reachable L A ex g -> eg_clean g = true -> (forall c, c ∈ o <-> is_Some (eg_classes g !! c)) ->
  exists bound rep, (forall fuel, bound <= fuel -> find_cycles fuel o g = Ok rep) /\
    (forall c, ~ tc (uses g rep) c c) /\
    (forall c i, (c, i) ∈ rep -> exists k n v, eg_classes g !! c = Some k /\ c_nodes k !! i = Some n /\ v ∈ nch n /\ rtc (uses g []) v c).
Proof. exact (cycles_spec L A ex g o). Qed.
Print Assumptions C46_cycle_breaking.
Example C46_ex : lang_ok natlang /\ reachable natlang unitan false lpc_g /\ eg_clean lpc_g = true /\ (forall c, c ∈ [0; 1] <-> is_Some (eg_classes lpc_g !! c)) /\
  tc (uses lpc_g []) 0 0 /\ find_cycles 20 [0; 1] lpc_g = Ok [(0, 1)] /\ find_cycles 20 [1; 0] lpc_g = Ok [(1, 0)].
Proof. exact (conj natlang_ok (conj lpc_reachable (conj lpc_clean (conj (lpc_keys true) (conj lpc_tc lpc_found))))). Qed.

(** * C50 *)
(** The constraints are built without panicking.  They have a solution exactly if some set
    of e-nodes avoids the reported ones, has at most one e-node per class and covers the
    roots and the children.  From every solution the code reads, without panicking, an
    expression made of such a set, one entry per class, in which each root's entry is a term
    of the root's class.  It costs no more than the solution's objective value; if the
    solution is optimal, no other such set costs less. *)
Theorem C50_solution_to_expression {Op D} `{Countable Op} (L : lang Op) (A : analysis Op D) ex (g : egraph Op D) (o o' roots : list nat) rep fuel0 :
  lang_ok L -> reachable L A ex g -> eg_clean g = true ->
  (forall c, c ∈ o <-> is_Some (eg_classes g !! c)) -> NoDup o -> (forall c, c ∈ o' <-> is_Some (eg_classes g !! c)) ->
  (forall r, r ∈ roots -> known g r) -> find_cycles fuel0 o g = Ok rep ->
  exists cs, lp_constraints g rep o' roots = Ok cs /\
  ((exists sol, feasible sol (lp_bounds rep o g) cs) <-> exists sel, selection g rep roots sel) /\
  (forall sol, feasible sol (lp_bounds rep o g) cs -> exists bound e idxs sel,
    (forall fuel, bound <= fuel -> extract_solution fuel g sol roots = Ok (e, idxs)) /\
    dag e /\ built_from g sel e /\ selection g rep roots sel /\
    Forall2 (fun r x => exists t, Tree e x t /\ Rep g t (eg_find g r)) roots idxs /\
    forall cost, (forall c i, 0 <= cost c i)%Z -> (total cost sel <= lval sol (lp_objective cost o g))%Z /\
      (optimal sol (lp_objective cost o g) (lp_bounds rep o g) cs ->
       forall sel', selection g rep roots sel' -> (total cost sel <= total cost sel')%Z)).
Proof. intros Lo R Ec Ho Hno Ho' Hr. exact (lp_ok L A ex g Lo R Ec o o' Ho Hno Ho' roots Hr rep fuel0). Qed.
Print Assumptions C50_solution_to_expression.
Example C50_ex : find_cycles 20 [0; 1] lpc_g = Ok [(0, 1)] /\ lp_constraints lpc_g [(0, 1)] [0; 1] [1] = Ok (lpc_cs true) /\
  feasible lpc_sol (lp_bounds [(0, 1)] [0; 1] lpc_g) (lpc_cs true) /\ extract_solution 20 lpc_g lpc_sol [1] = Ok ([Node 0 []; Node 1 [0]], [1]).
Proof. exact (conj (proj1 lpc_found) (conj (proj1 lpc_cons) (conj lpc_feasible lpc_extract))). Qed.

(** With cost 1 per e-node ([AstSize]) on an e-graph without cycles, an optimal solution
    gives an expression no longer than any set of terms of the e-graph that contains a term
    for each root and all subterms: the best possible with sharing. *)
Theorem C50_smallest_with_sharing {Op D} `{Countable Op} (L : lang Op) (A : analysis Op D) ex (g : egraph Op D) (o o' roots : list nat) rep fuel0 cs sol :
  lang_ok L -> reachable_np L A ex g -> eg_clean g = true ->
  (forall c, c ∈ o <-> is_Some (eg_classes g !! c)) -> NoDup o -> (forall c, c ∈ o' <-> is_Some (eg_classes g !! c)) ->
  (forall r, r ∈ roots -> known g r) -> (forall c, ~ tc (uses g []) c c) ->
  find_cycles fuel0 o g = Ok rep -> lp_constraints g rep o' roots = Ok cs ->
  optimal sol (lp_objective (fun _ _ => 1%Z) o g) (lp_bounds rep o g) cs ->
  exists bound e idxs, (forall fuel, bound <= fuel -> extract_solution fuel g sol roots = Ok (e, idxs)) /\
  forall ts, (forall f us u, TNode f us ∈ ts -> u ∈ us -> u ∈ ts) -> (forall t, t ∈ ts -> exists c, Rep g t c) ->
    (forall r, r ∈ roots -> exists t, t ∈ ts /\ Rep g t (eg_find g r)) -> length e <= length ts.
Proof. intros Lo R Ec. exact (lp_smallest L A ex g Lo R Ec o o' roots rep fuel0 cs sol). Qed.
Print Assumptions C50_smallest_with_sharing.
Example C50_smallest_ex : reachable_np natlang unitan false shr_g /\ eg_clean shr_g = true /\ (forall c, c ∈ [0; 1; 2] <-> is_Some (eg_classes shr_g !! c)) /\ NoDup [0; 1; 2] /\
  (forall r, r ∈ [1] -> known shr_g r) /\ (forall c, ~ tc (uses shr_g []) c c) /\ find_cycles 20 [0; 1; 2] shr_g = Ok [] /\
  lp_constraints shr_g [] [0; 1; 2] [1] = Ok shr_cs /\ optimal shr_sol (lp_objective (fun _ _ => 1%Z) [0; 1; 2] shr_g) (lp_bounds [] [0; 1; 2] shr_g) shr_cs /\
  extract_solution 20 shr_g shr_sol [1] = Ok ([Node 0 []; Node 2 [0; 0; 0]], [1]).
Proof.
  exact (conj shr_reachable_np (conj shr_clean (conj shr_keys (conj shr_nodup (conj shr_known (conj shr_acyclic (conj shr_found (conj shr_cons (conj shr_optimal shr_extract))))))))).
Qed.

(** But on cyclic e-graphs the problem given to the solver need not have a solution (the
    code then panics) although the root has a term: which e-nodes are given up depends on
    the order in which the classes are visited. *)
Theorem C50_lost_solution_refuted : exists (g : egraph nat unit) o rep cs r t,
  reachable natlang unitan false g /\ eg_clean g = true /\ (forall c, c ∈ o <-> is_Some (eg_classes g !! c)) /\ NoDup o /\
  find_cycles 20 o g = Ok rep /\ lp_constraints g rep o [r] = Ok cs /\ Rep g t (eg_find g r) /\
  forall sol, ~ feasible sol (lp_bounds rep o g) cs.
Proof. exact lost_solution. Qed.
Print Assumptions C50_lost_solution_refuted.
