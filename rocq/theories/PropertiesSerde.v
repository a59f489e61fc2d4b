(** Property C63: saving and loading e-graphs with serde.  Vocabulary: SerdeSpec.v (twins, blind programs), Spec.v, MatchSpec.v, ExplainSpec.v.
    The proofs are in SerdeProofs.v. *)
From Verif Require Import Base UnionFind EGraphModel EGraphPres Spec EGraphReach MachineModel MatchSpec ExplainModel ExplainSpec SerdeModel SerdeSpec SerdeProofs
  Examples ExamplesMatch ExamplesExplain ExamplesSerde.

(** * C63 *)
(** Without explanations: whatever the moment of saving (rebuilt or not, queues full or empty), a program that looks neither at the index nor at the flag
    [clean] ends on the loaded e-graph as on the saved one, in an e-graph that differs in these two parts only. *)
Theorem C63_program {Op D} `{Countable Op} (L : lang Op) (A : analysis Op D) (g : egraph Op D) p fuel :
  blind_analysis A -> blind p -> eg_explain g = None ->
  alike twins ((., tt) <$> run_prog L A fuel (modify_n L A fuel) p g) ((., tt) <$> run_prog L A fuel (modify_n L A fuel) p (load (save g))).
Proof. intros Hb. exact (load_run L A Hb g p fuel). Qed.
Print Assumptions C63_program.
Example C63_program_ex : blind_analysis unitan /\ blind morep /\ eg_explain (cong_g false false) = None /\
  more_ends (cong_g false false) = true /\ more_ends (load (save (cong_g false false))) = true.
Proof. exact (conj unitan_blind (conj morep_blind (conj (cong_unexplained false) more_ok))). Qed.
(** Rebuilding the loaded e-graph does what rebuilding the saved one does; then every search for a pattern or a multi-pattern finds the same
    (in the same order, if equal tables are walked in the same order). *)
Theorem C63_search {Op D} `{Countable Op} (L : lang Op) (A : analysis Op D) (g : egraph Op D) fuel h n :
  blind_analysis A -> eg_explain g = None -> rebuild L A fuel (modify_n L A fuel) g = Ok (h, n) ->
  exists h', rebuild L A fuel (modify_n L A fuel) (load (save g)) = Ok (h', n) /\ twins h h' /\ eg_clean h' = true /\
    forall it cycles limit, enumerates it ->
      (forall p, search_with_limit L it cycles p h' limit = search_with_limit L it cycles p h limit) /\
      (forall p, multi_search L it cycles p h' limit = multi_search L it cycles p h limit).
Proof. intros Hb. exact (load_search L A Hb g fuel h n). Qed.
Print Assumptions C63_search.
(** An e-graph saved after a rebuild is back after the loaded one is rebuilt: no unions, the same classes, ids, e-nodes and index. *)
Theorem C63_rebuilt {Op D} `{Countable Op} (L : lang Op) (A : analysis Op D) (g : egraph Op D) fuel g1 n fuel' :
  blind_analysis A -> lang_ok L -> reachable L A false g -> rebuild L A fuel (modify_n L A fuel) g = Ok (g1, n) ->
  exists g2, rebuild L A fuel' (modify_n L A fuel') (load (save g1)) = Ok (g2, 0) /\
    eg_classes g2 = eg_classes g1 /\ (forall i, eg_find g2 i = eg_find g1 i) /\ eg_nodes g2 = eg_nodes g1 /\ eg_memo g2 = eg_memo g1 /\
    (forall d r, (exists s, eg_by_op g2 !! d = Some s /\ r ∈ s) <-> (exists s, eg_by_op g1 !! d = Some s /\ r ∈ s)).
Proof. intros Hb. exact (load_rebuilt L A Hb g fuel g1 n fuel'). Qed.
Print Assumptions C63_rebuilt.
Example C63_rebuilt_ex : lang_ok natlang /\ reachable natlang unitan false (cong_g false false) /\ eg_explain (cong_g false false) = None /\
  loaded_count (cong_g false false) = Ok 2 /\ loaded_count (cong_g false true) = Ok 0.
Proof. exact (conj natlang_ok (conj (cong_g_reachable false false) (conj (cong_unexplained false) loaded_counts))). Qed.
(** With explanations: the loaded e-graph explains every equality of the saved one, by the equations asserted before it was saved. *)
Theorem C63_explain {Op D} `{Countable Op} (L : lang Op) (A : analysis Op D) (g : egraph Op D) l r t u :
  reachable L A true g -> AddedAs (eg_log g) l t -> AddedAs (eg_log g) r u -> eg_find g l = eg_find g r ->
  exists bound, forall fuel, bound <= fuel ->
    exists p, explain_id_equivalence fuel l r (load (save g)) = Ok p /\ proves (asserted (eg_log g)) p t u.
Proof. exact (load_explain L A g l r t u). Qed.
Print Assumptions C63_explain.
Example C63_explain_ex : reachable natlang unitan true (exp_g true) /\ (AddedAs (eg_log (exp_g true)) 4 hxt /\ AddedAs (eg_log (exp_g true)) 6 hzt) /\
  n_steps (explain_id_equivalence 10 4 6 (load (save (exp_g true)))) = Ok 2 /\ eg_find (exp_g true) 4 = eg_find (exp_g true) 6.
Proof. exact (conj (exp_reachable true) (conj exp_added loaded_explains)). Qed.
(** Before the rebuild, a search for a pattern with an operator at its root does not fail on a loaded e-graph: it finds nothing, whatever there was. *)
Theorem C63_search_loaded_refuted : exists (g : egraph nat unit) p, reachable_np natlang unitan false g /\ eg_clean g = true /\
  search_with_limit natlang it0 false p g 100 <> Ok [] /\ search_with_limit natlang it0 false p (load (save g)) 100 = Ok [].
Proof. exact (ex_intro _ match_g (ex_intro _ (compiled pat_f01) (conj match_g_np (conj match_g_clean match_lost)))). Qed.
Print Assumptions C63_search_loaded_refuted.
(** With explanations the loaded e-graph does not behave as the saved one: an equality stated again is recorded twice. *)
Theorem C63_explained_refuted : exists (g g1 g2 : egraph nat unit) p, reachable natlang unitan true g /\ blind p /\
  run_prog natlang unitan 20 (modify_n natlang unitan 20) p g = Ok g1 /\ run_prog natlang unitan 20 (modify_n natlang unitan 20) p (load (save g)) = Ok g2 /\
  equalities g1 = [(0, 1, 7)] /\ equalities g2 = [(0, 1, 7); (0, 1, 7)].
Proof.
  exact (ex_intro _ (cong_g true true) (ex_intro _ (again (cong_g true true)) (ex_intro _ (again (load (save (cong_g true true)))) (ex_intro _ againp
    (conj (cong_g_reachable true true) (conj againp_blind (conj (again_eq _ (proj1 again_ok)) (conj (again_eq _ (proj2 again_ok)) again_twice)))))))).
Qed.
Print Assumptions C63_explained_refuted.
