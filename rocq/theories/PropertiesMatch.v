(** Property theorems about e-matching (C18-C22) and multi-patterns (C37).
    Vocabulary: Spec.v ([Rep], [known], [reachable_np]), Terms.v ([ExprTree], [dag]),
    PatSpec.v ([PRep], [occurs], [tsubst], [rooted]), MatchSpec.v.
    [it] and [ord] are the (arbitrary) iteration orders of hash sets and of the pattern
    compiler's work list; [cycles] is what the analysis answers for [allow_ematching_cycles]. *)
From Verif Require Import Base EGraphModel Spec EGraphPres EGraphReach Terms RecExprModel ExprModel PatSpec MachineModel MatchSpec
  MachineProofs SearchMain MultiProofs MatchMain MatchProps Examples ExamplesExpr ExamplesMatch.

(** * C18 *)
(** [Pattern::new] succeeds on every well-formed AST; the pattern stands for the AST's tree
    (provided the AST has no unused nodes: see [C27] for what [compact] does otherwise). *)
Theorem C18_pattern_new {Op} `{Countable Op} (ord : gmap (nat * nat) (node Op) -> list (nat * nat)) (ast : list (node (pop Op))) :
  enumerates_keys ord -> good_ast ast ->
  (exists N p, forall fuel, N <= fuel -> pattern_new ord fuel ast = Ok p) /\
  forall fuel p, pattern_new ord fuel ast = Ok p ->
    (exists t, ExprTree (pt_ast p) t) /\ (rooted ast -> forall t, ExprTree ast t -> ExprTree (pt_ast p) t).
Proof. exact (pattern_made ord ast). Qed.
Print Assumptions C18_pattern_new.

(** Every substitution returned for a class binds exactly the pattern's variables and
    makes the pattern represented in that class. *)
Theorem C18_match_sound {Op D} `{Countable Op} (L : lang Op) (A : analysis Op D) it ord ex (g : egraph Op D) fuel ast p t cycles c k m :
  lang_ok L -> enumerates it -> enumerates_keys ord -> reachable_np L A ex g -> eg_clean g = true ->
  good_ast ast -> pattern_new ord fuel ast = Ok p -> ExprTree (pt_ast p) t -> known g c ->
  search_eclass_with_limit L it cycles p g c k = Ok (Some m) ->
  sm_class m = c /\ forall s, s ∈ sm_substs m ->
    (forall v, is_Some (subst_get s v) <-> occurs v t) /\ PRep g (subst_get s) t (eg_find g c).
Proof. intros Lo Hit Hord R Ec Ha E Ht. exact (match_sound L A Lo it Hit ord Hord ex g R Ec fuel ast Ha p E t Ht cycles c k m). Qed.
Print Assumptions C18_match_sound.
(** ... so with any terms of the bound classes for the variables, the instance is a term of the class. *)
Theorem C18_match_instances {Op D} `{Countable Op} (L : lang Op) (A : analysis Op D) it ord ex (g : egraph Op D) fuel ast p t cycles c k m s th :
  lang_ok L -> enumerates it -> enumerates_keys ord -> reachable_np L A ex g -> eg_clean g = true ->
  good_ast ast -> pattern_new ord fuel ast = Ok p -> ExprTree (pt_ast p) t -> known g c ->
  search_eclass_with_limit L it cycles p g c k = Ok (Some m) -> s ∈ sm_substs m ->
  (forall v i, subst_get s v = Some i -> Rep g (th v) (eg_find g i)) -> Rep g (tsubst th t) (eg_find g c).
Proof. intros Lo Hit Hord R Ec Ha E Ht. exact (match_sound_ground L A Lo it Hit ord Hord ex g R Ec fuel ast Ha p E t Ht cycles c k m s th). Qed.
Print Assumptions C18_match_instances.
(** Whole e-graph. *)
Theorem C18_search_sound {Op D} `{Countable Op} (L : lang Op) (A : analysis Op D) it ord ex (g : egraph Op D) fuel ast p t cycles k ms m s :
  lang_ok L -> enumerates it -> enumerates_keys ord -> reachable_np L A ex g -> eg_clean g = true ->
  good_ast ast -> pattern_new ord fuel ast = Ok p -> ExprTree (pt_ast p) t ->
  search_with_limit L it cycles p g k = Ok ms -> m ∈ ms -> s ∈ sm_substs m ->
  known g (sm_class m) /\ eg_find g (sm_class m) = sm_class m /\
  (forall v, is_Some (subst_get s v) <-> occurs v t) /\ (forall v i, subst_get s v = Some i -> known g i /\ eg_find g i = i) /\
  PRep g (subst_get s) t (sm_class m).
Proof. intros Lo Hit Hord R Ec Ha E Ht. exact (search_sound L A Lo it Hit ord Hord ex g R Ec fuel ast Ha p E t Ht cycles k ms m s). Qed.
Print Assumptions C18_search_sound.
(** f(?0,?0) in an e-graph where x = y was asserted: found in the class of f(x,y) *)
Example C18_ex : lang_ok natlang /\ enumerates it0 /\ enumerates_keys ord0 /\ reachable_np natlang unitan false match_g /\
  eg_clean match_g = true /\ good_ast pat_f00 /\ pattern_new ord0 50 pat_f00 = Ok (compiled pat_f00) /\
  ExprTree (pt_ast (compiled pat_f00)) pat_f00_t /\ known match_g 3 /\
  search_eclass_with_limit natlang it0 true (compiled pat_f00) match_g 3 5 = Ok (Some (SMatch 3 [[(0, 0)]])) /\
  search_with_limit natlang it0 true (compiled pat_f00) match_g 5 = Ok [SMatch 2 [[(0, 0)]]].
Proof.
  split_and!; [apply natlang_ok|apply it0_ok|apply ord0_ok|apply match_g_np|apply match_g_clean|apply pat_f00_good|apply pat_f00_new|
    apply pat_f00_tree|apply Nat.ltb_lt; vm_compute; reflexivity|vm_compute; reflexivity|vm_compute; reflexivity].
Qed.

(** * C19 *)
(** Every substitution of known classes making the pattern represented in the class is
    returned (up to the class representatives it names), once the limit is large enough. *)
Theorem C19_match_complete {Op D} `{Countable Op} (L : lang Op) (A : analysis Op D) it ord ex (g : egraph Op D) fuel ast p t c :
  lang_ok L -> enumerates it -> enumerates_keys ord -> reachable_np L A ex g -> eg_clean g = true ->
  good_ast ast -> pattern_new ord fuel ast = Ok p -> ExprTree (pt_ast p) t -> known g c ->
  exists N, forall k sg, N <= k -> (forall v i, sg v = Some i -> known g i) -> PRep g sg t (eg_find g c) ->
  exists m s, search_eclass_with_limit L it true p g c k = Ok (Some m) /\ s ∈ sm_substs m /\
    forall v, occurs v t -> eg_find g <$> subst_get s v = eg_find g <$> sg v.
Proof.
  intros Lo Hit Hord R Ec Ha E Ht. exact (match_complete L A Lo it Hit ord Hord ex g R Ec fuel ast Ha p E t Ht true c eq_refl).
Qed.
Print Assumptions C19_match_complete.
Theorem C19_search_complete {Op D} `{Countable Op} (L : lang Op) (A : analysis Op D) it ord ex (g : egraph Op D) fuel ast p t :
  lang_ok L -> enumerates it -> enumerates_keys ord -> reachable_np L A ex g -> eg_clean g = true ->
  good_ast ast -> pattern_new ord fuel ast = Ok p -> ExprTree (pt_ast p) t ->
  exists N, forall k, N <= k -> exists ms, search_with_limit L it true p g k = Ok ms /\
    forall sg x, (forall v i, sg v = Some i -> known g i) -> PRep g sg t x ->
      exists m s, m ∈ ms /\ sm_class m = x /\ s ∈ sm_substs m /\ forall v, occurs v t -> subst_get s v = eg_find g <$> sg v.
Proof.
  intros Lo Hit Hord R Ec Ha E Ht. exact (search_complete L A Lo it Hit ord Hord ex g R Ec fuel ast Ha p E t Ht true eq_refl).
Qed.
Print Assumptions C19_search_complete.
(** f(?0,?1) has two instances *)
Example C19_ex : good_ast pat_f01 /\ pattern_new ord0 50 pat_f01 = Ok (compiled pat_f01) /\
  ExprTree (pt_ast (compiled pat_f01)) pat_f01_t /\
  search_with_limit natlang it0 true (compiled pat_f01) match_g 5 = Ok [SMatch 5 [[(0, 4); (1, 0)]]; SMatch 2 [[(0, 0); (1, 0)]]].
Proof. split_and!; [apply pat_f01_good|apply pat_f01_new|apply pat_f01_tree|vm_compute; reflexivity]. Qed.

(** * C20 *)
(** No substitution of a class is returned twice, not even under different names of the same classes. *)
Theorem C20_match_no_duplicates {Op D} `{Countable Op} (L : lang Op) (A : analysis Op D) it ord ex (g : egraph Op D) fuel ast p t cycles c k m :
  lang_ok L -> enumerates it -> enumerates_keys ord -> reachable_np L A ex g -> eg_clean g = true ->
  good_ast ast -> pattern_new ord fuel ast = Ok p -> ExprTree (pt_ast p) t -> known g c ->
  search_eclass_with_limit L it cycles p g c k = Ok (Some m) ->
  NoDup (sm_substs m) /\ forall s1 s2, s1 ∈ sm_substs m -> s2 ∈ sm_substs m -> same_sub g s1 s2 -> s1 = s2.
Proof. intros Lo Hit Hord R Ec Ha E Ht. exact (match_nodup L A Lo it Hit ord Hord ex g R Ec fuel ast Ha p E t Ht cycles c k m). Qed.
Print Assumptions C20_match_no_duplicates.
Theorem C20_search_no_duplicates {Op D} `{Countable Op} (L : lang Op) (A : analysis Op D) it ord ex (g : egraph Op D) fuel ast p t cycles k ms :
  lang_ok L -> enumerates it -> enumerates_keys ord -> reachable_np L A ex g -> eg_clean g = true ->
  good_ast ast -> pattern_new ord fuel ast = Ok p -> ExprTree (pt_ast p) t ->
  search_with_limit L it cycles p g k = Ok ms -> NoDup (sm_class <$> ms) /\ NoDup (pairs ms).
Proof. intros Lo Hit Hord R Ec Ha E Ht. exact (search_nodup L A Lo it Hit ord Hord ex g R Ec fuel ast Ha p E t Ht cycles k ms). Qed.
Print Assumptions C20_search_no_duplicates.
(** g(f(?0,?1)): f(x,y) and f(y,x) are the same e-node after the union, found once *)
Example C20_ex : good_ast pat_gf /\ pattern_new ord0 50 pat_gf = Ok (compiled pat_gf) /\ ExprTree (pt_ast (compiled pat_gf)) pat_gf_t /\
  search_with_limit natlang it0 true (compiled pat_gf) match_g 5 = Ok [SMatch 4 [[(0, 0); (1, 0)]]].
Proof. split_and!; [apply pat_gf_good|apply pat_gf_new|apply pat_gf_tree|vm_compute; reflexivity]. Qed.

(** * C21 *)
(** Limits only truncate; searching a class never panics. *)
Theorem C21_match_limit {Op D} `{Countable Op} (L : lang Op) (A : analysis Op D) it ord ex (g : egraph Op D) fuel ast p t cycles c :
  lang_ok L -> enumerates it -> enumerates_keys ord -> reachable_np L A ex g -> eg_clean g = true ->
  good_ast ast -> pattern_new ord fuel ast = Ok p -> ExprTree (pt_ast p) t -> known g c ->
  exists all, forall k, search_eclass_with_limit L it cycles p g c k = Ok (wrap c (take k all)).
Proof. intros Lo Hit Hord R Ec Ha E Ht. exact (match_limit L A Lo it Hit ord Hord ex g R Ec fuel ast Ha p E t Ht cycles c). Qed.
Print Assumptions C21_match_limit.
Theorem C21_search_limit {Op D} `{Countable Op} (L : lang Op) (A : analysis Op D) it ord ex (g : egraph Op D) fuel ast p t cycles :
  lang_ok L -> enumerates it -> enumerates_keys ord -> reachable_np L A ex g -> eg_clean g = true ->
  good_ast ast -> pattern_new ord fuel ast = Ok p -> ExprTree (pt_ast p) t ->
  exists all, forall k, exists ms, search_with_limit L it cycles p g k = Ok ms /\ pairs ms = take k all /\
    Forall (fun m => sm_substs m <> []) ms.
Proof. intros Lo Hit Hord R Ec Ha E Ht. exact (search_limit L A Lo it Hit ord Hord ex g R Ec fuel ast Ha p E t Ht cycles). Qed.
Print Assumptions C21_search_limit.
Example C21_ex : search_with_limit natlang it0 true (compiled pat_f01) match_g 1 = Ok [SMatch 5 [[(0, 4); (1, 0)]]] /\
  search_with_limit natlang it0 true (compiled pat_f01) match_g 0 = Ok [].
Proof. split; vm_compute; reflexivity. Qed.

(** * C22 *)
(** In every class of a rebuilt e-graph, node matching visits exactly the e-nodes with the
    operator and arity of the pattern node, in the class's order, on both paths. *)
Theorem C22_matching_nodes {Op D} `{Countable Op} (L : lang Op) (A : analysis Op D) ex (g : egraph Op D) r c n :
  lang_ok L -> reachable L A ex g -> eg_clean g = true -> eg_classes g !! r = Some c -> Forall (fun x => x = 0) (nch n) ->
  matching_nodes L n (c_nodes c) = Ok (filter (fun m => nop m = nop n /\ length (nch m) = length (nch n)) (c_nodes c)).
Proof. exact (matching_class L A ex g r c n). Qed.
Print Assumptions C22_matching_nodes.
(** a class of 61 e-nodes, searched by bisection *)
Example C22_ex : lang_ok natlang /\ reachable natlang unitan false big_g /\ eg_clean big_g = true /\
  (length <$> (c_nodes <$> eg_classes big_g !! 0)) = Some 61 /\
  (c ← expect (eg_classes big_g !! 0); matching_nodes natlang (Node 7 [0; 0]) (c_nodes c)) = Ok [Node 7 [0; 0]].
Proof. split_and!; [apply natlang_ok|apply big_g_reachable|vm_compute; reflexivity|vm_compute; reflexivity|vm_compute; reflexivity]. Qed.

(** * C37, searching *)
Theorem C37_multi_new {Op} `{Countable Op} (ord : gmap (nat * nat) (node Op) -> list (nat * nat)) v1 p1 (ps : list (nat * list (node (pop Op)))) :
  enumerates_keys ord -> Forall (fun cl => good_ast cl.2) ((v1, p1) :: ps) -> op_root p1 ->
  exists N mp, forall fuel, N <= fuel -> multipattern_new ord fuel ((v1, p1) :: ps) = Ok mp.
Proof. exact (multi_made ord v1 p1 ps). Qed.
Print Assumptions C37_multi_new.
(** A search of the e-graph returns, without repetition and up to truncation by the limit,
    exactly the substitutions of canonical classes for the variables of the clauses that
    satisfy all the clauses; the class reported is that of the first clause's variable. *)
Theorem C37_multi_search {Op D} `{Countable Op} (L : lang Op) (A : analysis Op D) it ord ex (g : egraph Op D) fuel v1 p1 ps mp cycles :
  lang_ok L -> enumerates it -> enumerates_keys ord -> reachable_np L A ex g -> eg_clean g = true ->
  Forall (fun cl => good_ast cl.2) ((v1, p1) :: ps) -> op_root p1 -> multipattern_new ord fuel ((v1, p1) :: ps) = Ok mp ->
  exists all : list (nat * subst),
    (forall k, exists ms, multi_search L it cycles mp g k = Ok ms /\ pairs ms = take k all /\
       NoDup (sm_class <$> ms) /\ Forall (fun m => sm_substs m <> []) ms) /\
    NoDup all /\
    (forall c s, (c, s) ∈ all ->
      (forall w, is_Some (subst_get s w) <-> exists cl, cl ∈ (v1, p1) :: ps /\ mentions cl w) /\
      (forall v i, subst_get s v = Some i -> known g i /\ eg_find g i = i) /\
      subst_get s v1 = Some c /\ Forall (holds g (subst_get s)) ((v1, p1) :: ps)) /\
    (cycles = true -> forall sg, (forall v i, sg v = Some i -> known g i) -> Forall (holds g sg) ((v1, p1) :: ps) ->
      exists c s, (c, s) ∈ all /\ forall w cl, cl ∈ (v1, p1) :: ps -> mentions cl w -> subst_get s w = eg_find g <$> sg w).
Proof. exact (multi_search_main L A it ord ex g fuel v1 p1 ps mp cycles). Qed.
Print Assumptions C37_multi_search.
Example C37_ex : Forall (fun cl => good_ast cl.2) clauses /\ multipattern_new ord0 50 clauses = Ok mpat /\
  multi_search natlang it0 true mpat match_g 9 = Ok [SMatch 2 [[(0, 2); (1, 0); (2, 0); (3, 4)]]].
Proof. split_and!; [apply clauses_good|apply mpat_new|vm_compute; reflexivity]. Qed.
(** The first clause's root must not be a variable: the search panics otherwise, also in the
    case that the check in [search_eclass_with_limit] does not notice. *)
Theorem C37_variable_first_clause_refuted : exists (ps : list (nat * list (node (pop nat)))) mp,
  Forall (fun cl => good_ast cl.2) ps /\ multipattern_new ord0 50 ps = Ok mp /\
  multi_search natlang it0 true mp match_g 9 = Panic.
Proof. exact (ex_intro _ bad_clauses (ex_intro _ _ (conj bad_clauses_good (conj eq_refl eq_refl)))). Qed.
Print Assumptions C37_variable_first_clause_refuted.
