(** Property theorems about rules (C30, C31, C36) and multi-pattern appliers (C37).
    Vocabulary: Spec.v, Terms.v, PatSpec.v, MatchSpec.v, AlgSpec.v ([models], [peval],
    [value_of]), RuleSpec.v. *)
From Verif Require Import Base EGraphModel Spec EGraphPres EGraphReach Terms RecExprModel ExprModel PatSpec MachineModel MatchSpec
  RewriteModel RunnerModel AlgSpec RuleSpec AnswerProofs AnswerIds Completion RuleProps CondProps RewriteMain Examples ExamplesExpr ExamplesMatch ExamplesRewrite.

(** * C30 *)
(** [Rewrite::new] is an error exactly when the applier mentions a variable the searcher lacks. *)
Theorem C30_rejected {Op D} `{Countable Op} name (s : searcher (Op := Op)) (a : applier Op D) :
  rewrite_new name s a = None <-> exists v, needs a v /\ ~ provides s v.
Proof. exact (rewrite_new_none name s a). Qed.
Print Assumptions C30_rejected.
Example C30_ex_rejected : rewrite_new (D := unit) 1 (SPattern (compiled pat_f00)) (APattern pat_f10) = None /\
  rewrite_new (D := unit) 1 (SPattern (compiled pat_f01)) (APattern pat_f10) = Some comm.
Proof. split; vm_compute; reflexivity. Qed.
(** An accepted rule, applied to its own matches, does not panic: not on a missing
    variable nor on anything else, whatever the applier and the analysis (as long as client
    code only uses ids it was given). *)
Theorem C30_accepted_no_panic {Op D} `{Countable Op} (L : lang Op) (A : analysis Op D) it ord ex (g : egraph Op D) name s (a : applier Op D) rw
    cycles k ms fuel here :
  lang_ok L -> enumerates it -> enumerates_keys ord -> reachable_np L A ex g -> eg_clean g = true ->
  (forall id N, id < N -> uses_known N (an_modify A id)) -> searcher_built ord s -> applier_fine a ->
  (ex = true -> forall m p, s = SMulti m -> a <> APattern p) ->
  rewrite_new name s a = Some rw -> searcher_search L it cycles s g k = Ok ms -> rewrite_apply L A fuel here rw ms g <> Panic.
Proof. intros Lo Hit Hord R Ec. exact (rule_no_panic L A Lo it Hit ord Hord ex g R Ec name s a rw cycles k ms fuel here). Qed.
Print Assumptions C30_accepted_no_panic.
Example C30_ex_accepted : reachable_np natlang unitan false (rw_g false) /\ eg_clean (rw_g false) = true /\
  (forall id N, id < N -> uses_known N (an_modify unitan id)) /\
  searcher_built ord0 (SPattern (compiled pat_f01)) /\ applier_fine (APattern (D := unit) pat_f10) /\
  rewrite_new 1 (SPattern (compiled pat_f01)) (APattern pat_f10) = Some comm /\
  searcher_search natlang it0 true (SPattern (compiled pat_f01)) (rw_g false) 9 = Ok comm_ms /\
  rewrite_apply natlang unitan 20 9 comm comm_ms (rw_g false) = Ok (comm_g1, [2]).
Proof.
  split_and!; [apply rw_g_np|apply rw_g_clean|constructor|apply pat_f01_built|apply pat_f10_good|vm_compute; reflexivity|apply comm_ms_found|apply comm_g1_eq].
Qed.
(** Without "all nodes are used" this fails: a searcher AST with an unused variable node is
    accepted as providing the variable, but its matches do not bind it. *)
Theorem C30_unused_variable_refuted : exists (g : egraph nat unit) ast p a rw ms,
  reachable_np natlang unitan false g /\ eg_clean g = true /\ good_ast ast /\ pattern_new ord0 50 ast = Ok p /\ applier_fine a /\
  rewrite_new 1 (SPattern p) a = Some rw /\ searcher_search natlang it0 true (SPattern p) g 9 = Ok ms /\
  rewrite_apply natlang unitan 20 9 rw ms g = Panic.
Proof.
  exists (rw_g false), pat_unused, (compiled pat_unused), (APattern bare), unused_rule, [SMatch 0 [[]]].
  split_and!; [apply rw_g_np|apply rw_g_clean|apply pat_unused_good|apply pat_unused_new|apply bare_good|
    vm_compute; reflexivity|vm_compute; reflexivity|vm_compute; reflexivity].
Qed.
Print Assumptions C30_unused_variable_refuted.
(** Nor does it hold for a multi-pattern searcher with a pattern applier when explanations are on. *)
Theorem C30_multi_searcher_explained_refuted : exists (g : egraph nat unit) s p rw ms,
  reachable_np natlang unitan true g /\ eg_clean g = true /\ searcher_built ord0 s /\ applier_fine (APattern (D := unit) p) /\
  rewrite_new 1 s (APattern p) = Some rw /\ searcher_search natlang it0 true s g 9 = Ok ms /\
  rewrite_apply natlang unitan 20 9 rw ms g = Panic.
Proof.
  exists (rw_g true), (SMulti mpat), bare, (Rewrite 1 (SMulti mpat) (APattern bare)), multi_ms.
  split_and!; [apply rw_g_np|apply rw_g_clean|apply mpat_built|apply bare_good|vm_compute; reflexivity|apply multi_ms_found|vm_compute; reflexivity].
Qed.
Print Assumptions C30_multi_searcher_explained_refuted.
(** Nor for a conditional applier over a multi-pattern applier. *)
Theorem C30_conditional_multi_refuted : exists (g : egraph nat unit) s c asts rw ms,
  reachable_np natlang unitan false g /\ eg_clean g = true /\ searcher_built ord0 s /\ cond_fine c /\ applier_fine (AMulti (D := unit) asts) /\
  rewrite_new 1 s (ACond c (AMulti asts)) = Some rw /\ searcher_search natlang it0 true s g 9 = Ok ms /\
  rewrite_apply natlang unitan 20 9 rw ms g = Panic.
Proof.
  exists (rw_g false), (SMulti mpat), (CEqual bare bare), mapp, (Rewrite 1 (SMulti mpat) (ACond (CEqual bare bare) (AMulti mapp))), multi_ms.
  split_and!; [apply rw_g_np|apply rw_g_clean|apply mpat_built|split; apply bare_good|apply mapp_good|vm_compute; reflexivity|
    apply multi_ms_found|vm_compute; reflexivity].
Qed.
Print Assumptions C30_conditional_multi_refuted.

(** * C31 *)
(** Applying a pattern rule to any list of matches found by its searcher, then rebuilding:
    under each substitution both sides are represented in the matched class. *)
Theorem C31_instances_equal {Op D} `{Countable Op} (L : lang Op) (A : analysis Op D) it ord ex (g : egraph Op D) fuel0 ast pl tl pr tr
    cycles k ms name fuel here g1 ids fuel' g2 n :
  lang_ok L -> enumerates it -> enumerates_keys ord -> reachable_np L A ex g -> eg_clean g = true ->
  good_ast ast -> pattern_new ord fuel0 ast = Ok pl -> ExprTree (pt_ast pl) tl -> good_ast pr -> ExprTree pr tr ->
  search_with_limit L it cycles pl g k = Ok ms ->
  rewrite_apply L A fuel here (Rewrite name (SPattern pl) (APattern pr)) ms g = Ok (g1, ids) ->
  rebuild L A fuel' (modify_n L A fuel') g1 = Ok (g2, n) ->
  reachable_np L A ex g2 /\ eg_clean g2 = true /\
  (forall m s, m ∈ ms -> s ∈ sm_substs m ->
     PRep g2 (subst_get s) tl (eg_find g2 (sm_class m)) /\ PRep g2 (subst_get s) tr (eg_find g2 (sm_class m))) /\
  (** ... and, if hooks do nothing, no other equality is added: two old ids are equal
      exactly if they have the same value in every algebra and valuation in which the
      history of [g] holds and the right-hand instances equal the matched classes *)
  (hook_free A -> forall a b, known g a -> known g b ->
     (eg_find g2 a = eg_find g2 b <-> forall (V : Type) (F : Op -> list V -> V) nu, obeys F nu g ms tr -> nu a = nu b)).
Proof.
  intros Lo Hit Hord R Ec.
  exact (pattern_rule_main L A Lo it Hit ord Hord ex g R Ec fuel0 ast pl tl pr tr cycles k ms name fuel here g1 ids fuel' g2 n).
Qed.
Print Assumptions C31_instances_equal.
Example C31_ex : lang_ok natlang /\ reachable_np natlang unitan false (rw_g false) /\ eg_clean (rw_g false) = true /\ good_ast pat_f01 /\
  pattern_new ord0 50 pat_f01 = Ok (compiled pat_f01) /\ ExprTree (pt_ast (compiled pat_f01)) pat_f01_t /\ good_ast pat_f10 /\ ExprTree pat_f10 pat_f10_t /\
  search_with_limit natlang it0 true (compiled pat_f01) (rw_g false) 9 = Ok comm_ms /\
  rewrite_apply natlang unitan 20 9 comm comm_ms (rw_g false) = Ok (comm_g1, [2]) /\
  rebuild natlang unitan 20 (modify_n natlang unitan 20) comm_g1 = Ok (comm_g2, 1) /\ hook_free unitan /\
  (eg_find (rw_g false) 2, eg_find (rw_g false) 3, eg_find (rw_g false) 4, eg_find (rw_g false) 5) = (2, 3, 4, 5) /\
  (eg_find comm_g2 2, eg_find comm_g2 3, eg_find comm_g2 4, eg_find comm_g2 5) = (2, 2, 4, 4).
Proof.
  split_and!; [apply natlang_ok|apply rw_g_np|apply rw_g_clean|apply pat_f01_good|apply pat_f01_new|apply pat_f01_tree|apply pat_f10_good|
    apply pat_f10_tree|apply comm_ms_found|apply comm_g1_eq|apply comm_g2_eq|done|vm_compute; reflexivity|vm_compute; reflexivity].
Qed.
(** A pattern or conditional rule whose application answers no changed class merged no two classes. *)
Theorem C31_no_change_reported {Op D} `{Countable Op} (L : lang Op) (A : analysis Op D) ex (g : egraph Op D) fuel here (a : applier Op D) sast rule ms g1
    fuel' g2 n :
  hook_free A -> (forall p, sast = Some p -> good_ast p) -> pattern_applier a -> reachable L A ex g -> eg_pending g = [] ->
  apply_matches L A fuel here a sast rule ms g = Ok (g1, []) -> rebuild L A fuel' (modify_n L A fuel') g1 = Ok (g2, n) ->
  forall i j, known g i -> known g j -> (eg_find g2 i = eg_find g2 j <-> eg_find g i = eg_find g j).
Proof. intros Hh. exact (idle_application L A Hh ex fuel here a sast rule ms g g1 fuel' g2 n). Qed.
Print Assumptions C31_no_change_reported.
Example C31_ex_idle : hook_free unitan /\ good_ast (pt_ast (compiled pat_f01)) /\ pattern_applier (APattern (D := unit) pat_f10) /\
  reachable natlang unitan false comm_g2 /\ eg_pending comm_g2 = [] /\
  apply_matches natlang unitan 20 9 (APattern pat_f10) (Some (pt_ast (compiled pat_f01))) 1 comm_ms' comm_g2 = Ok (comm_g3, []) /\
  rebuild natlang unitan 20 (modify_n natlang unitan 20) comm_g3 = Ok (comm_g4, 0).
Proof.
  split_and!; [done|apply pat_f01_good|apply pat_f10_good|apply comm_g2_reachable|vm_compute; reflexivity|apply comm_g3_eq|apply comm_g4_eq].
Qed.
(** ... and the converse, exactly: the number of ids answered is the number of merges, where
    each e-node that is new to the e-graph ([total_size]) came with one class of its own.
    With and without explanations. *)
Theorem C31_answers_count_merges {Op D} `{Countable Op} (L : lang Op) (A : analysis Op D) ex (g : egraph Op D) fuel here (a : applier Op D) sast rule ms g1 ids :
  hook_free A -> pattern_applier a -> reachable L A ex g -> apply_matches L A fuel here a sast rule ms g = Ok (g1, ids) ->
  number_of_classes g1 + length ids + total_size g = number_of_classes g + total_size g1.
Proof. intros Hh. exact (apply_merges L A Hh ex fuel here a sast rule ms g g1 ids). Qed.
Print Assumptions C31_answers_count_merges.
(** Two matches, one merge: the second application finds its sides equal. *)
Example C31_ex_answers ex : hook_free unitan /\ pattern_applier (APattern (D := unit) pat_f10) /\ reachable natlang unitan ex (rw_g ex) /\
  length (comm_ms ≫= sm_substs) = 2 /\ number_of_classes (rw_g ex) = 6 /\
  ((fun r => (number_of_classes r.1, length r.2, total_size r.1 - total_size (rw_g ex))) <$>
    apply_matches natlang unitan 20 9 (APattern pat_f10) (Some (pt_ast (compiled pat_f01))) 1 comm_ms (rw_g ex)) = Ok (5, 1, 0).
Proof.
  split; [done|]. split; [apply pat_f10_good|]. split; [exact (reachable_np_reachable _ _ _ _ (rw_g_np ex))|].
  destruct ex; (split; [vm_compute; reflexivity|]); (split; vm_compute; reflexivity).
Qed.
(** ... and which ids these are: each belongs to the class of a match, once the e-graph is
    rebuilt (any hooks, with and without explanations). *)
Theorem C31_answered_ids {Op D} `{Countable Op} (L : lang Op) (A : analysis Op D) it ord ex (g : egraph Op D) fuel0 ast pl pr
    cycles k ms name fuel here g1 ids fuel' g2 n :
  lang_ok L -> enumerates it -> enumerates_keys ord -> reachable_np L A ex g -> eg_clean g = true ->
  good_ast ast -> pattern_new ord fuel0 ast = Ok pl -> good_ast pr ->
  search_with_limit L it cycles pl g k = Ok ms ->
  rewrite_apply L A fuel here (Rewrite name (SPattern pl) (APattern pr)) ms g = Ok (g1, ids) ->
  rebuild L A fuel' (modify_n L A fuel') g1 = Ok (g2, n) ->
  forall i, i ∈ ids -> exists m, m ∈ ms /\ eg_find g2 i = eg_find g2 (sm_class m).
Proof. exact (answered_ids L A it ord ex g fuel0 ast pl pr cycles k ms name fuel here g1 ids fuel' g2 n). Qed.
Print Assumptions C31_answered_ids.
(** The run of [C31_ex]: id 2 is answered, the class of both matches and not that of 0 or 4. *)
Example C31_ex_answered_ids : rewrite_apply natlang unitan 20 9 comm comm_ms (rw_g false) = Ok (comm_g1, [2]) /\
  eg_find comm_g2 <$> (sm_class <$> comm_ms) = [2; 2] /\ eg_find comm_g2 <$> [2; 0; 4] = [2; 0; 4].
Proof. split; [apply comm_g1_eq|]. split; vm_compute; reflexivity. Qed.

(** * C36 *)
(** [ConditionEqual]: true only if both instances are (now) in one class; and, on a rebuilt
    e-graph with the canonical ids a search returns, true if they were. *)
Theorem C36_condition_equal {Op D} `{Countable Op} (L : lang Op) (A : analysis Op D) ex fuel p1 p2 t1 t2 c (s : subst) (g g' : egraph Op D) b :
  reachable_np L A ex g -> good_ast p1 -> ExprTree p1 t1 -> good_ast p2 -> ExprTree p2 t2 ->
  check L A fuel (CEqual p1 p2) c s g = Ok (g', b) ->
  (b = true -> exists r, PRep g' (subst_get s) t1 r /\ PRep g' (subst_get s) t2 r) /\
  (hook_free A -> eg_clean g = true -> rooted p1 -> rooted p2 ->
   (forall v i, subst_get s v = Some i -> known g i /\ eg_find g i = i) ->
   (exists r, PRep g (subst_get s) t1 r /\ PRep g (subst_get s) t2 r) -> b = true).
Proof. exact (condition_equal L A ex fuel p1 p2 t1 t2 c s g g' b). Qed.
Print Assumptions C36_condition_equal.
Example C36_ex_condition : reachable_np natlang unitan false eq_g /\ eg_clean eq_g = true /\ good_ast pat_f01 /\ good_ast pat_f10 /\ rooted pat_f01 /\ rooted pat_f10 /\
  (snd <$> check natlang unitan 20 (CEqual pat_f01 pat_f10) 2 [(0, 0); (1, 1)] eq_g) = Ok true /\
  (snd <$> check natlang unitan 20 (CEqual pat_f01 pat_f10) 2 [(0, 0); (1, 1)] (rw_g false)) = Ok false.
Proof.
  split_and!; [apply eq_g_np|apply eq_g_clean|apply pat_f01_good|apply pat_f10_good|apply pat_f01_rooted|apply pat_f10_rooted|
    vm_compute; reflexivity|vm_compute; reflexivity].
Qed.
(** With an id that is no longer canonical (as happens to the substitution of a later match
    when an earlier one merged its class) a bare variable makes it false on equal classes. *)
Theorem C36_stale_id_refuted : exists (g : egraph nat unit) p1 p2 (s : subst) i j,
  reachable_np natlang unitan false g /\ eg_clean g = true /\ good_ast p1 /\ good_ast p2 /\ rooted p1 /\ rooted p2 /\
  ExprTree p1 (TNode (PVar 0) []) /\ ExprTree p2 (TNode (PVar 1) []) /\ subst_get s 0 = Some i /\ subst_get s 1 = Some j /\
  known g i /\ known g j /\ eg_find g i = eg_find g j /\
  (snd <$> check natlang unitan 20 (CEqual p1 p2) 0 s g) = Ok false.
Proof.
  exists match_g, bare, bare1, stale_s, 0, 1.
  split_and!; [apply match_g_np|apply match_g_clean|apply bare_good|apply bare1_good|intros i Hi; cbn in Hi; lia|intros i Hi; cbn in Hi; lia|
    et|et|done|done|apply Nat.ltb_lt; vm_compute; reflexivity|apply Nat.ltb_lt; vm_compute; reflexivity|vm_compute; reflexivity|vm_compute; reflexivity].
Qed.
Print Assumptions C36_stale_id_refuted.
(** A conditional rule on one of its matches: if the condition's instances are equal in the
    e-graph the right-hand side is added to the matched class; if the check answers no,
    no class is answered or merged. *)
Theorem C36_fires {Op D} `{Countable Op} (L : lang Op) (A : analysis Op D) it ord ex (g : egraph Op D) fuel0 ast pl tl p1 t1 p2 t2 pr tr cycles k ms c s
    name fuel here g1 ids fuel' g2 n :
  lang_ok L -> enumerates it -> enumerates_keys ord -> reachable_np L A ex g -> eg_clean g = true -> hook_free A ->
  good_ast ast -> pattern_new ord fuel0 ast = Ok pl -> ExprTree (pt_ast pl) tl ->
  good_ast p1 -> rooted p1 -> ExprTree p1 t1 -> good_ast p2 -> rooted p2 -> ExprTree p2 t2 -> good_ast pr -> ExprTree pr tr ->
  search_with_limit L it cycles pl g k = Ok ms -> (exists m, m ∈ ms /\ sm_class m = c /\ s ∈ sm_substs m) ->
  rewrite_apply L A fuel here (Rewrite name (SPattern pl) (ACond (CEqual p1 p2) (APattern pr))) [SMatch c [s]] g = Ok (g1, ids) ->
  rebuild L A fuel' (modify_n L A fuel') g1 = Ok (g2, n) ->
  ((exists r, PRep g (subst_get s) t1 r /\ PRep g (subst_get s) t2 r) -> PRep g2 (subst_get s) tr (eg_find g2 c)) /\
  (forall g', check L A fuel (CEqual p1 p2) c s g = Ok (g', false) ->
     ids = [] /\ forall i j, known g i -> known g j -> (eg_find g2 i = eg_find g2 j <-> eg_find g i = eg_find g j)).
Proof.
  intros Lo Hit Hord R Ec Hh. intros until 11. intros Es Hin.
  exact (conditional_fires L A Lo it Hit ord Hord ex g R Ec Hh fuel0 ast pl tl p1 t1 p2 t2 pr tr cycles k ms c s name fuel here g1 ids fuel' g2 n
    ltac:(done) ltac:(done) ltac:(done) ltac:(done) ltac:(done) ltac:(done) ltac:(done) ltac:(done) ltac:(done) ltac:(done) ltac:(done) Es
    (proj2 (pairs_in ms c s) Hin)).
Qed.
Print Assumptions C36_fires.
Example C36_ex_fires : reachable_np natlang unitan false eq_g /\ search_with_limit natlang it0 true (compiled pat_f01) eq_g 9 = Ok comm_ms' /\
  (exists m, m ∈ comm_ms' /\ sm_class m = 2 /\ [(0, 0); (1, 1)] ∈ sm_substs m) /\
  rewrite_apply natlang unitan 20 9 cond_rule [SMatch 2 [[(0, 0); (1, 1)]]] eq_g = Ok (cond_g1, [2]) /\
  rebuild natlang unitan 20 (modify_n natlang unitan 20) cond_g1 = Ok (cond_g2, 0) /\
  good_ast pat_gf /\ ExprTree pat_gf pat_gf_t /\
  (eg_find eq_g 2, eg_find eq_g 4) = (2, 4) /\ (eg_find cond_g2 2, eg_find cond_g2 4) = (2, 2).
Proof.
  split_and!; [apply eq_g_np|apply eq_g_found|eexists; split_and!; [apply elem_of_list_singleton; reflexivity|done|apply elem_of_list_here]|
    apply cond_g1_eq|apply cond_g2_eq|apply pat_gf_good|apply pat_gf_tree'|vm_compute; reflexivity|vm_compute; reflexivity].
Qed.
(** On any list of matches: only equalities asserted conditionally are added. *)
Theorem C36_only_when_true {Op D} `{Countable Op} (L : lang Op) (A : analysis Op D) it ord ex (g : egraph Op D) fuel0 ast pl tl p1 t1 p2 t2 pr tr cycles k
    ms name fuel here g1 ids fuel' g2 n :
  lang_ok L -> enumerates it -> enumerates_keys ord -> reachable_np L A ex g -> eg_clean g = true -> hook_free A ->
  good_ast ast -> pattern_new ord fuel0 ast = Ok pl -> ExprTree (pt_ast pl) tl ->
  good_ast p1 -> ExprTree p1 t1 -> good_ast p2 -> ExprTree p2 t2 -> good_ast pr -> ExprTree pr tr ->
  search_with_limit L it cycles pl g k = Ok ms ->
  rewrite_apply L A fuel here (Rewrite name (SPattern pl) (ACond (CEqual p1 p2) (APattern pr))) ms g = Ok (g1, ids) ->
  rebuild L A fuel' (modify_n L A fuel') g1 = Ok (g2, n) ->
  forall a b, known g a -> known g b -> eg_find g2 a = eg_find g2 b ->
  forall (V : Type) (F : Op -> list V -> V) nu, models F nu (eg_log g) ->
    (forall m s, m ∈ ms -> s ∈ sm_substs m ->
       peval F (value_of nu (subst_get s)) t1 = peval F (value_of nu (subst_get s)) t2 -> nu (sm_class m) = peval F (value_of nu (subst_get s)) tr) ->
    nu a = nu b.
Proof.
  intros Lo Hit Hord R Ec Hh.
  exact (conditional_only L A Lo it Hit ord Hord ex g R Ec Hh fuel0 ast pl tl p1 t1 p2 t2 pr tr cycles k ms name fuel here g1 ids fuel' g2 n).
Qed.
Print Assumptions C36_only_when_true.
Example C36_ex_only : reachable_np natlang unitan false (rw_g false) /\
  search_with_limit natlang it0 true (compiled pat_f01) (rw_g false) 9 = Ok comm_ms /\
  rewrite_apply natlang unitan 20 9 cond_rule comm_ms (rw_g false) = Ok (cond_g1', []).
Proof. split_and!; [apply rw_g_np|apply comm_ms_found|apply cond_g1'_eq]. Qed.
(** A client's condition that answers from the match alone: the conditional rule does what
    the inner one does on the matches where the answer is yes. *)
Theorem C36_client_condition {Op D} `{Countable Op} (L : lang Op) (A : analysis Op D) fuel here name sr vars (f : nat -> subst -> bool) (a : applier Op D) ms
    (g : egraph Op D) :
  (forall p, a <> APattern p) -> (forall asts, a <> AMulti asts) ->
  rewrite_apply L A fuel here (Rewrite name sr (ACond (CFn vars (fun _ _ => PRet) (fun e s _ => f e s)) a)) ms g =
  rewrite_apply L A fuel here (Rewrite name sr a) ((fun m => SMatch (sm_class m) (filter (fun s => f (sm_class m) s = true) (sm_substs m))) <$> ms) g.
Proof. exact (client_condition L A fuel here name sr vars f a ms g). Qed.
Print Assumptions C36_client_condition.
Example C36_ex_client : forall p : list (node (pop nat)), ACond (D := unit) (CEqual pat_f01 pat_f10) (APattern pat_gf) <> APattern p.
Proof. done. Qed.

(** * C37, applying *)
(** After applying a multi-pattern to any matches and rebuilding, every match
    extends (up to equality of classes) to a substitution under which each clause [v = p]
    holds: the class bound to [v] represents the instance of [p]. *)
Theorem C37_apply {Op D} `{Countable Op} (L : lang Op) (A : analysis Op D) ex (g : egraph Op D) asts s ms name fuel here g1 ids fuel' g2 n :
  reachable_np L A ex g -> Forall (fun cl => good_ast cl.2) asts ->
  rewrite_apply L A fuel here (Rewrite name s (AMulti asts)) ms g = Ok (g1, ids) ->
  rebuild L A fuel' (modify_n L A fuel') g1 = Ok (g2, n) ->
  reachable_np L A ex g2 /\ eg_clean g2 = true /\
  forall m st, m ∈ ms -> st ∈ sm_substs m -> exists st' : subst,
    (forall v i, subst_get st v = Some i -> exists j, subst_get st' v = Some j /\ eg_find g2 i = eg_find g2 j) /\
    Forall (holds g2 (subst_get st')) asts.
Proof. intros R. exact (multi_rule_main L A ex g R asts s ms name fuel here g1 ids fuel' g2 n). Qed.
Print Assumptions C37_apply.
(** On matches found by the rule's searcher no other equality is added: if every match
    extends to values making all clauses true then equal old ids have equal values. *)
Theorem C37_apply_only {Op D} `{Countable Op} (L : lang Op) (A : analysis Op D) it ord ex (g : egraph Op D) asts s cycles k ms name fuel here g1 ids fuel' g2 n :
  lang_ok L -> enumerates it -> enumerates_keys ord -> reachable_np L A ex g -> eg_clean g = true -> hook_free A ->
  searcher_built ord s -> Forall (fun cl => good_ast cl.2) asts ->
  searcher_search L it cycles s g k = Ok ms ->
  rewrite_apply L A fuel here (Rewrite name s (AMulti asts)) ms g = Ok (g1, ids) ->
  rebuild L A fuel' (modify_n L A fuel') g1 = Ok (g2, n) ->
  forall a b, known g a -> known g b -> eg_find g2 a = eg_find g2 b ->
  forall (V : Type) (F : Op -> list V -> V) nu, models F nu (eg_log g) ->
    (forall m st, m ∈ ms -> st ∈ sm_substs m -> exists th, (forall v i, subst_get st v = Some i -> th v = nu i) /\ Forall (clause_true F th) asts) ->
    nu a = nu b.
Proof. exact (multi_rule_only L A it ord ex g asts s cycles k ms name fuel here g1 ids fuel' g2 n). Qed.
Print Assumptions C37_apply_only.
Example C37_ex_apply : reachable_np natlang unitan false (rw_g false) /\ eg_clean (rw_g false) = true /\ searcher_built ord0 (SMulti mpat) /\
  Forall (fun cl => good_ast cl.2) mapp /\ searcher_search natlang it0 true (SMulti mpat) (rw_g false) 9 = Ok multi_ms /\
  rewrite_apply natlang unitan 20 9 multi_rule multi_ms (rw_g false) = Ok (multi_g1 false, [2; 3]) /\
  rebuild natlang unitan 20 (modify_n natlang unitan 20) (multi_g1 false) = Ok (multi_g2 false, 0) /\
  (eg_find (rw_g false) 3, eg_find (rw_g false) 4) = (3, 4) /\ eg_find (multi_g2 false) 3 = eg_find (multi_g2 false) 4.
Proof.
  split_and!; [apply rw_g_np|apply rw_g_clean|apply mpat_built|apply mapp_good|apply multi_ms_found|apply multi_g1_eq|apply multi_g2_eq|
    vm_compute; reflexivity|vm_compute; reflexivity].
Qed.
