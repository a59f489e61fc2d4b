(** Property theorems about building e-graphs from others (C43–C45).
    Vocabulary: Spec.v ([Rep], [known]), ExplainSpec.v ([AddedAs], [asserted], [teq]),
    ExplainModes.v ([run_tcmds]), Uncanon.v ([rebuilds_before_adding]). *)
From Verif Require Import Base EGraphModel Spec EGraphReach Terms RecExprModel ExprModel ExplainModel ExplainSpec ExplainMain ExplainModes
  UtilModel CopyProofs Uncanon UnionProofs FromNodes IntersectProofs Examples ExamplesExplain ExamplesUtil.

(** * C43 *)
(** If no term of [g] got two ids, the copy has the same ids, each alone in its class and
    representing exactly the term that was added as that id. *)
Theorem C43_copy_without_unions {Op D} `{Countable Op} (L : lang Op) (A A0 : analysis Op D) fuel (g : egraph Op D) :
  hook_free A -> reachable L A0 true g ->
  (forall i j t, AddedAs (eg_log g) i t -> AddedAs (eg_log g) j t -> i = j) ->
  exists g', copy_without_unions A (modify_n L A (S fuel)) g = Ok g' /\ reachable_np L A false g' /\
    (forall i, eg_find g' i = i) /\ (forall i, known g' i <-> known g i) /\
    (forall i t, AddedAs (eg_log g') i t <-> AddedAs (eg_log g) i t) /\
    (forall t c, Rep g' t c <-> AddedAs (eg_log g) c t).
Proof. intros Hh. exact (copy_ok L A Hh A0 fuel g). Qed.
Print Assumptions C43_copy_without_unions.

(** This is so for clients that rebuild after stating an equality and before going on. *)
Theorem C43_clients_that_rebuild_before_adding {Op D} `{Countable Op} (L : lang Op) (A : analysis Op D) fuel cs (g : egraph Op D) :
  hook_free A -> run_tcmds L A fuel cs (eg_new true) = Ok g -> rebuilds_before_adding true cs ->
  forall i j t, AddedAs (eg_log g) i t -> AddedAs (eg_log g) j t -> i = j.
Proof. intros Hh. exact (distinct_clients L A Hh fuel cs g). Qed.
Print Assumptions C43_clients_that_rebuild_before_adding.
Example C43_ex : hook_free unitan /\ reachable natlang unitan true cop_g /\
  run_tcmds natlang unitan 20 cop_cmds (eg_new true) = Ok cop_g /\ rebuilds_before_adding true cop_cmds /\
  eg_find cop_g 0 = eg_find cop_g 1.
Proof. split_and!; [done|apply cop_reachable|apply cop_run|done..|apply cop_same]. Qed.

(** Not in general.  When a term added again between a union and the next rebuild got a
    second id, the copy can represent terms nobody added, and not the ones that were ... *)
Theorem C43_duplicate_terms_refuted : exists (g g' : egraph nat unit) t u,
  reachable natlang unitan true g /\ copy_without_unions unitan (modify_n natlang unitan 20) g = Ok g' /\
  (exists i, AddedAs (eg_log g) i t) /\ (forall i, ~ AddedAs (eg_log g') i t) /\
  (forall i, ~ AddedAs (eg_log g) i u) /\ (exists i, AddedAs (eg_log g') i u).
Proof. exact dup_copy_refuted. Qed.
Print Assumptions C43_duplicate_terms_refuted.
(** ... or making it panics. *)
Theorem C43_panic_refuted : exists g : egraph nat unit,
  reachable natlang unitan true g /\ copy_without_unions unitan (modify_n natlang unitan 20) g = Panic.
Proof. exact (ex_intro _ (dup_g false) (conj (dup_reachable false) dup_copy_panic)). Qed.
Print Assumptions C43_panic_refuted.

(** * C45 *)
(** After [egraph_union other], whatever [other] equated: both terms are in the result, in
    one class (any hooks; the result is rebuilt; everything that was in [g] still is). *)
Theorem C45_union_imports {Op D} `{Countable Op} (L : lang Op) (A : analysis Op D) vname ex fuel (other g g' : egraph Op D) r t u :
  reachable L A true other -> reachable L A ex g -> egraph_union L A (modify_n L A fuel) vname fuel other g = Ok g' ->
  asserted (eg_log other) r t u ->
  t = u \/ exists i j, AddedAs (eg_log g') i t /\ AddedAs (eg_log g') j u /\ eg_find g' i = eg_find g' j.
Proof. exact (union_imported L A vname ex fuel other g g' r t u). Qed.
Print Assumptions C45_union_imports.
Example C45_ex : reachable natlang unitan true (exp_g true) /\ reachable natlang unitan false uni_g /\
  egraph_union natlang unitan (modify_n natlang unitan 20) id 20 (exp_g true) uni_g = Ok uni_r /\
  AddedAs (eg_log uni_r) 4 zt /\ AddedAs (eg_log uni_r) 1 (TNode 3 []) /\ eg_find uni_r 4 = eg_find uni_r 1.
Proof. split_and!; [apply exp_reachable|apply uni_reachable|apply uni_r_run|apply uni_added..|apply uni_same]. Qed.

(** Nothing else becomes equal: in the result two terms are equal exactly if that follows
    from what was asserted in either e-graph. *)
Theorem C45_union_exact {Op D} `{Countable Op} (L : lang Op) (A : analysis Op D) vname ex fuel (other g g' : egraph Op D) i j t u :
  hook_free A -> reachable L A true other -> reachable L A ex g ->
  egraph_union L A (modify_n L A fuel) vname fuel other g = Ok g' ->
  AddedAs (eg_log g') i t -> AddedAs (eg_log g') j u ->
  eg_find g' i = eg_find g' j <-> teq (fun r t u => asserted (eg_log g) r t u \/ asserted (eg_log other) r t u) t u.
Proof. exact (union_exact L A vname ex fuel other g g' i j t u). Qed.
Print Assumptions C45_union_exact.

(** It keeps what was there, and the result is rebuilt. *)
Theorem C45_union_keeps {Op D} `{Countable Op} (L : lang Op) (A : analysis Op D) vname ex fuel (other g g' : egraph Op D) :
  reachable L A true other -> reachable L A ex g -> egraph_union L A (modify_n L A fuel) vname fuel other g = Ok g' ->
  reachable L A ex g' /\ eg_clean g' = true /\ (forall i t, AddedAs (eg_log g) i t -> AddedAs (eg_log g') i t) /\
  (forall i j, eg_find g i = eg_find g j -> eg_find g' i = eg_find g' j).
Proof. exact (union_keeps L A vname ex fuel other g g'). Qed.
Print Assumptions C45_union_keeps.

(** It terminates without panicking, for analyses without hooks whose data climbs. *)
Theorem C45_union_terminates {Op D} `{Countable Op} (L : lang Op) (A : analysis Op D) vname (Rd : D -> D -> Prop) ex (other g : egraph Op D) :
  hook_free A -> merge_climbs A Rd -> reachable L A true other -> reachable L A ex g ->
  exists bound g', forall fuel, bound <= fuel -> egraph_union L A (modify_n L A fuel) vname fuel other g = Ok g'.
Proof. exact (union_terminates L A vname Rd ex other g). Qed.
Print Assumptions C45_union_terminates.
Example C45_term_ex : hook_free unitan /\ merge_climbs unitan (fun _ _ => False).
Proof. split; [done|]. split; [by intros []|]. intros [] [] [] f1 f2 [= <- <-]. by right. Qed.

(** Terms of [other] that no asserted equality mentions are not brought over. *)
Theorem C45_other_terms_refuted : exists (other g g' : egraph nat unit) t,
  reachable natlang unitan true other /\ reachable natlang unitan false g /\
  egraph_union natlang unitan (modify_n natlang unitan 20) id 20 other g = Ok g' /\
  (exists i, AddedAs (eg_log other) i t) /\ forall i, ~ AddedAs (eg_log g') i t.
Proof. exact uni_no_terms. Qed.
Print Assumptions C45_other_terms_refuted.

(** ** C44 *)
(** [g1.egraph_intersect(g2)] of rebuilt e-graphs: two terms are represented together in the
    result exactly if they are represented together in [g1] and in [g2] (with [t = u]: a
    term is in the result exactly if it is in both). The inputs may have been made with any
    hooks, explanations or analyses; [o1], [o2] are their classes in iteration order. *)
Theorem C44_intersection_exact {Op D} `{Countable Op} (L : lang Op) (A A1 A2 : analysis Op D) ex1 ex2 fuel k here (g1 g2 g : egraph Op D) o1 o2 :
  hook_free A -> reachable L A1 ex1 g1 -> reachable L A2 ex2 g2 -> eg_clean g1 = true -> eg_clean g2 = true ->
  (forall c, c ∈ o1 <-> is_Some (eg_classes g1 !! c)) -> (forall c, c ∈ o2 <-> is_Some (eg_classes g2 !! c)) ->
  egraph_intersect A (modify_n L A (S k)) here fuel o1 o2 g1 g2 = Ok g ->
  reachable_np L A false g /\
  forall t u, (exists c, Rep g t c /\ Rep g u c) <-> (exists c, Rep g1 t c /\ Rep g1 u c) /\ (exists c, Rep g2 t c /\ Rep g2 u c).
Proof. exact (intersect_exact L A A1 A2 ex1 ex2 fuel k here g1 g2 g o1 o2). Qed.
Print Assumptions C44_intersection_exact.
Example C44_ex : hook_free unitan /\ reachable natlang unitan true (cong_g true true) /\ reachable natlang unitan false int_g /\
  eg_clean (cong_g true true) = true /\ eg_clean int_g = true /\
  egraph_intersect unitan (modify_n natlang unitan 1) 9 20 (keys (cong_g true true)) (keys int_g) (cong_g true true) int_g = Ok int_r /\
  (exists c, lookup_expr int_r [Node 0 []; Node 2 [0]; Node 3 [1]] = Ok (Some c) /\ lookup_expr int_r [Node 1 []; Node 2 [0]; Node 3 [1]] = Ok (Some c)) /\
  (exists c d, lookup_expr int_r [Node 0 []] = Ok (Some c) /\ lookup_expr int_r [Node 1 []] = Ok (Some d) /\ c <> d).
Proof. split_and!; [done|apply cong_g_reachable|apply int_reachable|apply int_clean|apply int_clean|apply int_r_run|apply int_looks..]. Qed.

(** The result is not rebuilt; rebuilding it changes nothing about that. *)
Theorem C44_intersection_rebuilt {Op D} `{Countable Op} (L : lang Op) (A A1 A2 : analysis Op D) ex1 ex2 fuel k here (g1 g2 g : egraph Op D) o1 o2 fuel' g' n :
  hook_free A -> reachable L A1 ex1 g1 -> reachable L A2 ex2 g2 -> eg_clean g1 = true -> eg_clean g2 = true ->
  (forall c, c ∈ o1 <-> is_Some (eg_classes g1 !! c)) -> (forall c, c ∈ o2 <-> is_Some (eg_classes g2 !! c)) ->
  egraph_intersect A (modify_n L A (S k)) here fuel o1 o2 g1 g2 = Ok g -> rebuild L A fuel' (modify_n L A fuel') g = Ok (g', n) ->
  reachable_np L A false g' /\ eg_clean g' = true /\
  forall t u, (exists c, Rep g' t c /\ Rep g' u c) <-> (exists c, Rep g1 t c /\ Rep g1 u c) /\ (exists c, Rep g2 t c /\ Rep g2 u c).
Proof. exact (intersect_rebuilt L A A1 A2 ex1 ex2 fuel k here g1 g2 g o1 o2 fuel' g' n). Qed.
Print Assumptions C44_intersection_rebuilt.
Example C44_rebuilt_ex : exists n, rebuild natlang unitan 20 (modify_n natlang unitan 20) int_r = Ok (int_r2, n).
Proof. exact int_r2_run. Qed.

(** The intersection is always computed: no panic, and a bounded number of passes. *)
Theorem C44_intersection_terminates {Op D} `{Countable Op} (L : lang Op) (A A1 A2 : analysis Op D) ex1 ex2 here (g1 g2 : egraph Op D) o1 o2 :
  hook_free A -> reachable L A1 ex1 g1 -> reachable L A2 ex2 g2 -> eg_clean g1 = true -> eg_clean g2 = true ->
  (forall c, c ∈ o1 <-> is_Some (eg_classes g1 !! c)) -> (forall c, c ∈ o2 <-> is_Some (eg_classes g2 !! c)) ->
  exists bound, forall fuel k, bound <= fuel -> exists g, egraph_intersect A (modify_n L A (S k)) here fuel o1 o2 g1 g2 = Ok g.
Proof. exact (intersect_total L A A1 A2 ex1 ex2 here g1 g2 o1 o2). Qed.
Print Assumptions C44_intersection_terminates.

(** Without a rebuild of the inputs terms get lost: an e-graph intersected with itself. *)
Theorem C44_not_rebuilt_refuted : exists (g g' : egraph nat unit) o t c,
  reachable natlang unitan false g /\ (forall c, c ∈ o <-> is_Some (eg_classes g !! c)) /\
  egraph_intersect unitan (modify_n natlang unitan 1) 9 20 o o g g = Ok g' /\ Rep g t c /\ forall c', ~ Rep g' t c'.
Proof. exact dirty_lost. Qed.
Print Assumptions C44_not_rebuilt_refuted.
