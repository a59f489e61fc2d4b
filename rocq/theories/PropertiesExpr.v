(** Property theorems about expressions (C26, C27) and substitutions (C29).
    Vocabulary: Spec.v ([Rep]), Terms.v ([Tree], [ExprTree], [dag]), PatSpec.v ([rooted]). *)
From Verif Require Import Base EGraphModel Spec EGraphReach Terms RecExprModel RecExprProofs ExprModel PatSpec
  ExprProofs ExprSafe Examples ExamplesExpr.

(** * C26 *)
(** [add_expr] returns a class representing the expression's tree, whatever the hooks do
    and whether or not explanations are on. *)
Theorem C26_add_expr_represents {Op D} `{Countable Op} (L : lang Op) (A : analysis Op D) ex fuel e t g g' i :
  reachable_np L A ex g -> ExprTree e t -> add_expr A (modify_n L A fuel) e g = Ok (g', i) ->
  reachable_np L A ex g' /\ Rep g' t i.
Proof. intros R T E. destruct (add_expr_rep L A ex fuel e t g g' i R T E) as (R' & _ & Hr). exact (conj R' Hr). Qed.
Print Assumptions C26_add_expr_represents.

(** ... and it never panics on a well-formed expression. *)
Theorem C26_add_expr_no_panic {Op D} `{Countable Op} (L : lang Op) (A : analysis Op D) ex fuel e (g : egraph Op D) :
  reachable L A ex g -> (forall id N, id < N -> uses_known N (an_modify A id)) -> dag e -> e <> [] ->
  add_expr A (modify_n L A fuel) e g <> Panic.
Proof. exact (add_expr_no_panic L A ex fuel e g). Qed.
Print Assumptions C26_add_expr_no_panic.
Example C26_add_ex : reachable_np natlang unitan true (cong_g true true) /\ dag ex_shared /\
  ExprTree ex_shared ex_shared_t /\ exists g', add_expr unitan (modify_n natlang unitan 5) ex_shared (cong_g true true) = Ok (g', 7).
Proof.
  split_and!; [apply cong_g_reachable_np|apply rx_is_dag_dag; reflexivity|apply ex_shared_tree|].
  eexists. apply (is_ok_fst (eg_new true)). vm_compute. reflexivity.
Qed.

(** Right after [add_expr] (no rebuild), without explanations: [lookup_expr] finds the class. *)
Theorem C26_lookup_right_after_add_expr {Op D} `{Countable Op} (L : lang Op) (A : analysis Op D) fuel e (g g' : egraph Op D) i :
  reachable L A false g -> hook_free A -> add_expr A (modify_n L A fuel) e g = Ok (g', i) -> lookup_expr g' e = Ok (Some i).
Proof. exact (lookup_after_add_expr L A fuel e g g' i). Qed.
Print Assumptions C26_lookup_right_after_add_expr.
(** on an e-graph with a union waiting to be processed *)
Example C26_lookup_ex : reachable natlang unitan false (cong_g false false) /\ hook_free unitan /\
  eg_pending (cong_g false false) <> [] /\
  exists g', add_expr unitan (modify_n natlang unitan 5) ex_shared (cong_g false false) = Ok (g', 7).
Proof.
  split_and!; [apply cong_g_reachable|done|vm_compute; done|].
  eexists. apply (is_ok_fst (eg_new false)). vm_compute. reflexivity.
Qed.

(** In a rebuilt e-graph [lookup_expr] is exact. *)
Theorem C26_lookup_expr_exact {Op D} `{Countable Op} (L : lang Op) (A : analysis Op D) ex (g : egraph Op D) e t :
  reachable_np L A ex g -> eg_clean g = true -> dag e -> rooted e -> ExprTree e t ->
  (forall r, lookup_expr g e = Ok (Some r) <-> Rep g t r) /\ (lookup_expr g e = Ok None <-> forall r, ~ Rep g t r).
Proof. exact (lookup_expr_spec L A ex g e t). Qed.
Print Assumptions C26_lookup_expr_exact.
Example C26_exact_ex : reachable_np natlang unitan true (cong_g true true) /\ eg_clean (cong_g true true) = true /\
  dag ex_fy /\ rooted ex_fy /\ ExprTree ex_fy ex_fy_t /\ lookup_expr (cong_g true true) ex_fy = Ok (Some 2) /\
  lookup_expr (cong_g true true) ex_shared = Ok None.
Proof.
  split_and!; [apply cong_g_reachable_np|vm_compute; reflexivity|apply rx_is_dag_dag; reflexivity|apply ex_fy_rooted|
    apply ex_fy_tree|vm_compute; reflexivity|vm_compute; reflexivity].
Qed.

(** [lookup_expr_ids] for expressions that may contain unused nodes: [Some] lists the class
    of every node's tree; [None] means some node's tree is not represented. *)
Theorem C26_lookup_expr_ids_exact {Op D} `{Countable Op} (L : lang Op) (A : analysis Op D) ex (g : egraph Op D) e :
  reachable_np L A ex g -> eg_clean g = true -> dag e ->
  (exists ids, lookup_expr_ids g e = Ok (Some ids) /\ length ids = length e /\
     forall j i, ids !! j = Some i -> exists u, Tree e j u /\ Rep g u i) \/
  (lookup_expr_ids g e = Ok None /\ exists j u, Tree e j u /\ forall r, ~ Rep g u r).
Proof. exact (lookup_expr_ids_spec L A ex g e). Qed.
Print Assumptions C26_lookup_expr_ids_exact.
(** The root being represented is not enough when the expression has unused nodes. *)
Theorem C26_lookup_expr_unused_refuted :
  exists (g : egraph nat unit) e t r, reachable_np natlang unitan false g /\ eg_clean g = true /\ dag e /\ ExprTree e t /\
    Rep g t r /\ lookup_expr g e = Ok None.
Proof. exact lookup_expr_unused. Qed.
Print Assumptions C26_lookup_expr_unused_refuted.

(** Any time later, once rebuilt, [lookup_expr] finds the class the expression was put in. *)
Theorem C26_lookup_any_time_later {Op D} `{Countable Op} (L : lang Op) (A : analysis Op D) ex fuel e t (g g1 : egraph Op D) i fuel' p g2 :
  reachable_np L A ex g -> dag e -> rooted e -> ExprTree e t ->
  add_expr A (modify_n L A fuel) e g = Ok (g1, i) ->
  no_prune p -> run_prog L A fuel' (modify_n L A fuel') p g1 = Ok g2 -> eg_clean g2 = true ->
  lookup_expr g2 e = Ok (Some (eg_find g2 i)).
Proof. exact (lookup_later L A ex fuel e t g g1 i fuel' p g2). Qed.
Print Assumptions C26_lookup_any_time_later.
Example C26_later_ex : exists g1 g2, reachable_np natlang unitan true (cong_g true true) /\ dag ex_shared /\ rooted ex_shared /\
  ExprTree ex_shared ex_shared_t /\
  add_expr unitan (modify_n natlang unitan 5) ex_shared (cong_g true true) = Ok (g1, 7) /\
  run_prog natlang unitan 20 (modify_n natlang unitan 20) (PUnion 7 0 3 (fun _ => PRebuild (fun _ => PRet))) g1 = Ok g2 /\
  eg_clean g2 = true /\ eg_find g2 7 = 0.
Proof.
  eexists (fst (ok_of (eg_new true, 7) (add_expr unitan (modify_n natlang unitan 5) ex_shared (cong_g true true)))). eexists.
  split_and!; [apply cong_g_reachable_np|apply rx_is_dag_dag; reflexivity|apply ex_shared_rooted|apply ex_shared_tree| | | |].
  - apply (is_ok_fst (eg_new true)). vm_compute. reflexivity.
  - apply (is_ok_eq (eg_new true)). vm_compute. reflexivity.
  - vm_compute. reflexivity.
  - vm_compute. reflexivity.
Qed.

(** * C27 *)
(** [is_dag] says whether all children come before their parents. *)
Theorem C27_is_dag {Op} (e : list (node Op)) : rx_is_dag e = true <-> dag e.
Proof. exact (rx_is_dag_dag e). Qed.
Print Assumptions C27_is_dag.
Example C27_is_dag_ex : rx_is_dag [Node 0 []; Node 1 [0; 0]; Node 2 [1]] = true /\ rx_is_dag [Node 0 []; Node 1 [1]] = false.
Proof. split; reflexivity. Qed.

(** [compact]: a valid DAG without duplicate nodes, in which every tree of the original is
    still there; the same expression when every node but the root is used. *)
Theorem C27_compact {Op} `{Countable Op} (e : list (node Op)) : dag e ->
  exists e', rx_compact e = Ok e' /\ dag e' /\ NoDup e' /\ (forall i t, Tree e i t -> exists j, Tree e' j t) /\
    (forall t, rooted e -> ExprTree e t -> ExprTree e' t).
Proof. exact (rx_compact_rooted e). Qed.
Print Assumptions C27_compact.
Example C27_compact_ex : dag ex_dups /\ rooted ex_dups /\ ExprTree ex_dups ex_dups_t /\
  rx_compact ex_dups = Ok [Node 0 []; Node 1 [0]; Node 2 [1; 1]].
Proof. split_and!; [apply rx_is_dag_dag; reflexivity|apply ex_dups_rooted|apply ex_dups_tree|vm_compute; reflexivity]. Qed.
(** Without that, [compact] can change the expression denoted: here from [x] to [f(x)]. *)
Theorem C27_compact_root_refuted :
  exists (e e' : list (node nat)) t, dag e /\ ExprTree e t /\ rx_compact e = Ok e' /\ ~ ExprTree e' t.
Proof. exact compact_root. Qed.
Print Assumptions C27_compact_root_refuted.

(** [build_recexpr]: terminates and denotes the tree obtained by unfolding [get_node],
    for every way of following ids that is well-founded below the node. *)
Theorem C27_build_recexpr {Op} `{Countable Op} (get : nat -> option (node Op)) f cs ts :
  Forall2 (TreeOf get) cs ts ->
  exists k e, (forall fuel, k <= fuel -> build_recexpr fuel (Node f cs) get = Ok e) /\ dag e /\ ExprTree e (TNode f ts).
Proof. exact (build_recexpr_spec get f cs ts). Qed.
Print Assumptions C27_build_recexpr.
(** [extract(root)] *)
Theorem C27_extract {Op} `{Countable Op} (e : list (node Op)) i t : Tree e i t ->
  exists k e', (forall fuel, k <= fuel -> rx_extract fuel e i = Ok e') /\ dag e' /\ ExprTree e' t.
Proof. exact (rx_extract_spec e i t). Qed.
Print Assumptions C27_extract.
Example C27_extract_ex : Tree ex_dups 4 ex_dups_t /\ rx_extract 20 ex_dups 4 = Ok [Node 0 []; Node 1 [0]; Node 2 [1; 1]].
Proof. split; [apply ex_dups_tree|vm_compute; reflexivity]. Qed.
(** [join_recexprs] *)
Theorem C27_join_recexprs {Op} (f : Op) cs ts (sub : nat -> list (node Op)) fuel :
  Forall2 (fun c t => dag (sub c) /\ ExprTree (sub c) t /\ length (sub c) <= fuel) cs ts ->
  exists e, join_recexprs fuel (Node f cs) sub = Ok e /\ dag e /\ ExprTree e (TNode f ts).
Proof. exact (join_recexprs_spec fuel f cs ts sub). Qed.
Print Assumptions C27_join_recexprs.
Example C27_join_ex : join_recexprs 5 (Node 9 [0; 1]) (fun c => if decide (c = 0) then ex_dups else [Node 0 []])
  = Ok [Node 0 []; Node 1 [0]; Node 0 []; Node 1 [2]; Node 2 [1; 3]; Node 0 []; Node 9 [4; 5]].
Proof. vm_compute. reflexivity. Qed.

(** * C29, substitutions *)
(** A [Subst] is a finite map: the last binding wins, the old value is returned, other
    variables are untouched; indexing panics exactly on unbound variables. *)
Theorem C29_subst_is_a_map (s : subst) v i s' o : subst_insert s v i = (s', o) ->
  o = subst_get s v /\ subst_get s' v = Some i /\ (forall w, w <> v -> subst_get s' w = subst_get s w) /\
  (forall w, subst_index s w = Panic <-> subst_get s w = None).
Proof. exact (subst_insert_map s v i s' o). Qed.
Print Assumptions C29_subst_is_a_map.
(** No variable is ever stored twice. *)
Theorem C29_subst_no_duplicates (ins : list (nat * nat)) :
  NoDup (foldl (fun s '(v, i) => (subst_insert s v i).1) [] ins).*1.
Proof. exact (subst_nodup ins). Qed.
Print Assumptions C29_subst_no_duplicates.
Example C29_subst_ex : subst_insert [(3, 7); (4, 8)] 4 9 = ([(3, 7); (4, 9)], Some 8).
Proof. reflexivity. Qed.
