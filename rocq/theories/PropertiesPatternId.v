(** Property C68: [id_to_pattern].
    Vocabulary: PatternIdSpec.v ([CutTree]: the term of an id, cut at given ids), PatSpec.v
    ([PRep]: an instance of a pattern is represented in a class; [occurs], [tsubst]),
    MatchSpec.v ([good_ast]: what may be passed to [Pattern::new]), Terms.v ([ExprTree]). *)
From Verif Require Import Base UnionFind EGraphModel EGraphPres Spec EGraphReach Terms RecExprModel RecExprProofs ExprModel PatSpec MatchSpec ExplainModel UtilModel
  PatternIdSpec PatternIdProofs Examples ExamplesExpr ExamplesPatternId.

(** * C68 *)
(** [id_to_pattern] answers for every id the e-graph knows and whatever ids are given for
    variables: the pattern is well-formed, it is the term of the id cut at the given ids, the
    substitution is defined for exactly its variables, and gives each what the client gave
    for its id. *)
Theorem C68_pattern {Op D} `{Countable Op} (L : lang Op) (A : analysis Op D) ex vname (g : egraph Op D) i vs :
  reachable L A ex g -> known g i ->
  exists p s pt, id_to_pattern vname i vs g = Ok (p, s) /\ good_ast p /\ ExprTree p pt /\
    CutTree (eg_nodes g) vname (fun j => is_Some (vs !! j)) i pt /\
    (forall v, is_Some (subst_get s v) <-> occurs v pt) /\
    (forall v k, subst_get s v = Some k -> exists j, v = vname j /\ vs !! j = Some k /\ known g j).
Proof. exact (id_to_pattern_ok L A ex vname g i vs). Qed.
Print Assumptions C68_pattern.
(** Putting the terms of the given ids ([id_to_expr]) for the variables gives the term of the
    id. *)
Theorem C68_term {Op D} `{Countable Op} (L : lang Op) (A : analysis Op D) ex vname (g : egraph Op D) i vs p s pt th :
  reachable L A ex g -> known g i -> id_to_pattern vname i vs g = Ok (p, s) -> ExprTree p pt ->
  (forall j k e, vs !! j = Some k -> id_to_expr j g = Ok e -> ExprTree e (th (vname j))) ->
  exists e, id_to_expr i g = Ok e /\ ExprTree e (tsubst th pt).
Proof. exact (id_to_pattern_term L A ex vname g i vs p s pt th). Qed.
Print Assumptions C68_term.
(** If every given id is equal to the id it stands for, then the instance of the pattern is
    represented in the class of the id. *)
Theorem C68_found {Op D} `{Countable Op} (L : lang Op) (A : analysis Op D) ex vname (g : egraph Op D) i vs p s pt :
  (forall i j, vname i = vname j -> i = j) ->
  reachable_np L A ex g -> known g i -> id_to_pattern vname i vs g = Ok (p, s) -> ExprTree p pt ->
  (forall j k, vs !! j = Some k -> known g j -> eg_find g k = eg_find g j) -> PRep g (subst_get s) pt (eg_find g i).
Proof. intros Hinj. exact (id_to_pattern_found L A ex vname Hinj g i vs p s pt). Qed.
Print Assumptions C68_found.
(** g(f(x)) cut at x is g(f(?0)). *)
Example C68_ex : (forall i j, S i = S j -> i = j) /\ reachable_np natlang unitan false pid_g /\ known pid_g 4 /\
  id_to_pattern S 4 pid_vs pid_g = Ok (pid_p, [(1, 1)]) /\ ExprTree pid_p pid_t /\
  (forall j k, pid_vs !! j = Some k -> known pid_g j -> eg_find pid_g k = eg_find pid_g j) /\
  (forall j k e, pid_vs !! j = Some k -> id_to_expr j pid_g = Ok e -> ExprTree e (TNode 0 [] : term nat)) /\
  id_to_expr 4 pid_g = Ok [Node 0 []; Node 2 [0]; Node 3 [1]].
Proof. exact (conj S_inj (conj (cong_g_reachable_np false true) (conj pid_known (conj pid_eq (conj pid_tree (conj pid_equal (conj pid_terms pid_expr))))))). Qed.
