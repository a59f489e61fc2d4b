(** Term rewriting with the rules given to a runner, independently of e-graphs. *)
From Verif Require Import Base EGraphModel Spec Terms RecExprModel ExprModel PatSpec MachineModel RewriteModel.

Section spec.
Context {Op D : Type} `{Countable Op}.

(** An applier made of [ConditionEqual] conditions, given as pairs of pattern terms, around
    a pattern, given as a term. *)
Inductive guarded : applier Op D -> list (term (pop Op) * term (pop Op)) -> term (pop Op) -> Prop :=
| guarded_pattern p r : ExprTree p r -> guarded (APattern p) [] r
| guarded_cond p1 p2 t1 t2 a conds r :
    ExprTree p1 t1 -> ExprTree p2 t2 -> guarded a conds r -> guarded (ACond (CEqual p1 p2) a) ((t1, t2) :: conds) r.

(** [rewrites rules t u]: rewriting with the rules, anywhere in the term, any number of
    times, turns [t] into [u].  A conditional rule may be used if for every condition the
    instances of its two sides can be rewritten to a common term ([w k] for the [k]-th). *)
Inductive rewrites (rules : list (rewrite Op D)) : term Op -> term Op -> Prop :=
| rewrites_refl t : rewrites rules t t
| rewrites_trans t u v : rewrites rules t u -> rewrites rules u v -> rewrites rules t v
| rewrites_inside f ts us : length ts = length us ->
    (forall k t u, ts !! k = Some t -> us !! k = Some u -> rewrites rules t u) ->
    rewrites rules (TNode f ts) (TNode f us)
| rewrites_rule rw p l conds r th (w : nat -> term Op) :
    rw ∈ rules -> rw_searcher rw = SPattern p -> ExprTree (pt_ast p) l -> guarded (rw_applier rw) conds r ->
    (forall k t1 t2, conds !! k = Some (t1, t2) -> rewrites rules (tsubst th t1) (w k)) ->
    (forall k t1 t2, conds !! k = Some (t1, t2) -> rewrites rules (tsubst th t2) (w k)) ->
    rewrites rules (tsubst th l) (tsubst th r).
End spec.

(** Rules between two patterns, without conditions. *)
Definition plain_rule {Op D} `{Countable Op} (rw : rewrite Op D) : Prop :=
  exists p q, rw_searcher rw = SPattern p /\ rw_applier rw = APattern q.
(** What a rule does can be undone by the rules (as for rules given in both directions). *)
Definition reversible {Op D} `{Countable Op} (rules : list (rewrite Op D)) : Prop :=
  forall rw p q l r th, rw ∈ rules -> rw_searcher rw = SPattern p -> rw_applier rw = APattern q -> ExprTree (pt_ast p) l -> ExprTree q r ->
    rewrites rules (tsubst th r) (tsubst th l).
