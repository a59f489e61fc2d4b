(** Equational logic with the rules given to a runner, independently of e-graphs. *)
From Verif Require Import Base EGraphModel Spec Terms RecExprModel ExprModel PatSpec MachineModel RewriteModel OptimumSpec.

Section spec.
Context {Op D : Type} `{Countable Op}.

(** [derivable rules facts t u]: the equation t = u follows by equational logic from the
    ground equations in [facts] and the rules read as equations; a conditional rule may be
    used if the equations its conditions ask for are derivable. *)
Inductive derivable (rules : list (rewrite Op D)) (facts : term Op -> term Op -> Prop) : term Op -> term Op -> Prop :=
| derivable_fact t u : facts t u -> derivable rules facts t u
| derivable_refl t : derivable rules facts t t
| derivable_sym t u : derivable rules facts t u -> derivable rules facts u t
| derivable_trans t u v : derivable rules facts t u -> derivable rules facts u v -> derivable rules facts t v
| derivable_inside f ts us : length ts = length us ->
    (forall k t u, ts !! k = Some t -> us !! k = Some u -> derivable rules facts t u) ->
    derivable rules facts (TNode f ts) (TNode f us)
| derivable_rule rw p l conds r th :
    rw ∈ rules -> rw_searcher rw = SPattern p -> ExprTree (pt_ast p) l -> guarded (rw_applier rw) conds r ->
    (forall k t1 t2, conds !! k = Some (t1, t2) -> derivable rules facts (tsubst th t1) (tsubst th t2)) ->
    derivable rules facts (tsubst th l) (tsubst th r).

(** Rules from a pattern to a pattern, perhaps under [ConditionEqual] conditions. *)
Definition pattern_rule (rw : rewrite Op D) : Prop :=
  exists p conds r, rw_searcher rw = SPattern p /\ guarded (rw_applier rw) conds r.
(** What a rule does -- its conditions being shown by rewriting -- can be undone by the rules. *)
Definition undoable (rules : list (rewrite Op D)) : Prop :=
  forall rw p l conds r th (w : nat -> term Op),
    rw ∈ rules -> rw_searcher rw = SPattern p -> ExprTree (pt_ast p) l -> guarded (rw_applier rw) conds r ->
    (forall k t1 t2, conds !! k = Some (t1, t2) -> rewrites rules (tsubst th t1) (w k) /\ rewrites rules (tsubst th t2) (w k)) ->
    rewrites rules (tsubst th r) (tsubst th l).
End spec.
