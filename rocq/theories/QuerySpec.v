(** Vocabulary for queries: patterns as clients make them, instances, renamings. *)
From Verif Require Import Base EGraphModel Spec Terms RecExprModel ExprModel PatSpec MachineModel MatchSpec TextModel.

(** The pattern [p] was made by [Pattern::new] and stands for the pattern term [t]. *)
Definition stands_for {Op} `{Countable Op} (ord : gmap (nat * nat) (node Op) -> list (nat * nat)) (p : @pattern Op) (t : term (pop Op)) : Prop :=
  exists fuel ast, good_ast ast /\ pattern_new ord fuel ast = Ok p /\ ExprTree (pt_ast p) t.
(** Some choice of classes for the variables puts the pattern term into class [c]. *)
Definition has_instance {Op D} `{Countable Op} (g : egraph Op D) (t : term (pop Op)) (c : nat) : Prop :=
  exists sg, (forall v i, sg v = Some i -> known g i) /\ PRep g sg t c.

(** Renaming the variables of a pattern node; other nodes stay. *)
Definition rename_node {Op} (r : var -> var) (n : node (vop Op)) : node (vop Op) :=
  match nop n with VVar v => Node (VVar (r v)) (nch n) | VOp f => n end.
(** The variables of a pattern AST. *)
Definition var_in {Op} (v : var) (p : list (node (vop Op))) : Prop := exists n, n ∈ p /\ nop n = VVar v.
(** [q] is [p] with variables consistently renamed, different ones to different ones. *)
Definition variant {Op} (p q : list (node (vop Op))) : Prop :=
  exists r : var -> var, (forall v w, var_in v p -> var_in w p -> r v = r w -> v = w) /\ q = rename_node r <$> p.
(** Pattern ASTs: children first, variables without children. *)
Definition pattern_ast {Op} (p : list (node (vop Op))) : Prop :=
  dag p /\ Forall (fun n => (exists v, nop n = VVar v) -> nch n = []) p.
(** The same for pattern terms. *)
Fixpoint rename_term {Op} (r : var -> var) (t : term (vop Op)) : term (vop Op) :=
  match t with
  | TNode (VVar v) ts => TNode (VVar (r v)) (rename_term r <$> ts)
  | TNode (VOp f) ts => TNode (VOp f) (rename_term r <$> ts)
  end.
