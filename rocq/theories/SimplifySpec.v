(** Signatures: which operators a term, a pattern or a rule uses, with how many children. *)
From Verif Require Import Base EGraphModel Spec RecExprModel ExprModel MachineModel RewriteModel TextModel TextSpec.

Section spec.
Context {Op D : Type} `{Countable Op} (S : Op -> nat -> Prop).
(** All operators of the term are in the signature. *)
Inductive term_over : term Op -> Prop :=
| term_over_node f ts : S f (length ts) -> Forall term_over ts -> term_over (TNode f ts).
Definition pattern_over (p : list (node (pop Op))) : Prop := forall f cs, Node (POp f) cs ∈ p -> S f (length cs).
(** Appliers that are patterns or multi-patterns, perhaps under [ConditionEqual]. *)
Fixpoint applier_over (a : applier Op D) : Prop :=
  match a with
  | APattern p => pattern_over p
  | AMulti asts => forall v p, (v, p) ∈ asts -> pattern_over p
  | ACond (CEqual p1 p2) a => pattern_over p1 /\ pattern_over p2 /\ applier_over a
  | ACond (CFn _ _ _) _ | AFn _ _ _ => False
  end.
Definition rule_over (rw : rewrite Op D) : Prop :=
  (forall p, rw_searcher rw = SPattern p -> pattern_over (pt_ast p)) /\ applier_over (rw_applier rw).
End spec.

(** The operators whose name can be printed and read again, with this number of children. *)
Definition nameable {Op} (disp : Op -> text) (from_op : text -> list nat -> option (node Op)) (f : Op) (n : nat) : Prop :=
  printable (disp f) /\ forall cs, length cs = n -> from_op (disp f) cs = Some (Node f cs).
