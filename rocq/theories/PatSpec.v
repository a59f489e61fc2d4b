(** Specification vocabulary for patterns: instances and when they are represented. *)
From Verif Require Import Base EGraphModel Spec Terms ExprModel.

(** [PRep g s t r]: the instance of the pattern term [t] under the substitution [s] of
    classes for variables is represented in class [r], by the listed e-nodes only. *)
Inductive PRep {Op D} `{Countable Op} (g : egraph Op D) (s : nat -> option nat) : term (pop Op) -> nat -> Prop :=
| PRep_var v ts i : s v = Some i -> PRep g s (TNode (PVar v) ts) (eg_find g i)
| PRep_node f ts cs r c :
    eg_classes g !! r = Some c -> Node f cs ∈ c_nodes c ->
    Forall2 (fun t x => PRep g s t (eg_find g x)) ts cs ->
    PRep g s (TNode (POp f) ts) r.

(** Replacing variables by ground terms. *)
Fixpoint tsubst {Op} (th : nat -> term Op) (t : term (pop Op)) : term Op :=
  match t with
  | TNode (PVar v) _ => th v
  | TNode (POp f) ts => TNode f (tsubst th <$> ts)
  end.
(** A ground term as a pattern. *)
Fixpoint embed {Op} (t : term Op) : term (pop Op) :=
  match t with TNode f ts => TNode (POp f) (embed <$> ts) end.

(** The variables of a pattern term. *)
Inductive occurs {Op} (v : nat) : term (pop Op) -> Prop :=
| occurs_here ts : occurs v (TNode (PVar v) ts)
| occurs_below f ts t : t ∈ ts -> occurs v t -> occurs v (TNode (POp f) ts).

(** Pattern ASTs: variable nodes have no children. *)
Definition pat_ok {Op} (p : list (pnode Op)) : Prop := Forall pnode_ok p.

(** Every node of the expression other than the root is used by some node. *)
Definition rooted {Op} (e : list (node Op)) : Prop :=
  forall i, S i < length e -> exists j n, e !! j = Some n /\ i ∈ nch n.
