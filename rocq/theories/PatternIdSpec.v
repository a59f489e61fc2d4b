(** The pattern that is the term of an id, cut at given ids. *)
From Verif Require Import Base EGraphModel Spec ExprModel.

(** [CutTree ns vname cut i p]: unfolding node [i] of the table of nodes [ns] (as
    [id_to_node] answers), down to the ids in [cut], which become variables, gives the
    pattern term [p]. *)
Inductive CutTree {Op} (ns : list (node Op)) (vname : nat -> nat) (cut : nat -> Prop) : nat -> term (pop Op) -> Prop :=
| Cut_var i : cut i -> CutTree ns vname cut i (TNode (PVar (vname i)) [])
| Cut_node i f cs ts : ~ cut i -> ns !! i = Some (Node f cs) -> Forall2 (CutTree ns vname cut) cs ts -> CutTree ns vname cut i (TNode (POp f) ts).
