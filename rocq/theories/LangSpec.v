(** What it means to call a closure on a list of ids from left to right. *)
From Verif Require Import Base EGraphModel Spec Terms.

(** [Calls f s cs s' rs]: calling the closure [f], in state [s], on each of [cs] in this
    order (once each) leaves it in state [s'] and returns [rs]. *)
Inductive Calls {S R} (f : S -> nat -> S * R) : S -> list nat -> S -> list R -> Prop :=
| Calls_nil s : Calls f s [] s []
| Calls_cons s c cs s1 r s2 rs : f s c = (s1, r) -> Calls f s1 cs s2 rs -> Calls f s (c :: cs) s2 (r :: rs).
(** The number of nodes of a term. *)
Fixpoint nodes_of {Op} (t : term Op) : nat := match t with TNode _ ts => S (sum_list (nodes_of <$> ts)) end.
