(** The notion used by the property theorems about proving goals. *)
From Verif Require Import Base UnionFind EGraphModel Spec Terms RecExprModel ExprModel PatSpec MachineModel RewriteModel RunnerModel DeriveSpec.

(** Some instance of the pattern is equal to the term by equational logic with the rules. *)
Definition provable {Op D} `{Countable Op} (rules : list (rewrite Op D)) (t : term Op) (p : term (pop Op)) : Prop :=
  exists th, derivable rules (fun _ _ => False) t (tsubst th p).
