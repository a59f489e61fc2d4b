(** Switching explanations on and off: src/egraph.rs:198-210, 442-451.  Definitions only. *)
From Verif Require Import Base UnionFind EGraphModel RunnerModel.

Section model.
Context {Op D : Type} `{Countable Op}.
Notation egraph := (egraph Op D).
(** src/egraph.rs:201-210 *)
Definition with_explanations_enabled (g : egraph) : res egraph :=
  match eg_explain g with
  | Some _ => Ok g
  | None => if 0 <? total_size g then Panic else Ok (set_explain (Some ex_new) g)
  end.
(** src/egraph.rs:443-446 *)
Definition with_explanations_disabled (g : egraph) : egraph := set_explain None g.
(** src/egraph.rs:449-451 *)
Definition are_explanations_enabled (g : egraph) : bool := bool_decide (is_Some (eg_explain g)).
End model.
