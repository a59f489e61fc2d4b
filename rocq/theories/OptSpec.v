(** What the theorems on the length optimiser speak about. *)
From Verif Require Import Base UnionFind EGraphModel ExplainModel OptModel.

(** Any way of taking an element of least cost out of a heap. *)
Definition pops_min (pop : list (list hentry) -> list hentry -> option (hentry * list hentry)) : Prop :=
  forall tr hp, match pop tr hp with
    | None => hp = []
    | Some (e, hp') => hp ≡ₚ e :: hp' /\ forall e', e' ∈ hp -> e.1 <= e'.1
    end.
(** [g'] is [g] after any number of explanations with the length optimiser on. *)
Inductive explained {Op D} `{Countable Op} (it : gset nat -> list nat) (cit : gmap nat (eclass Op D) -> list nat) (g : egraph Op D) : egraph Op D -> Prop :=
| xd_refl : explained it cit g g
| xd_step g1 g2 pop fuel l r p : explained it cit g g1 -> pops_min pop ->
    explain_id_equivalence_opt it cit pop fuel l r g1 = Ok (g2, p) -> explained it cit g g2.
(** the e-graphs differ at most in the memo of paths *)
Definition same_but_memo {Op D} `{Countable Op} (g g' : egraph Op D) : Prop :=
  g' = g \/ exists x x', eg_explain g = Some x /\ g' = set_explain (Some x') g /\ ex_find x' = ex_find x /\ ex_memo x' = ex_memo x.
(** E-graphs with explanations on that a client reaches by running programs over the API and
    asking for explanations with the length optimiser on, in any order. *)
Inductive reach_opt {Op D} `{Countable Op} (L : lang Op) (A : analysis Op D) (it : gset nat -> list nat) (cit : gmap nat (eclass Op D) -> list nat) : egraph Op D -> Prop :=
| ro_new : reach_opt L A it cit (eg_new true)
| ro_run fuel p g g' : reach_opt L A it cit g -> run_prog L A fuel (modify_n L A fuel) p g = Ok g' -> reach_opt L A it cit g'
| ro_explain pop fuel l r g g' p : reach_opt L A it cit g -> pops_min pop ->
    explain_id_equivalence_opt it cit pop fuel l r g = Ok (g', p) -> reach_opt L A it cit g'.
