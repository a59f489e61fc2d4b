(** Whole lives of e-graphs. *)
From Verif Require Import Base UnionFind EGraphModel Spec SerdeModel LifeModel.

Section spec.
Context {Op D : Type} `{Countable Op} (L : lang Op) (A : analysis Op D).
(** E-graphs made by running programs (from [Q]) over the API, switching explanations on and off where the code allows it, and saving
    and loading, in any order and number. *)
Inductive lived (Q : prog Op D -> Prop) : egraph Op D -> Prop :=
| lived_new ex : lived Q (eg_new ex)
| lived_run fuel p g g' : lived Q g -> Q p -> run_prog L A fuel (modify_n L A fuel) p g = Ok g' -> lived Q g'
| lived_on g g' : lived Q g -> with_explanations_enabled g = Ok g' -> lived Q g'
| lived_off g : lived Q g -> lived Q (with_explanations_disabled g)
| lived_loaded g : lived Q g -> lived Q (load (save g)).
Definition lives : egraph Op D -> Prop := lived (fun _ => True).
(** ... never deleting e-nodes from a class by hand *)
Definition lives_np (g : egraph Op D) : Prop := (forall i, no_prune (an_modify A i)) /\ lived no_prune g.
End spec.
