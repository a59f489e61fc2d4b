(** Theorems on how long explanations are with the length optimiser on.  The length of an
    explanation is the number of terms of its flat form. *)
From Verif Require Import Base UnionFind Spec EGraphModel EGraphReach Terms ExplainModel ExplainSpec ExplainFlat ExtractSpec MatchSpec OptModel OptSpec Examples ExamplesExplain ExamplesOpt
  ShortSpec OptShortMain OptLean ExamplesShort.

(** * C57 *)
(** An optimised explanation has no more steps than any chain of asserted unions between the
    two ids, when no asserted union joins e-nodes that are congruent anyway. *)
Theorem C57_no_longer_than_unions {Op D} `{Countable Op} (L : lang Op) (A : analysis Op D) it cit pop fuel (g g1 g2 : egraph Op D) l r t u p fl k :
  enumerates it -> reachable L A true g -> traverses g (cit (eg_classes g)) -> explained it cit g g1 -> pops_min pop ->
  AddedAs (eg_log g) l t -> AddedAs (eg_log g) r u -> informative (eg_log g) -> unions (eg_log g) l r k ->
  explain_id_equivalence_opt it cit pop fuel l r g1 = Ok (g2, p) -> make_flat p = Ok fl -> length fl <= S k.
Proof. intros Hit. exact (optimised_upper L A it Hit cit pop fuel g g1 g2 l r t u p fl k). Qed.
Print Assumptions C57_no_longer_than_unions.
(** four unions, of which two suffice; without the optimiser the explanation has three steps *)
Example C57_no_longer_than_unions_ex : enumerates it_o /\ pops_min pop_o /\ reachable natlang unitan true cut_g /\ traverses cut_g (cit_o (eg_classes cut_g)) /\
  AddedAs (eg_log cut_g) 0 (TNode 0 []) /\ AddedAs (eg_log cut_g) 3 (TNode 3 []) /\ informative (eg_log cut_g) /\ unions (eg_log cut_g) 0 3 2 /\
  lens cut_g 0 3 = (Ok 4, Ok 3).
Proof.
  exact (conj it_o_ok (conj pop_o_ok (conj cut_reach (conj (cit_o_ok cut_g) (conj (proj1 cut_added) (conj (proj2 cut_added) (conj cut_informative (conj cut_unions cut_lens)))))))).
Qed.
(** Without redundant unions an optimised explanation is never longer than the explanation the
    optimiser was to shorten. *)
Theorem C57_never_longer {Op D} `{Countable Op} (L : lang Op) (A : analysis Op D) it cit pop fuel fuel' (g g1 g2 : egraph Op D) l r t u p fl q fl' :
  enumerates it -> reachable L A true g -> traverses g (cit (eg_classes g)) -> explained it cit g g1 -> pops_min pop ->
  AddedAs (eg_log g) l t -> AddedAs (eg_log g) r u -> irredundant (eg_log g) ->
  explain_id_equivalence_opt it cit pop fuel l r g1 = Ok (g2, p) -> make_flat p = Ok fl ->
  explain_id_equivalence fuel' l r g = Ok q -> make_flat q = Ok fl' -> length fl <= length fl'.
Proof. intros Hit. exact (optimised_shorter L A it cit Hit pop fuel fuel' g g1 g2 l r t u p fl q fl'). Qed.
Print Assumptions C57_never_longer.
(** a congruence in place of three unions *)
Example C57_never_longer_ex : enumerates it_o /\ pops_min pop_o /\ reachable natlang unitan true via_g /\ traverses via_g (cit_o (eg_classes via_g)) /\
  AddedAs (eg_log via_g) 2 (TNode 9 [TNode 0 []]) /\ AddedAs (eg_log via_g) 3 (TNode 9 [TNode 1 []]) /\ irredundant (eg_log via_g) /\
  lens via_g 2 3 = (Ok 4, Ok 2).
Proof.
  exact (conj it_o_ok (conj pop_o_ok (conj via_reach (conj (cit_o_ok via_g) (conj (proj1 via_added) (conj (proj2 via_added) (conj via_irredundant via_lens))))))).
Qed.
(** With redundant unions it can be: the optimiser measures a congruence by the paths of the
    forest between the children, which a redundant union may cut short. *)
Theorem C57_never_longer_refuted :
  exists it cit pop (g : egraph nat unit) l r, enumerates it /\ pops_min pop /\ reachable natlang unitan true g /\ traverses g (cit (eg_classes g)) /\
    eg_clean g = true /\ informative (eg_log g) /\
    exists q fl g2 p fl', explain_id_equivalence 50 l r g = Ok q /\ make_flat q = Ok fl /\
      explain_id_equivalence_opt it cit pop 50 l r g = Ok (g2, p) /\ make_flat p = Ok fl' /\ length fl < length fl'.
Proof.
  exists it_o, cit_o, pop_o, far_g, 5, 6.
  exact (conj it_o_ok (conj pop_o_ok (conj far_reach (conj (cit_o_ok far_g) (conj far_clean (conj far_informative far_longer)))))).
Qed.
Print Assumptions C57_never_longer_refuted.
