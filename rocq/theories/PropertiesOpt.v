(** Properties of explanations with the length optimiser on. *)
From Verif Require Import Base UnionFind EGraphModel Spec EGraphReach ExtractSpec MatchSpec ExplainModel ExplainSpec OptModel OptSpec OptMain OptInterleave OptNoPanic EGraphNoPanic Examples ExamplesExplain ExamplesOpt.

(** * C55 *)
(** In every e-graph a client can reach, after any number of explanations with the optimiser
    on, two equal ids have an explanation with the optimiser on: whatever the order in which
    classes, sets of ids and heap entries of equal cost are visited, the optimiser neither
    panics nor runs forever, what is answered proves the term of the first id equal to the
    term of the second, and nothing but the memo of paths is changed. *)
Theorem C55_optimised_explanations {Op D} `{Countable Op} (L : lang Op) (A : analysis Op D) it cit pop (g g1 : egraph Op D) l r t u :
  enumerates it -> reachable L A true g -> traverses g (cit (eg_classes g)) -> explained it cit g g1 -> pops_min pop ->
  AddedAs (eg_log g) l t -> AddedAs (eg_log g) r u -> eg_find g l = eg_find g r ->
  exists bound g2 p, (forall fuel, bound <= fuel -> explain_id_equivalence_opt it cit pop fuel l r g1 = Ok (g2, p)) /\
    proves (asserted (eg_log g)) p t u /\ same_but_memo g g2.
Proof. intros Hit. exact (optimised_explanations L A it Hit cit pop g g1 l r t u). Qed.
Print Assumptions C55_optimised_explanations.
Example C55_ex : enumerates it_o /\ pops_min pop_o /\ reachable natlang unitan true (exp_g true) /\ traverses (exp_g true) (cit_o (eg_classes (exp_g true))) /\
  (exists g1, explained it_o cit_o (exp_g true) g1 /\
    (length <$> (snd <$> explain_id_equivalence_opt it_o cit_o pop_o 100 6 4 g1)) = Ok 2) /\
  AddedAs (eg_log (exp_g true)) 6 hzt /\ AddedAs (eg_log (exp_g true)) 4 hxt /\ eg_find (exp_g true) 6 = eg_find (exp_g true) 4.
Proof.
  exact (conj it_o_ok (conj pop_o_ok (conj (exp_reachable true) (conj (cit_o_ok (exp_g true)) (conj
    (ex_intro _ opt_g1 (conj opt_explained opt_again)) (conj (proj2 exp_added) (conj (proj1 exp_added) (eq_sym exp_same)))))))).
Qed.
Theorem C55_unequal_ids_refused {Op D} `{Countable Op} it cit pop (g : egraph Op D) l r fuel :
  eg_find g l <> eg_find g r -> explain_id_equivalence_opt it cit pop fuel l r g = Panic.
Proof. exact (opt_unequal it cit pop g l r fuel). Qed.
Print Assumptions C55_unequal_ids_refused.
(** The number of congruence edges is always answered. *)
Theorem C55_num_congr {Op D} `{Countable Op} (L : lang Op) (A : analysis Op D) it cit (g : egraph Op D) :
  enumerates it -> reachable L A true g -> traverses g (cit (eg_classes g)) ->
  exists n bound, forall fuel, bound <= fuel -> get_num_congr it cit fuel g = Ok n.
Proof. intros Hit. exact (num_congr_ok L A it Hit cit g). Qed.
Print Assumptions C55_num_congr.
Example C55_num_congr_ex : get_num_congr it_o cit_o 100 (exp_g true) = Ok 7.
Proof. vm_compute. reflexivity. Qed.
(** It is not the number of congruences between nodes, as documented: an e-graph with a single
    node has one (every root of the forest counts as congruent to itself, and the congruences
    recorded in the forest are counted twice). *)
Theorem C55_num_congr_counts_refuted :
  exists g : egraph nat unit, reachable natlang unitan true g /\ length (eg_uf g) = 1 /\
    forall fuel, 10 <= fuel -> get_num_congr it_o cit_o fuel g = Ok 1.
Proof. exact (ex_intro _ one_g (conj one_reach (conj one_len one_congr))). Qed.
Print Assumptions C55_num_congr_counts_refuted.

(** * C56 *)
(** The client may go on using the e-graph between explanations, in any order.  What is
    answered is then still a proof of the right equation from the asserted ones, whether the
    optimiser is on or has been switched off again. *)
Theorem C56_interleaved_explanations_are_valid {Op D} `{Countable Op} (L : lang Op) (A : analysis Op D) it cit pop (g g' : egraph Op D) fuel l r p t u :
  reach_opt L A it cit g -> explain_id_equivalence_opt it cit pop fuel l r g = Ok (g', p) ->
  AddedAs (eg_log g) l t -> AddedAs (eg_log g) r u -> proves (asserted (eg_log g)) p t u /\ same_but_memo g g'.
Proof. exact (interleaved_valid L A it cit g g' pop fuel l r p t u). Qed.
Print Assumptions C56_interleaved_explanations_are_valid.
Theorem C56_switched_off_again {Op D} `{Countable Op} (L : lang Op) (A : analysis Op D) it cit (g : egraph Op D) fuel l r p t u :
  reach_opt L A it cit g -> explain_id_equivalence fuel l r g = Ok p ->
  AddedAs (eg_log g) l t -> AddedAs (eg_log g) r u -> proves (asserted (eg_log g)) p t u.
Proof. exact (interleaved_valid_off L A it cit g fuel l r p t u). Qed.
Print Assumptions C56_switched_off_again.
(** Explanations do not disturb the equalities, nor make another operation panic. *)
Theorem C56_interleaved_equalities {Op D} `{Countable Op} (L : lang Op) (A : analysis Op D) it cit (g : egraph Op D) a b :
  reach_opt L A it cit g -> known g a -> known g b ->
  (eg_find g a = eg_find g b -> Cong (eg_log g) a b) /\ (eg_clean g = true -> Cong (eg_log g) a b -> eg_find g a = eg_find g b).
Proof. exact (interleaved_equalities L A it cit g a b). Qed.
Print Assumptions C56_interleaved_equalities.
Theorem C56_interleaved_programs_do_not_panic {Op D} `{Countable Op} (L : lang Op) (A : analysis Op D) it cit (g : egraph Op D) fuel p :
  reach_opt L A it cit g -> (forall id N, id < N -> uses_known N (an_modify A id)) ->
  uses_known (length (eg_uf g)) p -> run_prog L A fuel (modify_n L A fuel) p g <> Panic.
Proof. exact (interleaved_no_panic L A it cit g fuel p). Qed.
Print Assumptions C56_interleaved_programs_do_not_panic.
(** Asked to explain two equal ids, the code either answers or goes on for ever. *)
Theorem C56_interleaved_explanations_do_not_panic {Op D} `{Countable Op} (L : lang Op) (A : analysis Op D) it cit pop (g : egraph Op D) l r :
  enumerates it -> (forall h : egraph Op D, traverses h (cit (eg_classes h))) -> pops_min pop ->
  reach_opt L A it cit g -> known g l -> known g r -> eg_find g l = eg_find g r ->
  (exists bound, forall fuel, bound <= fuel -> explain_id_equivalence_opt it cit pop fuel l r g <> Panic) /\
  forall fuel, explain_id_equivalence fuel l r g <> Panic.
Proof. intros Hit Hcit Hpop Hg. exact (interleaved_answers L A it Hit cit Hcit g pop l r Hg Hpop). Qed.
Print Assumptions C56_interleaved_explanations_do_not_panic.
(** an e-graph explained, extended, and explained again over other ids *)
Example C56_ex : reach_opt natlang unitan it_o cit_o loop_g /\ AddedAs (eg_log loop_g) 9 (TNode 11 [TNode 10 [TNode 5 []]]) /\ AddedAs (eg_log loop_g) 5 (TNode 5 []) /\
  (length <$> (snd <$> explain_id_equivalence_opt it_o cit_o pop_o 100 9 5 loop_g)) = Ok 2 /\ is_ok (explain_id_equivalence 100 9 5 loop_g) = true /\
  known loop_g 8 /\ known loop_g 5 /\ eg_find loop_g 8 = eg_find loop_g 5.
Proof. exact (conj loop_reach (conj (proj1 loop_added) (conj (proj2 loop_added) (conj loop_other (conj loop_other_off (conj (proj1 loop_known) (conj (proj2 loop_known) loop_same))))))). Qed.
(** When the client goes on using the e-graph between two explanations, termination is lost:
    after one explanation and some more additions and unions, the explanation of two equal
    ids of a rebuilt e-graph can recurse without end. *)
Theorem C56_interleaved_explanations_end_refuted :
  exists it cit pop (g : egraph nat unit) l r, enumerates it /\ (forall h : egraph nat unit, traverses h (cit (eg_classes h))) /\ pops_min pop /\
    reach_opt natlang unitan it cit g /\ eg_clean g = true /\ known g l /\ known g r /\ eg_find g l = eg_find g r /\
    exists bound, forall fuel, bound <= fuel -> explain_id_equivalence_opt it cit pop fuel l r g = OutOfFuel.
Proof.
  exact (ex_intro _ it_o (ex_intro _ cit_o (ex_intro _ pop_o (ex_intro _ loop_g (ex_intro _ 8 (ex_intro _ 5 (conj it_o_ok (conj cit_o_ok (conj pop_o_ok
    (conj loop_reach (conj loop_clean (conj (proj1 loop_known) (conj (proj2 loop_known) (conj loop_same (ex_intro _ 100 loop_forever))))))))))))))).
Qed.
Print Assumptions C56_interleaved_explanations_end_refuted.
