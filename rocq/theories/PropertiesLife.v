(** Property C64: whole lives of e-graphs -- programs, switching explanations on and off, saving and loading, in any order.
    Vocabulary: LifeSpec.v (lives), Spec.v, ExplainSpec.v.  The proofs are in LifeProofs.v. *)
From Verif Require Import Base UnionFind EGraphModel EGraphPres Spec EGraphReach ExplainModel ExplainSpec RunnerModel SizeSpec SerdeModel LifeModel LifeSpec LifeProofs
  Examples ExamplesExplain ExamplesSerde ExamplesLife.

(** * C64 *)
(** Equal ids follow from what was added and stated (C07), at every moment; after a rebuild these are all that follow (C08). *)
Theorem C64_sound {Op D} `{Countable Op} (L : lang Op) (A : analysis Op D) g a b :
  lives L A g -> known g a -> known g b -> eg_find g a = eg_find g b -> Cong (eg_log g) a b.
Proof. exact (life_sound L A g a b). Qed.
Print Assumptions C64_sound.
Theorem C64_complete {Op D} `{Countable Op} (L : lang Op) (A : analysis Op D) g a b :
  lives L A g -> eg_clean g = true -> Cong (eg_log g) a b -> eg_find g a = eg_find g b.
Proof. exact (life_complete L A g a b). Qed.
Print Assumptions C64_complete.
(** After a rebuild, [lookup] finds exactly the nodes congruent to added ones (C06). *)
Theorem C64_lookup {Op D} `{Countable Op} (L : lang Op) (A : analysis Op D) g n r :
  lives L A g -> eg_clean g = true ->
  eg_lookup g n = Some r <-> exists cs i, EAdd (Node (nop n) cs) i ∈ eg_log g /\ same_children g (nch n) cs /\ r = eg_find g i.
Proof. exact (life_lookup L A g n r). Qed.
Print Assumptions C64_lookup.
(** After a rebuild, the classes are sorted, without duplicates, disjoint, canonical, and list only what was added (C09); nothing is missing (if nodes are not
    deleted by hand), and the index by operators is exact (C10). *)
Theorem C64_canonical {Op D} `{Countable Op} (L : lang Op) (A : analysis Op D) g :
  lang_ok L -> lives L A g -> eg_clean g = true ->
  (forall r, is_Some (eg_classes g !! r) <-> known g r /\ eg_find g r = r) /\
  (forall r c, eg_classes g !! r = Some c ->
     NoDup (c_nodes c) /\ StronglySorted (node_le L) (c_nodes c) /\ forall n x, n ∈ c_nodes c -> x ∈ nch n -> eg_find g x = x) /\
  (forall r r' c c' n, eg_classes g !! r = Some c -> n ∈ c_nodes c -> eg_classes g !! r' = Some c' -> n ∈ c_nodes c' -> r = r') /\
  (forall r c n, eg_classes g !! r = Some c -> n ∈ c_nodes c ->
     exists cs i, EAdd (Node (nop n) cs) i ∈ eg_log g /\ same_children g (nch n) cs /\ eg_find g i = r).
Proof. exact (life_canonical L A g). Qed.
Print Assumptions C64_canonical.
Theorem C64_cover {Op D} `{Countable Op} (L : lang Op) (A : analysis Op D) g m i :
  lives_np L A g -> EAdd m i ∈ eg_log g ->
  exists c n, eg_classes g !! eg_find g i = Some c /\ n ∈ c_nodes c /\ nop n = nop m /\ same_children g (nch n) (nch m).
Proof. exact (life_cover L A g m i). Qed.
Print Assumptions C64_cover.
Theorem C64_index {Op D} `{Countable Op} (L : lang Op) (A : analysis Op D) g d r :
  lives_np L A g -> eg_clean g = true ->
  (exists s, eg_by_op g !! d = Some s /\ r ∈ s) <-> exists c n, eg_classes g !! r = Some c /\ n ∈ c_nodes c /\ l_disc L (nop n) = d.
Proof. exact (life_index L A g d r). Qed.
Print Assumptions C64_index.
Example C64_ex : lang_ok natlang /\ lives_np natlang unitan life_g /\
  (eg_clean life_g = true /\ are_explanations_enabled life_g = false /\ eg_find life_g 4 = eg_find life_g 5 /\ eg_find life_g 6 = eg_find life_g 0 /\
   eg_find life_g 2 <> eg_find life_g 0 /\ length (eg_uf life_g) = 7).
Proof. exact (conj natlang_ok (conj life_g_np life_g_facts)). Qed.
(** No panics, with known ids (C13). *)
Theorem C64_no_panic {Op D} `{Countable Op} (L : lang Op) (A : analysis Op D) fuel p g :
  lives L A g -> (forall id N, id < N -> uses_known N (an_modify A id)) ->
  uses_known (length (eg_uf g)) p -> run_prog L A fuel (modify_n L A fuel) p g <> Panic.
Proof. exact (life_no_panic L A fuel p g). Qed.
Print Assumptions C64_no_panic.
(** Explanations can be switched on exactly as long as nothing was added (or they are on already). *)
Theorem C64_switch_on {Op D} `{Countable Op} (L : lang Op) (A : analysis Op D) g :
  lives L A g -> with_explanations_enabled g = Panic <-> eg_explain g = None /\ handed_out g <> 0.
Proof. exact (life_on L A g). Qed.
Print Assumptions C64_switch_on.
(** Switching changes the mode and nothing that was added or stated; without explanations none is given. *)
Theorem C64_switched {Op D} `{Countable Op} (g : egraph Op D) :
  (forall g', with_explanations_enabled g = Ok g' -> are_explanations_enabled g' = true /\ eg_log g' = eg_log g /\ forall i, eg_find g' i = eg_find g i) /\
  (are_explanations_enabled g = true -> with_explanations_enabled g = Ok g) /\
  are_explanations_enabled (with_explanations_disabled g) = false /\ eg_log (with_explanations_disabled g) = eg_log g /\
  (forall i, eg_find (with_explanations_disabled g) i = eg_find g i) /\
  (are_explanations_enabled g = false -> forall fuel l r, explain_id_equivalence fuel l r g = Panic).
Proof. exact (life_switched g). Qed.
Print Assumptions C64_switched.
Example C64_switch_ex : with_explanations_enabled (cong_g false true) = Panic /\ is_ok (with_explanations_enabled (eg_new false : egraph nat unit)) = true.
Proof. exact switch_facts. Qed.
(** While explanations are on, every equality has a valid one (C40), also after loading and stating further equalities. *)
Theorem C64_explain {Op D} `{Countable Op} (L : lang Op) (A : analysis Op D) g l r t u :
  lives L A g -> are_explanations_enabled g = true -> AddedAs (eg_log g) l t -> AddedAs (eg_log g) r u -> eg_find g l = eg_find g r ->
  exists bound, forall fuel, bound <= fuel -> exists p, explain_id_equivalence fuel l r g = Ok p /\ proves (asserted (eg_log g)) p t u.
Proof. intros R Hx. exact (life_explain L A g l r t u R (bool_decide_eq_true_1 _ Hx)). Qed.
Print Assumptions C64_explain.
Example C64_explain_ex : lives natlang unitan told_g /\ (AddedAs (eg_log told_g) 4 hxt /\ AddedAs (eg_log told_g) 6 hzt) /\
  (are_explanations_enabled told_g = true /\ eg_find told_g 4 = eg_find told_g 6 /\ n_steps (explain_id_equivalence 10 4 6 told_g) = Ok 2).
Proof. exact (conj told_lives (conj told_added told_facts)). Qed.
