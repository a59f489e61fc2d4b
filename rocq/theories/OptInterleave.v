(** E-graphs used and explained with the length optimiser in any order. *)
From Verif Require Import Base UnionFind Spec EGraphModel EGraphSteps EGraphInv EGraphPres EGraphRuns EGraphMain EGraphReach EGraphSafe EGraphNoPanic ExplainForest Terms RecExprModel ExprModel
  ExplainModel ExplainSpec ExplainPath ExplainProofs ExplainMain OptModel OptSpec OptNeighbours OptSolid.

Section inter.
Context {Op D : Type} `{Countable Op} (L : lang Op) (A : analysis Op D).
Notation node := (node Op).
Notation egraph := (egraph Op D).
Notation eclass := (eclass Op D).
Notation term := (term Op).
Notation explain := (explain Op).
Implicit Types g : egraph.
Context (it : gset nat -> list nat) (cit : gmap nat eclass -> list nat).

Lemma opt_shape pop fuel l r g g' p : explain_id_equivalence_opt it cit pop fuel l r g = Ok (g', p) ->
  exists x x', eg_explain g = Some x /\ ex_find x' = ex_find x /\ ex_memo x' = ex_memo x /\ g' = set_explain (Some x') g /\
    eg_find g l = eg_find g r /\ explain_id_equivalence fuel l r g' = Ok p.
Proof.
  unfold explain_id_equivalence_opt. case_bool_decide as Hlr; [|done]. destruct (eg_explain g) as [x|] eqn:Ex; [|done]. cbn [expect mbind res_bind].
  destruct (calculate_shortest _ _ _ _ _ _ _ _ _ _) as [x'| |] eqn:Ec; try done. cbn [mbind res_bind]. intros E.
  destruct (explain_enodes fuel x' (eg_nodes g) l r ∅) as [[q ca]| |] eqn:Ee; try done. cbn [mbind res_bind] in E. injection E as <- <-.
  assert (Hx' : ex_find x' = ex_find x /\ ex_memo x' = ex_memo x).
  { unfold calculate_shortest in Ec. destruct (find_congruence_neighbors _ _ _ _ _ _ _); try done. cbn [mbind res_bind] in Ec.
    destruct (calculate_common_ancestor _ _ _ _ _ _ _); try done. cbn [mbind res_bind] in Ec.
    destruct (calculate_tree_depths _); try done. cbn [mbind res_bind] in Ec. cbn zeta in Ec.
    destruct (greedy _ _ _ _ _ _ _ _ _ _ _ _) as [[sh pd]| |]; try done. cbn [mbind res_bind] in Ec. by injection Ec as <-. }
  exists x, x'. split; [done|]. split; [apply Hx'|]. split; [apply Hx'|]. split; [done|]. split; [done|].
  unfold explain_id_equivalence. change (eg_find (set_explain (Some x') g)) with (eg_find g). rewrite bool_decide_eq_true_2 by done.
  cbn [eg_explain set_explain expect mbind res_bind eg_nodes]. by rewrite Ee.
Qed.
Lemma reach_opt_solid g : reach_opt L A it cit g -> solid g.
Proof.
  induction 1 as [|fuel p g g' _ IH E|pop fuel l r g g' p _ IH _ E].
  - apply solid_new.
  - eapply (solid_brun L A); [|exact IH]. eapply run_prog_runs; [|apply prog_in_any|exact E]. apply modify_n_runs. intros. apply prog_in_any.
  - destruct (opt_shape _ _ _ _ _ _ _ E) as (x & x' & Ex & Ef & Em & -> & _). by eapply solid_memo.
Qed.

(** ** The claims *)
Lemma solid_sound g x x' fuel l r p t u : solid g -> eg_explain g = Some x -> ex_find x' = ex_find x ->
  explain_id_equivalence fuel l r (set_explain (Some x') g) = Ok p ->
  AddedAs (eg_log g) l t -> AddedAs (eg_log g) r u -> proves (asserted (eg_log g)) p t u.
Proof.
  intros S Hx Ef E Ht Hu. apply (solid_Tree _ _ _ S) in Ht, Hu. unfold explain_id_equivalence in E.
  case_bool_decide; [|done]. cbn [eg_explain set_explain expect mbind res_bind eg_nodes] in E.
  destruct (explain_enodes _ _ _ _ _ _) as [[p' ca']| |] eqn:Ee; try done. cbn in E. injection E as ->.
  destruct (so_good _ S) as [I X]. destruct (X x Hx) as [es Hes].
  pose proof (links_ok_forest _ _ _ _ _ Hes x' Ef) as Hlk.
  destruct (explain_enodes_sound _ (solid_dag _ S) _ _ fuel Hlk _ _ _ _ _ _ _ Ee Ht Hu) as [_ Hp].
  { intros a b q Hq. by rewrite lookup_empty in Hq. }
  eapply fproves_mono; [|exact Hp]. intros ru a b (i & j & Hi & Ha & Hb). exists i, j. split; [done|]. by rewrite !solid_Tree.
Qed.
Theorem interleaved_valid g g' pop fuel l r p t u : reach_opt L A it cit g -> explain_id_equivalence_opt it cit pop fuel l r g = Ok (g', p) ->
  AddedAs (eg_log g) l t -> AddedAs (eg_log g) r u -> proves (asserted (eg_log g)) p t u /\ same_but_memo g g'.
Proof.
  intros S%reach_opt_solid E Ht Hu. destruct (opt_shape _ _ _ _ _ _ _ E) as (x & x' & Ex & Ef & Em & -> & _ & E'). split.
  - exact (solid_sound g x x' fuel l r p t u S Ex Ef E' Ht Hu).
  - right. exists x, x'. done.
Qed.
(** switched off later, the optimiser leaves its memo behind *)
Theorem interleaved_valid_off g fuel l r p t u : reach_opt L A it cit g -> explain_id_equivalence fuel l r g = Ok p ->
  AddedAs (eg_log g) l t -> AddedAs (eg_log g) r u -> proves (asserted (eg_log g)) p t u.
Proof.
  intros S%reach_opt_solid E Ht Hu. destruct (so_ex _ S) as [x Hx]. apply (solid_sound g x x fuel l r p t u S Hx eq_refl); [|done|done].
  replace (set_explain (Some x) g) with g; [done|]. unfold set_explain. rewrite <- Hx. by destruct g.
Qed.
Theorem interleaved_equalities g a b : reach_opt L A it cit g -> known g a -> known g b ->
  (eg_find g a = eg_find g b -> Cong (eg_log g) a b) /\ (eg_clean g = true -> Cong (eg_log g) a b -> eg_find g a = eg_find g b).
Proof.
  unfold known. intros S%reach_opt_solid Ha Hb. pose proof (go_inv _ (so_good _ S)) as I. split.
  - intros Hab. apply congT_Cong; [intros k m Hk; by apply (so_exact _ S)|]. rewrite <- (iv_len _ I) in Ha, Hb.
    apply ct_trans with (eg_find g a); [by apply (ci_snd _ _ _ _ _ _ _ (iv_c _ I))|].
    rewrite Hab. apply ct_sym. by apply (ci_snd _ _ _ _ _ _ _ (iv_c _ I)).
  - intros Ec Hc. pose proof (so_clean _ S Ec) as Ep. clear Ha Hb.
    induction Hc as [i|i j _ IH|i j k _ IH1 _ IH2|x y r Hr|f cs ds i j Hi Hj El Hk IH]; [done|done|congruence| |].
    + apply (ci_un _ _ _ _ _ _ _ (iv_c _ I)). by exists r.
    + apply (so_exact _ S) in Hi, Hj. eapply Inv_congruent; eauto. by apply canonf_eq_intro.
Qed.
Theorem interleaved_no_panic g fuel p : reach_opt L A it cit g -> (forall id N, id < N -> uses_known N (an_modify A id)) ->
  uses_known (length (eg_uf g)) p -> run_prog L A fuel (modify_n L A fuel) p g <> Panic.
Proof.
  intros S%reach_opt_solid Hh U E. pose proof (run_prog_good L A fuel _ p g (modify_n_good L A fuel Hh) (so_good _ S) U) as Hok. by rewrite E in Hok.
Qed.
End inter.
