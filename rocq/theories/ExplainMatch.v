(** [explain_matches]: the right end of the explanation is an instance of the pattern. *)
From Verif Require Import Base UnionFind EGraphModel Spec EGraphSteps EGraphInv EGraphPres EGraphRuns EGraphMain EGraphReach EGraphOps EGraphSafe Terms RecExprModel ExprModel PatSpec ExprProofs ExplainModel ExplainSpec ExplainMain CheckSpec CheckProofs CheckRun.

Section matches.
Context {Op D : Type} `{Countable Op} (L : lang Op) (A : analysis Op D) (Hst : steady L A).
Notation egraph := (egraph Op D).
Implicit Types (g : egraph).
Lemma matches_ends fuel e t (pat : list (node (pop Op))) pt s g g1 g2 l r : reachable L A true g -> ExprTree e t -> pat_ok pat -> ExprTree pat pt ->
  add_expr_uncanonical A (modify_n L A fuel) e g = Ok (g1, l) -> add_instantiation_noncanonical A (modify_n L A fuel) pat s g1 = Ok (g2, r) ->
  reachable L A true g2 /\ grows g g2 /\ AddedAs (eg_log g2) l t /\
  exists th, (forall v i, subst_get s v = Some i -> known g2 i -> AddedAs (eg_log g2) (eg_find g2 i) (th v)) /\ AddedAs (eg_log g2) r (tsubst th pt).
Proof.
  intros R Ht Hok Hp E1 E2. destruct (add_expr_added L A _ _ _ _ _ _ _ R Ht E1) as (R1 & G1 & A1). destruct (inst_keep L A fuel Hst pat s g1 g2 r R1 E2) as (R2 & G2 & K2).
  split; [done|]. split; [by eapply grows_trans|]. split; [by eapply added_grows|]. destruct (choose_terms L A g2 s R2 t) as [th Hth]. exists th. split; [done|].
  apply (inst_terms L A fuel Hst g2 th s Hth pat g1 g2 r pt R1 Hok Hp E2); [by eapply grows_refl, reachable_Inv|apply keep_refl].
Qed.
Lemma explain_matches_ok fuel fuel' e t (pat : list (node (pop Op))) pt s g g' p : reachable L A true g -> ExprTree e t -> pat_ok pat -> ExprTree pat pt ->
  explain_matches A (modify_n L A fuel) fuel' e pat s g = Ok (g', p) ->
  reachable L A true g' /\
  exists th, (forall v i, subst_get s v = Some i -> known g' i -> AddedAs (eg_log g') (eg_find g' i) (th v)) /\ proves (asserted (eg_log g')) p t (tsubst th pt).
Proof.
  intros R Ht Hok Hp E. unfold explain_matches in E. destruct (add_expr_uncanonical _ _ e g) as [[g1 l]| |] eqn:E1; try done. cbn [mbind res_bind] in E.
  destruct (add_instantiation_noncanonical _ _ pat s g1) as [[g2 r]| |] eqn:E2; try done. cbn [mbind res_bind] in E.
  destruct (explain_id_equivalence _ _ _ _) as [p'| |] eqn:E3; try done. cbn in E. injection E as <- <-.
  destruct (matches_ends _ _ _ _ _ _ _ _ _ _ _ R Ht Hok Hp E1 E2) as (R2 & _ & A1 & th & Hth & A2). split; [done|]. exists th. split; [done|].
  pose proof (reach_explain _ _ _ _ R2) as Hx. apply bool_decide_eq_true in Hx as [x Hx].
  apply (explain_sound L A g2 x x fuel' l r p' t (tsubst th pt) R2 Hx eq_refl); [|done|done].
  replace (set_explain (Some x) g2) with g2; [done|]. unfold set_explain. rewrite <- Hx. by destruct g2.
Qed.
Lemma explain_matches_total fuel e t (pat : list (node (pop Op))) pt s g g1 g2 l r : reachable L A true g -> ExprTree e t -> pat_ok pat -> ExprTree pat pt ->
  add_expr_uncanonical A (modify_n L A fuel) e g = Ok (g1, l) -> add_instantiation_noncanonical A (modify_n L A fuel) pat s g1 = Ok (g2, r) ->
  eg_find g2 l = eg_find g2 r ->
  exists bound, forall fuel', bound <= fuel' -> exists p, explain_matches A (modify_n L A fuel) fuel' e pat s g = Ok (g2, p).
Proof.
  intros R Ht Hok Hp E1 E2 Hf. destruct (matches_ends _ _ _ _ _ _ _ _ _ _ _ R Ht Hok Hp E1 E2) as (R2 & _ & A1 & th & _ & A2).
  destruct (explain_valid L A g2 l r _ _ R2 A1 A2 Hf) as [b Hb]. exists b. intros fuel' Hle. destruct (Hb fuel' Hle) as (p & Ep & _). exists p.
  unfold explain_matches. rewrite E1. cbn [mbind res_bind]. rewrite E2. cbn [mbind res_bind]. by rewrite Ep.
Qed.
End matches.
