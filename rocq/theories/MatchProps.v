(** Last steps towards the statements of PropertiesMatch.v. *)
From Verif Require Import Base UnionFind EGraphModel EGraphSteps EGraphInv EGraphPres EGraphRuns Spec EGraphMain
  EGraphReach Terms RecExprModel RecExprProofs ExprModel PatSpec ExprProofs MachineModel MatchSpec MatchProofs MachineProofs CompileProofs
  CompileMain SearchProofs SearchMain MultiProofs MatchMain.

Section props.
Context {Op D : Type} `{Countable Op}.
Notation node := (node Op).
Notation pnode := (EGraphModel.node (pop Op)).
Notation egraph := (egraph Op D).
Context (L : lang Op) (A : analysis Op D).

Lemma matching_class ex (g : egraph) r c n :
  lang_ok L -> reachable L A ex g -> eg_clean g = true -> eg_classes g !! r = Some c -> Forall (fun x => x = 0) (nch n) ->
  matching_nodes L n (c_nodes c) = Ok (filter (fun m => nop m = nop n /\ length (nch m) = length (nch n)) (c_nodes c)).
Proof.
  intros Lo R Ec Hc Hz. destruct (reach_canonical L A ex g Lo R Ec) as [_ Hn Hs].
  rewrite matching_nodes_ok; eauto. f_equal. unfold matches_of. apply list_filter_iff. intros m. unfold node_matches.
  rewrite andb_true_iff, bool_decide_eq_true, Nat.eqb_eq. naive_solver.
Qed.
Lemma multi_search_main it ord ex (g : egraph) fuel v1 p1 (ps : list (nat * list pnode)) mp cycles :
  lang_ok L -> enumerates it -> enumerates_keys ord -> reachable_np L A ex g -> eg_clean g = true ->
  Forall (fun cl => good_ast cl.2) ((v1, p1) :: ps) -> op_root p1 -> multipattern_new ord fuel ((v1, p1) :: ps) = Ok mp ->
  exists all : list (nat * subst),
    (forall k, exists ms, multi_search L it cycles mp g k = Ok ms /\ pairs ms = take k all /\
       NoDup (sm_class <$> ms) /\ Forall (fun m => sm_substs m <> []) ms) /\
    NoDup all /\
    (forall c s, (c, s) ∈ all ->
      (forall w, is_Some (subst_get s w) <-> exists cl, cl ∈ (v1, p1) :: ps /\ mentions cl w) /\
      (forall v i, subst_get s v = Some i -> known g i /\ eg_find g i = i) /\
      subst_get s v1 = Some c /\ Forall (holds g (subst_get s)) ((v1, p1) :: ps)) /\
    (cycles = true -> forall sg, (forall v i, sg v = Some i -> known g i) -> Forall (holds g sg) ((v1, p1) :: ps) ->
      exists c s, (c, s) ∈ all /\ forall w cl, cl ∈ (v1, p1) :: ps -> mentions cl w -> subst_get s w = eg_find g <$> sg w).
Proof.
  intros Lo Hit Hord R Ec Hg Ho E.
  destruct (multi_search_all ord Hord L Lo it Hit g (reach_settled L A Lo ex g R Ec) cycles fuel v1 p1 ps mp Ec Hg Ho E) as (all & H1 & H2 & H3 & H4).
  exists all. split_and!; auto. intros c s Hs. destruct (H3 c s Hs) as (_ & _ & ? & ? & ? & ?). split_and!; auto.
Qed.
End props.

Lemma settled_new {Op} `{Countable Op} : settled (Lang _ (fun _ => 0) (fun _ _ => true)) (eg_new false : egraph Op unit).
Proof.
  split; [apply Inv_new|done| |].
  - intros k m Hk. done.
  - split; intros r c; [intros n|..]; cbn; by rewrite lookup_empty.
Qed.
Lemma multi_made {Op} `{Countable Op} ord v1 p1 (ps : list (nat * list (node (pop Op)))) :
  enumerates_keys ord -> Forall (fun cl => good_ast cl.2) ((v1, p1) :: ps) -> op_root p1 ->
  exists N mp, forall fuel, N <= fuel -> multipattern_new ord fuel ((v1, p1) :: ps) = Ok mp.
Proof.
  intros Hord Hg Ho. assert (Hit : enumerates elements) by (by intros s). exact (multi_new_total ord Hord _ elements Hit _ settled_new v1 p1 ps Hg Ho).
Qed.
