(** Which ids the application of a pattern rule answers: those of matched classes. *)
From Verif Require Import Base UnionFind EGraphModel EGraphSteps EGraphInv EGraphPres EGraphRuns Spec EGraphMain EGraphReach EGraphOps EGraphSafe
  EGraphNoPanic Terms RecExprModel RecExprProofs ExprModel PatSpec ExprProofs ExprSafe MachineModel MatchSpec MatchProofs MachineProofs CompileProofs
  CompileMain SearchProofs SearchMain MultiProofs MatchMain MatchProps RewriteModel RewriteProofs AlgSpec AlgProofs AlgRules RewriteMain RuleSpec
  Completion RuleSafe RuleProps.

Section answers.
Context {Op D : Type} `{Countable Op} (L : lang Op) (A : analysis Op D).
Notation egraph := (egraph Op D).
Implicit Types (g : egraph).

Lemma pattern_answers ex fuel here p sast rule c s g g' l t :
  good_ast p -> ExprTree p t -> (forall ast, sast = Some ast -> good_ast ast) -> reachable L A ex g ->
  pattern_apply L A fuel here p sast rule c s g = Ok (g', l) ->
  reachable L A ex g' /\ grows g g' /\ forall i, i ∈ l -> at_id g' (subst_get s) t i.
Proof.
  intros Hp Ht Hs R E. destruct (good_ast_tree p Hp) as [Hok _]. unfold pattern_apply in E. destruct (explaining g).
  - apply bind_Ok in E as (ast & Es & E). apply expect_Ok in Es. apply bind_Ok in E as ([g1 [id did]] & E & [= <- <-]).
    destruct (good_ast_tree ast (Hs ast Es)) as [Hok' [tl Htl]].
    unfold union_instantiations in E. apply bind_Ok in E as ([h1 i1] & E1 & E). apply bind_Ok in E as ([h2 i2] & E2 & E).
    apply bind_Ok in E as ([h3 d] & E3 & [= <- <- <-]).
    destruct (add_inst_step L A (fun _ => True) ex fuel ast s g h1 i1 tl) as (R1 & G1 & _); [apply calls_any|done|done|done|done|].
    destruct (add_inst_step L A (fun _ => True) ex fuel p s h1 h2 i2 t) as (R2 & G2 & A2); [apply calls_any|done|done|done|done|].
    destruct (trusted_step L A (fun _ => True) ex fuel i1 i2 rule h2 h3 d) as (R3 & G3 & Eq); [done|done|done|].
    split; [done|]. split; [eapply grows_trans; [exact G1|]; by eapply grows_trans|]. intros i Hi.
    destruct d; [|by apply elem_of_nil in Hi]. apply elem_of_list_singleton in Hi as ->.
    eapply at_same; [|eapply at_grows; [exact G3|exact A2]]. rewrite <- Eq. symmetry. apply Inv_find_idem. by eapply reachable_Inv.
  - apply bind_Ok in E as ([g1 id] & E1 & E). apply bind_Ok in E as ([g2 did] & E2 & [= <- <-]).
    destruct (apply_pat_step L A (fun _ => True) ex fuel p s g g1 id t) as (R1 & G1 & A1); [apply calls_any|done|done|done|done|].
    destruct (union_step L A (fun _ => True) ex fuel id c here g1 g2 did) as (R2 & G2 & _); [done|done|done|].
    split; [done|]. split; [by eapply grows_trans|]. intros i Hi. destruct did; [|by apply elem_of_nil in Hi].
    apply elem_of_list_singleton in Hi as ->. by eapply at_grows.
Qed.
Lemma each_answers {X} ex (f : X -> egraph -> res (egraph * list nat)) (sb : X -> subst) t xs g g' l :
  (forall x h h' k, reachable L A ex h -> f x h = Ok (h', k) ->
     reachable L A ex h' /\ grows h h' /\ forall i, i ∈ k -> at_id h' (subst_get (sb x)) t i) ->
  reachable L A ex g -> each f xs g = Ok (g', l) ->
  reachable L A ex g' /\ grows g g' /\ forall i, i ∈ l -> exists x, x ∈ xs /\ at_id g' (subst_get (sb x)) t i.
Proof.
  intros Hf. revert g l. induction xs as [|x xs IH]; intros g l R E; cbn [each] in E.
  - injection E as <- <-. split; [done|]. split; [by eapply grows_refl, reachable_Inv|]. intros i Hi. by apply elem_of_nil in Hi.
  - apply bind_Ok in E as ([g1 l1] & E1 & E). apply bind_Ok in E as ([g2 l2] & E2 & [= <- <-]).
    destruct (Hf _ _ _ _ R E1) as (R1 & G1 & A1). destruct (IH _ _ R1 E2) as (R2 & G2 & A2).
    split; [done|]. split; [by eapply grows_trans|]. intros i [Hi|Hi]%elem_of_app.
    + exists x. split; [left|]. eapply at_grows; [exact G2|auto].
    + destruct (A2 i Hi) as (y & Hy & Ha). exists y. split; [by right|done].
Qed.
Lemma answered_ids it ord ex g fuel0 ast pl pr cycles k ms name fuel here g1 ids fuel' g2 n :
  lang_ok L -> enumerates it -> enumerates_keys ord -> reachable_np L A ex g -> eg_clean g = true ->
  good_ast ast -> pattern_new ord fuel0 ast = Ok pl -> good_ast pr ->
  search_with_limit L it cycles pl g k = Ok ms ->
  rewrite_apply L A fuel here (Rewrite name (SPattern pl) (APattern pr)) ms g = Ok (g1, ids) ->
  rebuild L A fuel' (modify_n L A fuel') g1 = Ok (g2, n) ->
  forall i, i ∈ ids -> exists m, m ∈ ms /\ eg_find g2 i = eg_find g2 (sm_class m).
Proof.
  intros Lo Hit Hord R Ec Hast Hn Hpr Es Ea Er i Hi.
  pose proof Hast as (Hd & Hok & Hne). destruct (pattern_new_ast ord fuel0 ast pl Hd Hok Hne Hn) as (Hd' & Hok' & Hne' & _ & _).
  assert (Hpl : good_ast (pt_ast pl)) by exact (conj Hd' (conj Hok' Hne')).
  destruct (good_ast_tree _ Hpl) as [_ [tl Htl]]. destruct (good_ast_tree _ Hpr) as [_ [tr Htr]].
  destruct (pattern_rule_main L A Lo it Hit ord Hord ex g R Ec fuel0 ast pl tl pr tr cycles k ms name fuel here g1 ids fuel' g2 n Hast Hn Htl Hpr Htr Es Ea Er)
    as (R2 & Ec2 & HP & _).
  pose proof (reachable_np_reachable _ _ _ _ R) as R'. pose proof (reachable_np_reachable _ _ _ _ R2) as R2'.
  unfold rewrite_apply in Ea. cbn [rw_applier rw_searcher rw_name searcher_ast apply_matches] in Ea. rewrite for_matches_pairs in Ea.
  apply (each_answers ex _ snd tr) in Ea as (R1 & G1 & Ha); [| |exact R'].
  2:{ intros [c s] h h' j Rh Eh. eapply pattern_answers; [exact Hpr|exact Htr| |exact Rh|exact Eh]. by intros ? [= <-]. }
  destruct (Ha i Hi) as ([c s] & Hin & Hat). apply pairs_in in Hin as (m & Hm & <- & Hs). exists m. split; [done|].
  destruct (HP m s Hm Hs) as [_ H2]. destruct (rebuild_step L A (fun _ => True) ex fuel' g1 g2 n) as (_ & G2 & _); [apply calls_any|exact R1|exact Er|].
  pose proof (reachable_Inv _ _ _ _ R2') as I2.
  eapply (NRep_fun_clean g2 (subst_get s) tr); [exact I2|by eapply reachable_clean|exact (at_grows _ _ _ _ _ G2 Hat)|].
  apply NRep_PRep; [exact I2|by eapply reach_listed|exact H2].
Qed.
End answers.
