(** Applying a rule all of whose matches are settled merges nothing. *)
From Verif Require Import Base UnionFind EGraphModel EGraphSteps EGraphInv EGraphPres EGraphRuns Spec EGraphMain EGraphReach EGraphOps EGraphSafe
  EGraphNoPanic Terms RecExprModel RecExprProofs ExprModel PatSpec ExprProofs ExprSafe MachineModel MatchSpec MatchProofs MachineProofs CompileProofs
  CompileMain SearchProofs SearchMain MultiProofs MatchMain MatchProps RewriteModel RewriteProofs AlgSpec AlgProofs AlgRules RewriteMain RuleSpec
  Completion RuleSafe RuleProps CondProps RunnerModel RunnerSpec RunnerProofs RunnerSound RunnerLimits Still Saturation SaturationRun.

Section reapply.
Context {Op D : Type} `{Countable Op} (L : lang Op) (A : analysis Op D) (Hh : hook_free A) (Lo : lang_ok L).
Context (it : gset nat -> list nat) (Hit : enumerates it) (ord : gmap (nat * nat) (node Op) -> list (nat * nat)) (Hord : enumerates_keys ord).
Notation egraph := (egraph Op D).
Context (ex : bool) (g : egraph) (R : reachable_np L A ex g) (Ec : eg_clean g = true).
Let nu (i : nat) : cval Op := CId (eg_find g i).
Let R0 : reachable L A ex g := reachable_np_reachable _ _ _ _ R.
Let I0 : Inv g := reachable_Inv _ _ _ _ R0.

Lemma nu_models : models (complete g) nu (eg_log g).
Proof. by eapply complete_models; [exact R0|eapply reachable_clean]. Qed.
Lemma PRep_eval (sg : nat -> option nat) th t r : (forall v i, sg v = Some i -> th v = nu i) -> PRep g sg t r -> nu r = peval (complete g) th t.
Proof. intros Hs Hp. apply NRep_PRep in Hp; [|exact I0|by eapply reach_listed]. eapply (NRep_eval L A); [exact R0|exact nu_models|exact Hs|exact Hp]. Qed.

Lemma settled_valid bnd (a : applier Op D) (P : cval Op -> (nat -> cval Op) -> Prop) : pattern_like a ->
  (forall x th, P x th -> exists c (sg : nat -> option nat), x = nu c /\ (forall v i, sg v = Some i -> th v = nu i) /\ settled_for g sg c a) ->
  applier_valid L A (complete g) ex bnd P a.
Proof.
  revert P. induction a as [p|asts|[p1 p2|vars body test] a IH|vars body ret]; intros P Ha HP; cbn [pattern_like settled_for applier_valid] in *; try done.
  - intros t x th Ht Hx. destruct (HP x th Hx) as (c & sg & -> & Hs & Hp). by apply (PRep_eval sg), Hp.
  - destruct Ha as (Hg1 & _ & Hg2 & _ & Ha).
    destruct (good_ast_tree p1 Hg1) as [_ [t1 Ht1]]. destruct (good_ast_tree p2 Hg2) as [_ [t2 Ht2]].
    exists (fun _ th => peval (complete g) th t1 = peval (complete g) th t2). split.
    { intros u1 u2 x th Hu1 Hu2. by rewrite (ExprTree_fun _ _ _ Hu1 Ht1), (ExprTree_fun _ _ _ Hu2 Ht2). }
    apply IH; [done|]. intros x th [Hx Hphi]. destruct (HP x th Hx) as (c & sg & -> & Hs & Hr & Hp).
    exists c, sg. split_and!; [done|done|]. apply Hp.
    destruct (Hr t1 (or_introl Ht1)) as [r1 H1]. destruct (Hr t2 (or_intror Ht2)) as [r2 H2].
    assert (r1 = r2) as <-.
    { pose proof (PRep_eval sg th t1 r1 Hs H1) as E1. pose proof (PRep_eval sg th t2 r2 Hs H2) as E2.
      assert (nu r1 = nu r2) as E by congruence. injection E as E. by rewrite (PRep_canon _ _ _ _ I0 H1), (PRep_canon _ _ _ _ I0 H2) in E. }
    exists r1. intros t [Ht|Ht]; [by rewrite (ExprTree_fun _ _ _ Ht Ht1)|by rewrite (ExprTree_fun _ _ _ Ht Ht2)].
Qed.
Lemma found_matched (s : searcher (Op := Op)) c st : searcher_built ord s -> eg_find g c = c -> found_in g s c st -> matched g s (subst_get st) c.
Proof.
  intros Hb Hc Hf. destruct s as [p|m]; cbn [matched found_in] in *.
  - intros t Ht. specialize (Hf t Ht). unfold at_id in Hf. rewrite Hc in Hf. apply NRep_PRep; [exact I0|by eapply reach_listed|done].
  - destruct Hf as [(v & p & ps & Em & Hv) Hf]. split.
    + exists v, p, ps, c. by rewrite Hc.
    + eapply Forall_impl; [exact Hf|]. intros cl (i & t & Hi & Ht & Hp). exists i, t. split_and!; [done|done|].
      apply NRep_PRep; [exact I0|by eapply reach_listed|done].
Qed.

Lemma settled_idle (rw : rewrite Op D) cycles w k ms fuel here g1 ids fuel' g2 n :
  searcher_built ord (rw_searcher rw) -> standard_applier (rw_applier rw) ->
  (forall sg c, (forall v i, sg v = Some i -> known g i) -> matched g (rw_searcher rw) sg c -> settled_for g sg c (rw_applier rw)) ->
  rewrite_search L it cycles w g rw k = Ok ms -> rewrite_apply L A fuel here rw ms g = Ok (g1, ids) ->
  rebuild L A fuel' (modify_n L A fuel') g1 = Ok (g2, n) ->
  forall i j, known g i -> known g j -> (eg_find g2 i = eg_find g2 j <-> eg_find g i = eg_find g j).
Proof.
  intros Hb Ha Hs Es E1 E2. apply rewrite_search_inv in Es as [Es _].
  assert (Hf : forall c st, (c, st) ∈ pairs ms -> known g c /\ eg_find g c = c /\ (forall v i, subst_get st v = Some i -> known g i /\ eg_find g i = i) /\
    matched g (rw_searcher rw) (subst_get st) c /\ settled_for g (subst_get st) c (rw_applier rw)).
  { intros c st Hin. destruct (found_facts L A Lo it Hit ord Hord ex g R Ec _ cycles k ms c st Hb Es Hin) as (H1 & H2 & H3 & _ & H5).
    pose proof (found_matched _ _ _ Hb H2 H5) as Hm. split_and!; auto. apply Hs; [|done]. intros v i Hv. by apply (H3 v i). }
  assert (Hsast : forall ast, searcher_ast (rw_searcher rw) = Some ast -> good_ast ast) by (intros ast; by apply (built_sast ord)).
  assert (Hin : applier_in (fun _ => True) (rw_applier rw)).
  { assert (Hp : forall a : applier Op D, pattern_like a -> applier_in (fun _ => True) a).
    { intros a. induction a as [p|asts|[p1 p2|vars body test] a IH|vars body ret]; cbn; try done. intros (? & _ & ? & _ & ?). auto. }
    destruct (rw_applier rw); cbn [standard_applier] in *; try (by apply Hp). apply Ha. }
  set (P := fun (x : cval Op) (th : nat -> cval Op) => exists c st, (c, st) ∈ pairs ms /\ x = nu c /\ forall v i, subst_get st v = Some i -> th v = nu i).
  assert (C : exists nu1, carries (complete g) nu g g1 nu1).
  { eapply (apply_matches_models L A Hh (complete g) (fun _ => True) calls_any ex fuel here (searcher_ast (rw_searcher rw)) Hsast
      (rw_applier rw) (fun _ => True) P (rw_name rw) ms g g1 ids nu); [exact Hin| | |exact R0|exact nu_models| |exact E1].
    - intros ast t x th Hast Ht (c & st & Hc & -> & Hth). destruct (Hf c st Hc) as (_ & _ & _ & Hm & _).
      destruct (rw_searcher rw) as [p|m]; [|done]. injection Hast as <-. by apply (PRep_eval (subst_get st)), Hm.
    - destruct (rw_applier rw) as [p|asts|cnd a|vars body ret]; cbn [standard_applier] in Ha.
      2: { intros x th (c & st & Hc & _). by destruct (Hf c st Hc) as (_ & _ & _ & _ & []). }
      all: (apply settled_valid; [exact Ha|]; intros x th (c & st & Hc & -> & Hth); destruct (Hf c st Hc) as (_ & _ & _ & _ & Hset);
        exists c, (subst_get st); auto).
    - intros c st Hc. destruct (Hf c st Hc) as (Hk & _ & Hv & _). split.
      + intros g3 nu3 _ _ (_ & K & _). exists c, st. split_and!; [done|by apply K|]. intros v i Hi. unfold value_of. rewrite Hi. by apply K, (Hv v i).
      + intros v i Hi. split; [done|by apply (Hv v i)]. }
  destruct C as (nu1 & C).
  destruct (apply_matches_step L A (fun _ => True) ex fuel here (rw_applier rw) (searcher_ast (rw_searcher rw)) (rw_name rw) ms g g1 ids) as [R1 G1];
    [apply calls_any|exact Hin|exact Hsast|exact R0|exact E1|].
  eapply (unmerged L A Hh ex g g1 nu1 fuel' g2 n); [exact R0|by eapply reachable_clean|exact R1|exact G1|exact C|exact E2].
Qed.
End reapply.

Section run.
Context {Op D : Type} `{Countable Op} (L : lang Op) (A : analysis Op D) (Hh : hook_free A) (Lo : lang_ok L).
Context (it : gset nat -> list nat) (Hit : enumerates it) (ord : gmap (nat * nat) (node Op) -> list (nat * nat)) (Hord : enumerates_keys ord).
Context (clock : nat -> nat) {St Cl : Type} (sch : scheduler Op D St) (li : limits) (rules : list (rewrite Op D)) (fuel here : nat).
Context (hooks : list (hook Op D Cl)) (ex : bool) (w : nat) (J : St -> Prop).
Context (Hr : Forall (rule_built ord) rules) (Ha : Forall (fun rw => standard_applier (rw_applier rw)) rules).
Context (Hn : Forall hook_np hooks) (Ht : Forall (hook_tidy L A ex) hooks) (Hsch : thorough L it true w li sch J).
Lemma run_reapply rounds roots g st cl r : reachable_np L A ex g -> J st ->
  run L A clock sch li rules fuel here hooks rounds roots g st cl = Ok (Some r) -> r_stop r = Some Saturated ->
  forall rw cycles k ms fuel1 here1 g1 ids fuel2 g2 n, rw ∈ rules ->
    rewrite_search L it cycles w (r_eg r) rw k = Ok ms -> rewrite_apply L A fuel1 here1 rw ms (r_eg r) = Ok (g1, ids) ->
    rebuild L A fuel2 (modify_n L A fuel2) g1 = Ok (g2, n) ->
    forall i j, known (r_eg r) i -> known (r_eg r) j -> (eg_find g2 i = eg_find g2 j <-> eg_find (r_eg r) i = eg_find (r_eg r) j).
Proof.
  intros R HJ E Es rw cycles k ms fuel1 here1 g1 ids fuel2 g2 n Hin.
  destruct (run_sat L A Hh Lo it Hit ord Hord clock sch li rules fuel here hooks ex w J Hr Ha Hn Ht Hsch rounds roots g st cl r R HJ E Es) as (R' & Ec & Hset).
  rewrite Forall_forall in Hr, Ha. apply (settled_idle L A Hh Lo it Hit ord Hord ex (r_eg r) R' Ec); [by apply Hr|by apply Ha|].
  intros sg c. by apply Hset.
Qed.
End run.
