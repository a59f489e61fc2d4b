(** Runs with analyses, hooks, conditions and appliers that tell the truth. *)
From Verif Require Import Base UnionFind EGraphModel EGraphSteps EGraphInv EGraphPres EGraphRuns Spec EGraphMain EGraphReach EGraphOps EGraphSafe
  EGraphNoPanic Terms RecExprModel RecExprProofs ExprModel PatSpec ExprProofs ExprSafe MachineModel MatchSpec MatchProofs MachineProofs CompileProofs
  CompileMain SearchProofs SearchMain MultiProofs MatchMain MatchProps RewriteModel RewriteProofs AlgSpec AlgProofs RewriteMain RuleSpec
  RuleSafe RuleProps CondProps RunnerModel RunnerSpec RunnerProofs RunnerSound TruthSpec TruthProofs TruthRules.

Section main.
Context {Op D V : Type} `{Countable Op} (L : lang Op) (A : analysis Op D) (F : Op -> list V -> V) (says : D -> V -> Prop).
Context (SA : sound_analysis A F says) (TH : truthful_hook A F says).
Notation egraph := (egraph Op D).
Notation prog := (prog Op D).
Implicit Types (g : egraph) (nu : nat -> V).
Notation SI := (SI F says).
Notation ext := (ext F says).

(** Programs, as seen from outside. *)
Lemma truthful_run ex fuel p nu g g' : reachable L A ex g -> models F nu (eg_log g) -> data_true says nu g ->
  truthful F says (length (eg_uf g)) nu p -> run_prog L A fuel (modify_n L A fuel) p g = Ok g' ->
  exists nu', models F nu' (eg_log g') /\ data_true says nu' g' /\ true_state F says nu' g' /\ forall k, known g k -> nu' k = nu k.
Proof.
  intros R M Hd Ht E. assert (S : SI nu g) by (by eapply models_SI).
  destruct (run_prog_true L A F says SA fuel (modify_n L A fuel) p nu g g' (modify_n_true L A F says SA TH fuel) S Ht E) as (nu' & S' & K & _).
  exists nu'. split_and!; [|apply S'|by apply SI_state|exact K]. eapply SI_models; [|exact S']. by eapply reach_run.
Qed.
Lemma truthful_session ex fuel p g (x0 : V) : (forall nu, truthful F says 0 nu p) -> session L A fuel ex p = Ok g ->
  exists nu, models F nu (eg_log g) /\ true_state F says nu g.
Proof.
  intros Ht E. destruct (truthful_run ex fuel p (fun _ => x0) (eg_new ex) g) as (nu' & M & _ & S & _); [apply reach_new| | |apply Ht|exact E|eauto].
  - split; intros *; by intros Hx%elem_of_nil.
  - apply (SI_new F says ex (fun _ => x0)).
Qed.

Context (clock : nat -> nat) {St Cl : Type} (sch : scheduler Op D St) (li : limits) (rules : list (rewrite Op D)) (fuel here : nat).
Context (hooks : list (hook Op D Cl)).
Notation run := (run L A clock sch li rules fuel here hooks).
Context (Lo : lang_ok L).
Context (it : gset nat -> list nat) (Hit : enumerates it) (cycles : bool) (w : nat)
  (ord : gmap (nat * nat) (node Op) -> list (nat * nat)) (Hord : enumerates_keys ord) (ex : bool).
Context (Hr : Forall (rule_built ord) rules) (Hk : Forall hook_np hooks) (Hon : honest L it cycles w sch)
  (Hv : Forall (rule_true F says) rules) (Hs : Forall (hook_truthful F says) hooks).
Notation onward := (onward L A ex).
Definition truly g g' : Prop := onward g g' /\ forall nu, SI nu g -> exists nu', ext nu g g' nu'.
Lemma truly_trans g1 g2 g3 : truly g1 g2 -> truly g2 g3 -> truly g1 g3.
Proof.
  intros [O1 C1] [O2 C2]. split; [by eapply onward_trans|]. intros nu M. destruct (C1 nu M) as (nu1 & K1).
  destruct (C2 nu1 (proj1 K1)) as (nu2 & K2). exists nu2. by eapply ext_trans.
Qed.
Lemma run_truly rounds roots g st cl r : reachable_np L A ex g -> run rounds roots g st cl = Ok (Some r) -> truly g (r_eg r).
Proof.
  intros R E. eapply (run_T L A clock sch li rules fuel here hooks (reachable_np L A ex) truly); eauto using truly_trans.
  - intros g0 R0. split; [by apply onward_refl|]. intros nu M. exists nu. by apply ext_refl.
  - intros g0 g1 R0 [O1 _]. by apply O1.
  - intros h cl0 i g0 g1 Hin R0 E0. split; [by eapply (onward_hook L A fuel hooks ex)|]. intros nu M. rewrite Forall_forall in Hs.
    eapply (run_prog_true L A F says SA); [by apply modify_n_true|exact M|by apply Hs|exact E0].
  - intros g0 g1 n R0 E0. split; [by eapply onward_rebuild|]. intros nu M.
    eapply (rebuild_true L A F says SA); [by apply modify_n_true|exact M|exact E0].
  - intros i g0 rw s0 ms s1 g1 g2 ids Hrw R0 E0 [[R1 G1] _] E1. split; [by eapply (onward_rule L A rules fuel here ord)|]. intros nu M.
    rewrite Forall_forall in Hr, Hv. destruct (Hr rw Hrw) as [Hb Ha]. apply applier_within_in in Ha.
    unfold rewrite_apply in E1. destruct R1 as [Hm1 R1]. pose proof (reachable_Inv _ _ _ _ (reach_reachable L A _ ex g1 R1)) as I1.
    assert (Hast : forall ast, searcher_ast (rw_searcher rw) = Some ast -> good_ast ast) by (intros ast; by apply (built_sast ord)).
    eapply (apply_matches_ext L A F says SA TH no_prune calls_np ex fuel here _ Hast _ (fun v => v ∈ searcher_vars (rw_searcher rw)) (premise F (rw_searcher rw)));
      [exact Ha| |by apply Hv|exact R1|exact M| |exact E1].
    + intros ast t x th Hast' Ht. destruct (rw_searcher rw) as [p|m]; [|done]. cbn in Hast'. injection Hast' as <-. cbn. auto.
    + intros c sb (m & Hm & <- & Hsb)%pairs_in. destruct (Hon _ _ _ _ _ _ _ _ E0 Hm Hsb) as (k & ms0 & m0 & [Es _]%rewrite_search_inv & Hm0 & <- & Hs0).
      assert (Ec : eg_clean g0 = true) by (eapply search_clean; [exact Es|by intros ->; apply elem_of_nil in Hm0]).
      destruct (found_facts L A Lo it Hit ord Hord ex g0 R0 Ec (rw_searcher rw) cycles k ms0 (sm_class m0) sb Hb Es) as (Hc & _ & Hi & Hp & Hf).
      { apply pairs_in. eauto. }
      assert (Hkn : forall i, known g0 i -> known g1 i).
      { intros i' Hi'. unfold known in *. destruct (gr_nodes _ _ G1) as [l Hl].
        rewrite <- (iv_len _ (np_Inv L A ex _ R0)) in Hi'. rewrite <- (iv_len _ I1), Hl, app_length. lia. }
      split; [split; [split|]|].
      * by apply Hkn.
      * intros v i' Hvi. apply Hkn. by destruct (Hi v i' Hvi).
      * intros g3 nu3 G3 R3 C3. eapply (found_premise L A F ex g3); [by eapply reach_reachable|eapply SI_models; [by eapply reach_reachable|apply C3]|].
        eapply found_grows; [exact G3|]. by eapply found_grows.
      * intros v i' Hvi. split; [|apply Hkn; by destruct (Hi v i' Hvi)]. apply searcher_vars_provides. apply Hp. eauto.
Qed.
Lemma run_true rounds roots g st cl r nu : reachable_np L A ex g -> models F nu (eg_log g) -> data_true says nu g ->
  run rounds roots g st cl = Ok (Some r) ->
  (exists nu', models F nu' (eg_log (r_eg r)) /\ true_state F says nu' (r_eg r) /\ (forall k, known g k -> nu' k = nu k)) /\
  (forall t1 t2 i, Rep (r_eg r) t1 i -> Rep (r_eg r) t2 i -> geval F t1 = geval F t2) /\
  (forall t i d, Rep (r_eg r) t i -> class_data (r_eg r) i = Some d -> says d (geval F t)) /\
  (forall i j, known g i -> known g j -> eg_find (r_eg r) i = eg_find (r_eg r) j -> nu i = nu j).
Proof.
  intros R M Hd E. pose proof (reachable_np_reachable _ _ _ _ R) as Rg.
  destruct (run_truly _ _ _ _ _ _ R E) as [[R' G'] C]. destruct (C nu (models_SI L A F says ex nu g Rg M Hd)) as (nu' & S' & K & _).
  pose proof (SI_models L A F says ex nu' _ (reachable_np_reachable _ _ _ _ R') S') as M'. pose proof (SI_state F says nu' _ S') as T'. split_and!.
  - eauto.
  - intros t1 t2 i H1 H2. rewrite <- (Rep_value L A F ex nu' _ _ _ R' M' H1). by apply (Rep_value L A F ex nu' _ _ _ R' M').
  - intros t i d Ht Hdi. rewrite <- (Rep_value L A F ex nu' _ _ _ R' M' Ht). by apply (ts_data _ _ _ _ T').
  - intros i j Hi Hj Eq. rewrite <- K, <- (K j) by done. by apply (ts_same _ _ _ _ T').
Qed.
End main.
