(** Runs of the runner: reachability, growth, and soundness in every algebra satisfying the rules. *)
From Verif Require Import Base UnionFind EGraphModel EGraphSteps EGraphInv EGraphPres EGraphRuns Spec EGraphMain EGraphReach EGraphOps EGraphSafe
  EGraphNoPanic Terms RecExprModel RecExprProofs ExprModel PatSpec ExprProofs ExprSafe MachineModel MatchSpec MatchProofs MachineProofs CompileProofs
  CompileMain SearchProofs SearchMain MultiProofs MatchMain MatchProps RewriteModel RewriteProofs AlgSpec AlgProofs AlgRules RewriteMain RuleSpec
  Completion RuleSafe RuleProps CondProps RunnerModel RunnerSpec RunnerProofs.

Section sound.
Context {Op D : Type} `{Countable Op} (L : lang Op) (A : analysis Op D).
Notation egraph := (egraph Op D).
Notation prog := (prog Op D).
Notation rewrite := (rewrite Op D).
Implicit Types (g : egraph).

Lemma cond_within_in (Q : prog -> Prop) (c : condition Op D) : cond_within Q c -> cond_in Q c.
Proof. by destruct c. Qed.
Lemma applier_within_in (Q : prog -> Prop) (a : applier Op D) : applier_within Q a -> applier_in Q a.
Proof.
  induction a as [p|asts|c a IH|vars body ret]; cbn; tauto.
Qed.

(** Searching asserts that the e-graph is rebuilt. *)
Lemma eclasses_clean g (se : nat -> nat -> res (option smatch)) cs k ms : (forall c k m, se c k = Ok (Some m) -> eg_clean g = true) ->
  search_eclasses se cs k = Ok ms -> ms <> [] -> eg_clean g = true.
Proof.
  intros Hse. revert k ms. induction cs as [|c cs IH]; intros k ms E Hne; cbn [search_eclasses] in E; [by injection E as <-|].
  destruct (k =? 0); [by injection E as <-|]. destruct (se c k) as [[m|]| |] eqn:E1; [eauto| |done|done].
  cbn [mbind res_bind] in E. eauto.
Qed.
Lemma program_clean g it cycles (pg : program Op) c k m : search_eclass_program L it cycles pg g c k = Ok (Some m) -> eg_clean g = true.
Proof.
  unfold search_eclass_program, run_with_limit. destruct (eg_clean g); [done|]. done.
Qed.
Lemma rewrite_search_inv g it cycles w (rw : rewrite) k ms : rewrite_search L it cycles w g rw k = Ok ms ->
  searcher_search L it cycles (rw_searcher rw) g k = Ok ms /\ n_matches ms < umax w.
Proof.
  unfold rewrite_search. destruct (searcher_search _ _ _ _ _ _) as [ms'| |]; [|done|done]. cbn [mbind res_bind].
  destruct (n_matches ms' <? umax w) eqn:E; [|done]. cbn. intros [= ->]. split; [done|]. by apply Nat.ltb_lt.
Qed.
Lemma search_clean g it cycles (s : searcher (Op := Op)) k ms : searcher_search L it cycles s g k = Ok ms -> ms <> [] -> eg_clean g = true.
Proof.
  unfold searcher_search. destruct s as [p|m].
  - unfold search_with_limit. destruct (last (pt_ast p)) as [n|]; [|done]. cbn [expect mbind res_bind].
    destruct (pview n).
    + destruct (eg_by_op g !! _); [|intros [= <-]; done]. apply eclasses_clean. intros c k' m. apply program_clean.
    + apply eclasses_clean. intros c k' m. apply program_clean.
  - unfold multi_search. apply eclasses_clean. intros c k' m'. unfold multi_search_eclass.
    destruct (mp_asts m) as [|[v p] ps]; [done|]. destruct p as [|n [|]]; try (by apply program_clean).
    destruct (pview n); [|done]. by apply program_clean.
Qed.

Context (clock : nat -> nat) {St Cl : Type} (sch : scheduler Op D St) (li : limits) (rules : list rewrite) (fuel here : nat).
Context (hooks : list (hook Op D Cl)).
Notation run := (run L A clock sch li rules fuel here hooks).
Notation runner := (runner Op D St Cl).

(** * Growth *)
Section grow.
Context (ord : gmap (nat * nat) (node Op) -> list (nat * nat)) (ex : bool).
Context (Hr : Forall (rule_built ord) rules) (Hk : Forall hook_np hooks).
Definition onward g g' : Prop := reachable_np L A ex g' /\ grows g g'.
Lemma np_Inv g : reachable_np L A ex g -> Inv g.
Proof. intros R. by eapply reachable_Inv, reachable_np_reachable. Qed.
Lemma onward_refl g : reachable_np L A ex g -> onward g g.
Proof. intros R. split; [done|]. by apply grows_refl, np_Inv. Qed.
Lemma onward_trans g1 g2 g3 : onward g1 g2 -> onward g2 g3 -> onward g1 g3.
Proof. intros [_ G1] [R G2]. split; [done|]. by eapply grows_trans. Qed.
Lemma onward_np g g' : reachable_np L A ex g -> onward g g' -> reachable_np L A ex g'.
Proof. by intros _ [R _]. Qed.
Lemma onward_hook (h : hook Op D Cl) cl i g g' : h ∈ hooks -> reachable_np L A ex g ->
  run_prog L A fuel (modify_n L A fuel) (hk_body h cl i) g = Ok g' -> onward g g'.
Proof.
  intros Hh [Hm R] E. rewrite Forall_forall in Hk. split.
  - split; [done|]. eapply reach_run; [exact R|by apply Hk|exact E].
  - eapply run_grows; [|exact E]. by eapply reachable_np_reachable.
Qed.
Lemma onward_rebuild g g' n : reachable_np L A ex g -> rebuild L A fuel (modify_n L A fuel) g = Ok (g', n) -> onward g g'.
Proof. intros [Hm R] E. destruct (rebuild_step L A no_prune ex fuel g g' n calls_np R E) as (R' & G & _). split; [by split|done]. Qed.
Lemma onward_rule (rw : rewrite) ms g1 g2 ids : rw ∈ rules -> reachable_np L A ex g1 ->
  rewrite_apply L A fuel here rw ms g1 = Ok (g2, ids) -> onward g1 g2.
Proof.
  intros Hrw [Hm R] E. rewrite Forall_forall in Hr. destruct (Hr rw Hrw) as [Hb Ha].
  destruct (apply_matches_step L A no_prune ex fuel here (rw_applier rw) (searcher_ast (rw_searcher rw)) (rw_name rw) ms g1 g2 ids) as [R2 G2]; auto.
  - apply calls_np.
  - intros ast. by apply (built_sast ord).
  - by split; [split|].
Qed.
Lemma run_onward rounds roots g st cl r : reachable_np L A ex g -> run rounds roots g st cl = Ok (Some r) -> onward g (r_eg r).
Proof.
  intros R E. eapply (run_T L A clock sch li rules fuel here hooks (reachable_np L A ex) onward); eauto using onward_refl, onward_trans, onward_np, onward_hook, onward_rebuild.
  intros i g0 rw s0 ms s1 g1 g2 ids Hrw R0 _ T1 E1. eapply onward_rule; [done|by apply T1|exact E1].
Qed.
End grow.

(** * Values *)
Section values.
Context {V : Type} (F : Op -> list V -> V) (Hh : hook_free A) (Lo : lang_ok L).
Context (it : gset nat -> list nat) (Hit : enumerates it) (cycles : bool) (w : nat)
  (ord : gmap (nat * nat) (node Op) -> list (nat * nat)) (Hord : enumerates_keys ord) (ex : bool).
Context (Hr : Forall (rule_built ord) rules) (Hk : Forall hook_np hooks) (Hon : honest L it cycles w sch)
  (Hv : Forall (rule_valid L A F ex) rules) (Hs : Forall (hook_true L A F ex) hooks).
Notation carries := (carries F).
Notation onward := (onward ex).
Definition truly g g' : Prop := onward g g' /\ forall nu, models F nu (eg_log g) -> exists nu', carries nu g g' nu'.
Lemma truly_trans g1 g2 g3 : truly g1 g2 -> truly g2 g3 -> truly g1 g3.
Proof.
  intros [O1 C1] [O2 C2]. split; [by eapply onward_trans|]. intros nu M. destruct (C1 nu M) as (nu1 & K1).
  destruct (C2 nu1 (proj1 K1)) as (nu2 & K2). exists nu2. by eapply carries_trans.
Qed.
Lemma run_truly rounds roots g st cl r : reachable_np L A ex g -> run rounds roots g st cl = Ok (Some r) -> truly g (r_eg r).
Proof.
  intros R E. eapply (run_T L A clock sch li rules fuel here hooks (reachable_np L A ex) truly); eauto using truly_trans.
  - intros g0 R0. split; [by apply onward_refl|]. intros nu M. exists nu. by apply carries_refl.
  - intros g0 g1 R0 [O1 _]. by apply O1.
  - intros h cl0 i g0 g1 Hin R0 E0. split; [by eapply onward_hook|]. intros nu M. rewrite Forall_forall in Hs.
    destruct (Hs h Hin fuel cl0 i g0 g1 nu R0 M E0) as (nu' & M' & Hn). exists nu'. split_and!; auto. intros k. eapply run_known; [|exact E0].
    by eapply reachable_np_reachable.
  - intros g0 g1 n R0 E0. split; [by eapply onward_rebuild|]. intros nu M. exists nu. eapply (rebuild_models L A Hh F ex); [|done|exact E0].
    by eapply reachable_np_reachable.
  - intros i g0 rw s0 ms s1 g1 g2 ids Hrw R0 E0 [[R1 G1] _] E1. split; [by eapply onward_rule|]. intros nu M.
    rewrite Forall_forall in Hr, Hv. destruct (Hr rw Hrw) as [Hb Ha].
    eapply (rule_sound L A F Hh no_prune ex rw ms g1 g2 ids fuel here nu); auto.
    + apply calls_np.
    + intros ast. by apply (built_sast ord).
    + by destruct R1.
    + intros c sb (m & Hm & <- & Hsb)%pairs_in. destruct (Hon _ _ _ _ _ _ _ _ E0 Hm Hsb) as (k & ms0 & m0 & [Es _]%rewrite_search_inv & Hm0 & <- & Hs0).
      assert (Ec : eg_clean g0 = true) by (eapply search_clean; [exact Es|by intros ->; apply elem_of_nil in Hm0]).
      destruct (found_facts L A Lo it Hit ord Hord ex g0 R0 Ec (rw_searcher rw) cycles k ms0 (sm_class m0) sb Hb Es) as (_ & _ & Hi & Hp & Hf).
      { apply pairs_in. eauto. }
      split; [by eapply found_grows|]. intros v i' Hvi. split; [apply Hp; eauto|].
      destruct (Hi v i' Hvi) as [Hk' _]. unfold known in *. destruct (gr_nodes _ _ G1) as [l Hl].
      rewrite <- (iv_len _ (np_Inv ex _ R0)) in Hk'. rewrite <- (iv_len _ (np_Inv ex _ R1)), Hl, app_length. lia.
Qed.
Lemma peval_embed th (t : term Op) : peval F th (embed t) = geval F t.
Proof.
  induction t as [f ts IH] using term_sind. cbn. f_equal. induction IH as [|t ts Ht _ IHts]; [done|]. cbn. by rewrite Ht, IHts.
Qed.
Lemma Rep_value nu g t r : reachable_np L A ex g -> models F nu (eg_log g) -> Rep g t r -> nu r = geval F t.
Proof.
  intros R M Hr'. pose proof (reachable_np_reachable _ _ _ _ R) as R'. rewrite <- (peval_embed (fun _ => nu 0)).
  apply (Rep_PRep g (fun _ => None)) in Hr'. apply NRep_PRep in Hr'; [|by eapply reachable_Inv|by eapply reach_listed].
  eapply (NRep_eval L A F nu ex g); [exact R'|exact M| |exact Hr']. done.
Qed.
Lemma run_sound rounds roots g st cl r nu : reachable_np L A ex g -> models F nu (eg_log g) -> run rounds roots g st cl = Ok (Some r) ->
  (exists nu', models F nu' (eg_log (r_eg r)) /\ (forall k, known g k -> nu' k = nu k)) /\
  (forall t1 t2 i, Rep (r_eg r) t1 i -> Rep (r_eg r) t2 i -> geval F t1 = geval F t2) /\
  (forall i j, known g i -> known g j -> eg_find (r_eg r) i = eg_find (r_eg r) j -> nu i = nu j).
Proof.
  intros R M E. destruct (run_truly _ _ _ _ _ _ R E) as [[R' G'] C]. destruct (C nu M) as (nu' & M' & K & _). split_and!.
  - eauto.
  - intros t1 t2 i H1 H2. rewrite <- (Rep_value nu' _ _ _ R' M' H1). by apply Rep_value with (g := r_eg r).
  - intros i j Hi Hj Eq. rewrite <- K, <- (K j) by done. eapply (models_same L A F nu' ex); [by eapply reachable_np_reachable|done|done].
Qed.
End values.
End sound.
