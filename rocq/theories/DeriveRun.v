(** Runs: everything the e-graph says afterwards is derivable from the rules and what was
    asserted before. *)
From Verif Require Import Base UnionFind EGraphModel EGraphSteps EGraphInv EGraphPres EGraphRuns Spec EGraphMain EGraphReach EGraphOps EGraphSafe
  EGraphNoPanic Terms RecExprModel RecExprProofs ExprModel PatSpec ExprProofs ExprSafe MachineModel MatchSpec MatchProofs MachineProofs CompileProofs
  CompileMain SearchProofs SearchMain MultiProofs MatchMain MatchProps RewriteModel RewriteProofs AlgSpec AlgProofs RewriteMain RuleSpec
  RuleSafe RuleProps CondProps RunnerModel RunnerSpec RunnerProofs RunnerSound Saturation SaturationRun ExplainModel ExplainSpec ExplainMain CheckModel CheckSpec
  ExtractModel ExtractSpec ExtractMain OptimumSpec OptimumProofs OptimumRun OptimumDecide DeriveSpec DeriveProofs.

Section logic.
Context {Op D : Type} `{Countable Op} (rules : list (rewrite Op D)) (facts : term Op -> term Op -> Prop).
Notation E := (derivable rules facts).
Lemma derivable_equiv : Equivalence E.
Proof. split; [exact (derivable_refl rules facts)|exact (derivable_sym rules facts)|exact (derivable_trans rules facts)]. Qed.
Lemma derivable_cong f ts us : Forall2 E ts us -> E (TNode f ts) (TNode f us).
Proof. intros [Hl HF]%Forall2_same_length_lookup. apply derivable_inside; [done|]. intros k t u. apply HF. Qed.
Lemma tsubst_embed th (t : term Op) : tsubst th (embed t) = t.
Proof. induction t as [f ts IH] using term_sind. cbn. f_equal. induction IH as [|t ts Ht _ IHts]; [done|]. cbn. by rewrite Ht, IHts. Qed.
(** Undoable rules: equational logic and rewriting coincide. *)
Lemma derivable_rewrites : (forall t u, ~ facts t u) -> undoable rules -> forall t u, E t u -> rewrites rules t u /\ rewrites rules u t.
Proof.
  intros Hno Hun t u. induction 1 as [t u Hf|t|t u _ [IH1 IH2]|t u v _ [IH1 IH2] _ [IH3 IH4]|f ts us Hl _ IH|rw p l conds r th Hin Hp Hl Hg _ IH].
  - by apply Hno in Hf.
  - split; apply rewrites_refl.
  - done.
  - split; by eapply rewrites_trans.
  - split; apply rewrites_inside; [done|intros k t u Hk Hk'; exact (proj1 (IH k t u Hk Hk'))|done|intros k t u Hk Hk'; exact (proj2 (IH k u t Hk' Hk))].
  - set (w := fun k => from_option (fun c : term (pop Op) * term (pop Op) => tsubst th c.2) (tsubst th l) (conds !! k)).
    assert (W : forall k t1 t2, conds !! k = Some (t1, t2) -> rewrites rules (tsubst th t1) (w k) /\ rewrites rules (tsubst th t2) (w k)).
    { intros k t1 t2 Hk. unfold w. rewrite Hk. cbn. split; [exact (proj1 (IH k t1 t2 Hk))|apply rewrites_refl]. }
    split.
    + exact (rewrites_rule rules rw p l conds r th w Hin Hp Hl Hg (fun k t1 t2 Hk => proj1 (W k t1 t2 Hk)) (fun k t1 t2 Hk => proj2 (W k t1 t2 Hk))).
    + exact (Hun rw p l conds r th w Hin Hp Hl Hg W).
Qed.
(** Rewriting is a special case. *)
Lemma rewrites_derivable t u : rewrites rules t u -> E t u.
Proof.
  induction 1 as [t|t u v _ IH1 _ IH2|f ts us Hl _ IH|rw p l conds r th w Hin Hp Hl Hg _ IH1 _ IH2].
  - apply derivable_refl.
  - by eapply derivable_trans.
  - by apply derivable_inside.
  - eapply derivable_rule; [done..|]. intros k t1 t2 Hk. eapply derivable_trans; [by eapply IH1|]. apply derivable_sym. by eapply IH2.
Qed.
Lemma plain_undoable : Forall plain_rule rules -> reversible rules -> undoable rules.
Proof.
  intros Hpl Hrev rw p l conds r th w Hin Hp Hl Hg _. destruct (proj1 (Forall_forall _ _) Hpl rw Hin) as (p' & q & E1 & E2). rewrite E2 in Hg.
  inversion Hg as [q' r' Hq E3 E4 E5|]; subst. exact (Hrev rw p q l r th Hin Hp E2 Hl Hq).
Qed.
End logic.

Section run.
Context {Op D : Type} `{Countable Op} (L : lang Op) (A : analysis Op D) (Hh : hook_free A) (Lo : lang_ok L).
Context (it : gset nat -> list nat) (Hit : enumerates it) (ord : gmap (nat * nat) (node Op) -> list (nat * nat)) (Hord : enumerates_keys ord).
Context (clock : nat -> nat) {St Cl : Type} (sch : scheduler Op D St) (li : limits) (rules : list (rewrite Op D)) (fuel here : nat).
Context (hooks : list (hook Op D Cl)) (ex cycles : bool) (w : nat).
Context (Hr : Forall (rule_built ord) rules) (Hp : Forall pattern_rule rules) (Hon : honest L it cycles w sch).
Context (Hhk : Forall (fun h : hook Op D Cl => forall cl i, no_prune (hk_body h cl i) /\ reasons (fun _ => False) (hk_body h cl i)) hooks).
Notation egraph := (egraph Op D).
Notation onward := (onward L A ex).
Implicit Types (g : egraph).

Section facts.
Context (facts : term Op -> term Op -> Prop).
Notation E := (derivable rules facts).
Notation Eeq := (derivable_equiv rules facts).
Notation Ecg := (derivable_cong rules facts).
Notation brings := (brings E).
Notation means := (means E).
Lemma rule_means rw ms g g' ids nu : rw ∈ rules -> reachable_np L A ex g -> means nu (eg_log g) ->
  (forall c st, (c, st) ∈ pairs ms -> found_in g (rw_searcher rw) c st) ->
  rewrite_apply L A fuel here rw ms g = Ok (g', ids) -> exists nu', brings nu g g' nu'.
Proof using Hh Hr Hp.
  intros Hrw [_ R] M Hms Ea. rewrite Forall_forall in Hr, Hp. destruct (Hr rw Hrw) as [Hb Ha]. destruct (Hp rw Hrw) as (p & conds & r & Es & Hg).
  unfold rewrite_apply in Ea. rewrite Es in *. cbn [searcher_ast] in Ea.
  assert (Hgood : good_ast (pt_ast p)) by (by eapply (built_sast ord (SPattern p))).
  destruct (good_ast_tree _ Hgood) as [_ [l Hl]].
  eapply (apply_matches_means L A Hh E Eeq Ecg ex fuel here (pt_ast p) Hgood (rw_applier rw) conds r (fun x th => E x (tsubst th l)));
    [by apply applier_within_in| |exact Hg| |exact R|exact M| |exact Ea].
  - intros t x th Ht Hx. by rewrite (ExprTree_fun _ _ _ Ht Hl).
  - intros x th Hx Hc. eapply derivable_trans; [exact Hx|]. eapply derivable_rule; [exact Hrw|exact Es|exact Hl|exact Hg|].
    intros k t1 t2 Hk. apply Hc. by eapply elem_of_list_lookup_2.
  - intros c st Hin g1 nu1 G1 R1 C1. eapply (at_id_means L A E Eeq Ecg nu1 ex g1); [by eapply reach_mono|apply C1|].
    eapply at_grows; [exact G1|]. exact (Hms c st Hin l Hl).
Qed.
Definition soundly g g' : Prop := onward g g' /\ forall nu, means nu (eg_log g) -> exists nu', brings nu g g' nu'.
Lemma run_soundly rounds roots g st cl r : reachable_np L A ex g -> run L A clock sch li rules fuel here hooks rounds roots g st cl = Ok (Some r) -> soundly g (r_eg r).
Proof using Hh Lo Hit Hord Hr Hp Hon Hhk.
  intros R Er. assert (Hn : Forall hook_np hooks) by (eapply Forall_impl; [exact Hhk|]; intros h Hx cl0 i; apply Hx).
  eapply (run_T L A clock sch li rules fuel here hooks (reachable_np L A ex) soundly); [..|exact R|exact Er].
  - intros g0 R0. split; [by apply onward_refl|]. intros nu M. exists nu. by apply brings_refl.
  - intros g1 g2 g3 [O1 C1] [O2 C2]. split; [by eapply onward_trans|]. intros nu M. destruct (C1 nu M) as (nu1 & K1).
    destruct (C2 nu1 (proj1 K1)) as (nu2 & K2). exists nu2. by eapply brings_trans.
  - intros g0 g1 R0 [O1 _]. by apply O1.
  - intros h cl0 i g0 g1 Hin R0 E0. split; [by eapply onward_hook|]. intros nu M. rewrite Forall_forall in Hhk.
    exact (prog_means L A Hh E Eeq Ecg ex fuel _ g0 g1 nu (proj2 (Hhk h Hin cl0 i)) (reachable_np_reachable _ _ _ _ R0) M E0).
  - intros g0 g1 n R0 E0. split; [by eapply onward_rebuild|]. intros nu M. exists nu.
    exact (rebuild_means L A Hh E ex fuel g0 g1 n nu (reachable_np_reachable _ _ _ _ R0) M E0).
  - intros i g0 rw s0 ms s1 g1 g2 ids Hrw R0 E0 [[R1 G1] _] E1. split; [by eapply onward_rule|]. intros nu M.
    eapply rule_means; [exact Hrw|exact R1|exact M| |exact E1].
    intros c sb (m & Hm & <- & Hsb)%pairs_in. destruct (Hon _ _ _ _ _ _ _ _ E0 Hm Hsb) as (k & ms0 & m0 & [Es _]%rewrite_search_inv & Hm0 & <- & Hs0).
    assert (Ec : eg_clean g0 = true) by (eapply search_clean; [exact Es|by intros ->; apply elem_of_nil in Hm0]).
    rewrite Forall_forall in Hr. destruct (Hr rw Hrw) as [Hb _].
    destruct (found_facts L A Lo it Hit ord Hord ex g0 R0 Ec (rw_searcher rw) cycles k ms0 (sm_class m0) sb Hb Es) as (_ & _ & _ & _ & Hf).
    { apply pairs_in. eauto. }
    by eapply found_grows.
Qed.
End facts.

(** Terms for all ids known. *)
Lemma pick_terms g (d : term Op) : reachable L A ex g -> exists nu, forall k, known g k -> AddedAs (eg_log g) k (nu k).
Proof.
  intros R. cut (forall n, n <= length (eg_uf g) -> exists nu, forall k, k < n -> AddedAs (eg_log g) k (nu k)).
  { intros Hc. destruct (Hc _ (le_n _)) as [nu Hnu]. exists nu. exact Hnu. }
  induction n as [|n IH]; intros Hn; [exists (fun _ => d); lia|]. destruct IH as [nu Hnu]; [lia|].
  destruct (known_added L A ex g n R) as [t Ht]; [unfold known; lia|]. exists (fun k => if decide (k = n) then t else nu k).
  intros k Hk. destruct (decide (k = n)) as [->|]; [done|]. apply Hnu. lia.
Qed.
Lemma teq_derivable (Rl : nat -> term Op -> term Op -> Prop) t u : teq Rl t u -> derivable rules (fun t u => exists q, Rl q t u) t u.
Proof.
  revert t u. apply teq_ind'.
  - intros q t u Hq. apply derivable_fact. eauto.
  - intros. apply derivable_refl.
  - intros t u _. apply derivable_sym.
  - intros t u v _ H1 _ H2. by eapply derivable_trans.
  - intros f ts us _ HF. by apply derivable_cong.
Qed.
Notation told g := (fun t u => exists q, asserted (eg_log g) q t u).
Lemma terms_mean g nu : reachable L A ex g -> (forall k, known g k -> AddedAs (eg_log g) k (nu k)) -> means (derivable rules (told g)) nu (eg_log g).
Proof.
  intros R Hnu. destruct (log_known L A ex g R) as [Ha Hu]. split.
  - intros f cs i Hi. destruct (Ha _ _ Hi) as [Ki Kc]. apply teq_derivable. eapply (equal_teq L A ex g i i); [done|by apply Hnu| |done].
    eapply added; [exact Hi|]. apply Forall2_fmap_r, Forall_Forall2_diag, Forall_forall. intros c Hc. apply Hnu. by apply Kc.
  - intros a b q Hq. destruct (Hu _ _ _ Hq) as [Ka Kb]. apply derivable_fact. exists q, a, b. split_and!; [done|by apply Hnu..].
Qed.
Lemma Rep_means facts g nu t i : reachable_np L A ex g -> means (derivable rules facts) nu (eg_log g) -> Rep g t i -> derivable rules facts (nu i) t.
Proof.
  intros R M Hi. apply (Rep_PRep g (fun _ => None)) in Hi. apply NRep_PRep in Hi; [|by eapply reachable_Inv, reachable_np_reachable|by eapply reach_listed].
  rewrite <- (tsubst_embed nu t).
  eapply (NRep_means L A (derivable rules facts) (derivable_equiv _ _) (derivable_cong _ _) nu ex g (fun _ => None) nu);
    [by eapply reachable_np_reachable|exact M|done|exact Hi].
Qed.
Context (rounds : nat) (roots : list nat) (g : egraph) (st : St) (cl : Cl) (r : runner Op D St Cl) (R : reachable_np L A ex g).
Context (Er : run L A clock sch li rules fuel here hooks rounds roots g st cl = Ok (Some r)).
Theorem run_derivable t u i : Rep (r_eg r) t i -> Rep (r_eg r) u i -> derivable rules (told g) t u.
Proof using All.
  intros Ht Hu. pose proof (reachable_np_reachable _ _ _ _ R) as R'. destruct (pick_terms g t R') as [nu Hnu].
  destruct (run_soundly (told g) rounds roots g st cl r R Er) as [[R1 _] Hs]. destruct (Hs nu (terms_mean g nu R' Hnu)) as (nu1 & M1 & _).
  eapply derivable_trans; [apply derivable_sym|]; by eapply Rep_means.
Qed.
Lemma derivable_none (f f' : term Op -> term Op -> Prop) t u : (forall t u, f t u -> f' t u) -> derivable rules f t u -> derivable rules f' t u.
Proof.
  intros Hf. induction 1; eauto using derivable_fact, derivable_refl, derivable_sym, derivable_trans, derivable_inside, derivable_rule.
Qed.
Theorem run_derivable_new t u i : (forall a b q, EUnion a b q ∉ eg_log g) -> Rep (r_eg r) t i -> Rep (r_eg r) u i -> derivable rules (fun _ _ => False) t u.
Proof using All.
  intros Hn Ht Hu. eapply derivable_none; [|exact (run_derivable t u i Ht Hu)]. intros t0 u0 (q & a & b & Hq & _). by apply Hn in Hq.
Qed.
(** Extraction after a run. *)
Theorem run_extracts {C} (pcmp : C -> C -> option comparison) (cf : node Op -> list C -> C) order fuel' cs i t :
  orders pcmp -> traverses (r_eg r) order -> superior pcmp cf -> extractor_new pcmp cf fuel' (r_eg r) order = Ok cs -> Rep g t (eg_find g i) ->
  exists v e s k, (forall fuel1, k <= fuel1 -> find_best fuel1 (r_eg r) cs i = Ok (v, e)) /\ ExprTree e s /\ derivable rules (told g) t s.
Proof using All.
  intros Ho Htr Hs Ecs Hi. assert (Hn : Forall hook_np hooks) by (eapply Forall_impl; [exact Hhk|]; intros h Hx cl0 k; apply Hx).
  pose proof (run_represents L A ord clock sch li rules fuel here hooks ex Hr Hn rounds roots g st cl r R Er t i Hi) as H1.
  destruct (run_onward L A clock sch li rules fuel here hooks ord ex Hr Hn rounds roots g st cl r R Er) as [R1 _].
  destruct (extract_total L A ex pcmp cf Ho (r_eg r) order (reachable_np_reachable _ _ _ _ R1) (np_inhabited _ _ _ _ R1) Htr fuel' cs i Hs Ecs) as
    (v & e & s & k & F1 & _ & _ & F4 & F5); [by exists t|].
  exists v, e, s, k. split; [exact F1|]. split; [exact F4|]. exact (run_derivable t s _ H1 F5).
Qed.
(** Saturated, undoable rules, nothing asserted before. *)
Context (J : St -> Prop) (Ha : Forall (fun rw => standard_applier (rw_applier rw)) rules) (Ht : Forall (hook_tidy L A ex) hooks) (Hth : thorough L it true w li sch J) (HJ : J st) (Es : r_stop r = Some Saturated).
Theorem run_decides_equality t u i j : undoable rules -> (forall a b q, EUnion a b q ∉ eg_log g) -> Rep g t (eg_find g i) -> Rep g u (eg_find g j) ->
  (eg_find (r_eg r) i = eg_find (r_eg r) j <-> rewrites rules t u) /\ (rewrites rules t u <-> derivable rules (fun _ _ => False) t u).
Proof using All.
  intros Hun Hnew Hi Hj. assert (Hn : Forall hook_np hooks) by (eapply Forall_impl; [exact Hhk|]; intros h Hx cl0 k; apply Hx).
  assert (Hd : rewrites rules t u <-> derivable rules (fun _ _ => False) t u).
  { split; [apply rewrites_derivable|]. intros Hd. exact (proj1 (derivable_rewrites rules _ (fun _ _ Hf => Hf) Hun t u Hd)). }
  split; [|exact Hd]. split.
  - intros Eq. apply Hd.
    pose proof (run_represents L A ord clock sch li rules fuel here hooks ex Hr Hn rounds roots g st cl r R Er t i Hi) as H1.
    pose proof (run_represents L A ord clock sch li rules fuel here hooks ex Hr Hn rounds roots g st cl r R Er u j Hj) as H2.
    rewrite Eq in H1. exact (run_derivable_new t u _ Hnew H1 H2).
  - intros Hu. exact (run_joined L A Hh Lo it Hit ord Hord clock sch li rules fuel here hooks ex w J Hr Ha Hn Ht Hth rounds roots g st cl r R HJ Er Es t u u i j
      Hi Hj Hu (rewrites_refl rules u)).
Qed.
End run.
