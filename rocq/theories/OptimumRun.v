(** Saturated runs: closed under rewriting, and what extraction finds after them. *)
From Verif Require Import Base UnionFind EGraphModel EGraphSteps EGraphInv EGraphPres EGraphRuns Spec EGraphReach EGraphSafe EGraphNoPanic Terms RecExprModel RecExprProofs
  ExprModel PatSpec ExprProofs MachineModel MatchSpec MatchProps RewriteModel AlgSpec RuleSpec RunnerModel RunnerSpec RunnerProofs RunnerSound Saturation SaturationRun
  ExtractModel ExtractSpec ExtractMain OptimumSpec OptimumProofs.

Section run.
Context {Op D : Type} `{Countable Op} (L : lang Op) (A : analysis Op D) (Hh : hook_free A) (Lo : lang_ok L).
Context (it : gset nat -> list nat) (Hit : enumerates it) (ord : gmap (nat * nat) (node Op) -> list (nat * nat)) (Hord : enumerates_keys ord).
Context (clock : nat -> nat) {St Cl : Type} (sch : scheduler Op D St) (li : limits) (rules : list (rewrite Op D)) (fuel here : nat).
Context (hooks : list (hook Op D Cl)) (ex : bool) (w : nat) (J : St -> Prop).
Context (Hr : Forall (rule_built ord) rules) (Ha : Forall (fun rw => standard_applier (rw_applier rw)) rules).
Context (Hn : Forall hook_np hooks) (Ht : Forall (hook_tidy L A ex) hooks) (Hsch : thorough L it true w li sch J).
Context (rounds : nat) (roots : list nat) (g : egraph Op D) (st : St) (cl : Cl) (r : runner Op D St Cl).
Context (R : reachable_np L A ex g) (HJ : J st).
Context (E : run L A clock sch li rules fuel here hooks rounds roots g st cl = Ok (Some r)) (Es : r_stop r = Some Saturated).

Lemma run_represents (t : term Op) i : Rep g t (eg_find g i) -> Rep (r_eg r) t (eg_find (r_eg r) i).
Proof using R Hr Hn E.
  intros Hi. destruct (run_onward L A clock sch li rules fuel here hooks ord ex Hr Hn rounds roots g st cl r R E) as [R' G].
  rewrite <- (gr_find _ _ G i). apply (Rep_PRep _ (fun _ => None)). apply NRep_PRep; [by eapply reachable_Inv, reachable_np_reachable|by eapply reach_listed|].
  eapply NRep_grows; [exact G|]. apply NRep_PRep; [by eapply reachable_Inv, reachable_np_reachable|by eapply reach_listed|]. by apply Rep_PRep.
Qed.
Lemma run_closed (t u : term Op) c : Rep (r_eg r) t c -> rewrites rules t u -> Rep (r_eg r) u c.
Proof using All.
  destruct (run_sat L A Hh Lo it Hit ord Hord clock sch li rules fuel here hooks ex w J Hr Ha Hn Ht Hsch rounds roots g st cl r R HJ E Es) as (R' & Ec & Hset).
  intros Hc Hu. exact (settled_closed L A Lo ex (r_eg r) R' Ec rules Hset t u Hu c Hc).
Qed.
Lemma run_joined (t1 t2 u : term Op) i j : Rep g t1 (eg_find g i) -> Rep g t2 (eg_find g j) -> rewrites rules t1 u -> rewrites rules t2 u ->
  eg_find (r_eg r) i = eg_find (r_eg r) j.
Proof using All.
  intros H1 H2 U1 U2. destruct (run_sat L A Hh Lo it Hit ord Hord clock sch li rules fuel here hooks ex w J Hr Ha Hn Ht Hsch rounds roots g st cl r R HJ E Es) as (R' & Ec & _).
  exact (Rep_fun_clean L A ex (r_eg r) u _ _ R' Ec (run_closed _ _ _ (run_represents _ _ H1) U1) (run_closed _ _ _ (run_represents _ _ H2) U2)).
Qed.
Lemma run_cheapest {C} (pcmp : C -> C -> option comparison) (cf : node Op -> list C -> C) (F : Op -> list C -> C) order fuel' cs i (t : term Op) :
  orders pcmp -> traverses (r_eg r) order -> by_operator cf F -> monotone pcmp cf -> superior pcmp cf ->
  extractor_new pcmp cf fuel' (r_eg r) order = Ok cs -> Rep g t (eg_find g i) ->
  exists v e s k, (forall fuel1, k <= fuel1 -> find_best fuel1 (r_eg r) cs i = Ok (v, e)) /\ ExprTree e s /\
    pcmp (geval F s) v = Some Eq /\ (forall u, rewrites rules t u -> cle pcmp (geval F s) (geval F u)) /\
    (forall V (M : Op -> list V -> V) nu, honest L it true w sch -> Forall (rule_valid L A M ex) rules -> Forall (hook_true L A M ex) hooks ->
      models M nu (eg_log g) -> geval M s = geval M t).
Proof using All.
  intros Ho Htr HF Hm Hs Ecs Hrep.
  destruct (run_sat L A Hh Lo it Hit ord Hord clock sch li rules fuel here hooks ex w J Hr Ha Hn Ht Hsch rounds roots g st cl r R HJ E Es) as (R' & Ec & _).
  pose proof (run_represents _ _ Hrep) as Hrep'.
  destruct (extract_optimal L A ex pcmp cf Ho (r_eg r) order (reachable_np_reachable _ _ _ _ R') (np_inhabited _ _ _ _ R') Htr F fuel' cs i HF Hm Hs Ecs) as
    (v & e & s & k & H1 & _ & _ & H4 & H5 & _ & H7 & H8); [by exists t|].
  exists v, e, s, k. split; [exact H1|]. split; [exact H4|]. split; [exact H7|]. split.
  - intros u Hu. exact (or_trans _ Ho _ _ _ (or_intror H7) (H8 u (run_closed _ _ _ Hrep' Hu))).
  - intros V M nu Hon Hv Htrue Hmod.
    destruct (run_sound L A clock sch li rules fuel here hooks M Hh Lo it Hit true w ord Hord ex Hr Hn Hon Hv Htrue rounds roots g st cl r nu R Hmod E) as (_ & Hval & _).
    exact (Hval _ _ _ H5 Hrep').
Qed.
End run.
