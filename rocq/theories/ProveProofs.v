(** Proving goals: what it means that [prove] returns, or that its hook stopped the run; after
    saturation the answer is right both ways. *)
From Verif Require Import Base UnionFind EGraphModel EGraphSteps EGraphInv EGraphPres EGraphRuns Spec EGraphReach EGraphSafe EGraphNoPanic Terms RecExprModel RecExprProofs
  ExprModel PatSpec ExprProofs MachineModel MatchSpec MatchProofs MachineProofs CompileProofs CompileMain SearchProofs SearchMain MatchMain MatchProps
  RewriteModel RewriteProofs AlgSpec RuleSpec RuleProps RunnerModel RunnerSpec RunnerProofs RunnerLimits RunnerSound
  ExtractModel ExtractSpec ExtractMain CheckSpec Still SaturationRun OptimumSpec OptimumProofs OptimumRun DeriveSpec DeriveProofs DeriveRun
  TotalSpec TotalProofs TotalOps RunTotal QueryModel QuerySpec QueryProofs SimplifyModel SimplifyProofs ProveModel ProveSpec.

Section ground.
Context {Op D : Type} `{Countable Op} (L : lang Op) (A : analysis Op D) (Lo : lang_ok L) (ex : bool).
Implicit Types (g : egraph Op D) (p : term (pop Op)).
Definition ground_at g p i : Prop := exists th, Rep g (tsubst th p) (eg_find g i).
Lemma bounded_vars p : exists n, forall v, occurs v p -> v < n.
Proof.
  induction p as [[f|v] ts IH] using term_sind.
  - assert (Hn : exists n, forall t v, t ∈ ts -> occurs v t -> v < n).
    { induction IH as [|t ts [n Hn] _ [m Hm]]; [exists 0; intros t v Ht; by apply elem_of_nil in Ht|].
      exists (n + m). intros u v [->|Hu]%elem_of_cons Ho; [pose proof (Hn v Ho); lia|pose proof (Hm u v Hu Ho); lia]. }
    destruct Hn as [n Hn]. exists n. intros v Ho. inversion Ho; subst. eauto.
  - exists (S v). intros u Ho. inversion Ho; subst. lia.
Qed.
Lemma choose_terms g (sg : nat -> option nat) (d : term Op) n : reachable_np L A ex g -> (forall v i, sg v = Some i -> known g i) ->
  exists th, forall v i, v < n -> sg v = Some i -> Rep g (th v) (eg_find g i).
Proof.
  intros R Hk. induction n as [|n [th IH]]; [exists (fun _ => d); intros; lia|].
  destruct (sg n) as [k|] eqn:En.
  - destruct (class_term L A ex g R k (Hk n k En)) as [t Ht]. exists (fun v => if decide (v = n) then t else th v). intros v i Hv Hs.
    destruct (decide (v = n)) as [->|Hne]; [|apply IH; [lia|done]]. rewrite En in Hs. injection Hs as <-. exact Ht.
  - exists th. intros v i Hv Hs. destruct (decide (v = n)) as [->|Hne]; [by rewrite En in Hs|]. apply IH; [lia|done].
Qed.
Lemma instance_ground g p i (d : term Op) : reachable_np L A ex g -> has_instance g p (eg_find g i) -> ground_at g p i.
Proof.
  intros R (sg & Hk & Hp). destruct (bounded_vars p) as [n Hn]. destruct (choose_terms g sg d n R Hk) as [th Hth]. exists th.
  eapply PRep_tsubst; [|exact Hp]. intros v j Hj Ho. apply Hth; [by apply Hn|exact Hj].
Qed.
Lemma ground_instance g p i : reachable_np L A ex g -> eg_clean g = true -> ground_at g p i -> has_instance g p (eg_find g i).
Proof using Lo.
  intros R Ec [th Hr]. destruct (pick_classes g th p _ Hr) as (m & S & C). exists (fun v => m !! v). split.
  - intros v k Hk. pose proof (S v k Hk) as Hrk. destruct (Rep_canon L A Lo ex g R Ec (th v) k Hrk) as [Hkn _]. exact Hkn.
  - apply (tsubst_PRep L A Lo ex g R Ec th); [|exact Hr]. intros v Ho. destruct (C v Ho) as [k Hk]. exists k. split; [exact Hk|exact (S v k Hk)].
Qed.
Lemma Rep_known g t c : reachable_np L A ex g -> Rep g t c -> known g c.
Proof. intros R Hr. inversion Hr as [? ? ? ? cl Hc _ _]; subst. exact (proj1 (ik_class _ (good_ids g (reachable_good L A ex g (reachable_np_reachable _ _ _ _ R))) _ _ Hc)). Qed.
Lemma ground_grows g g' p i : reachable_np L A ex g -> reachable_np L A ex g' -> grows g g' -> ground_at g p i -> ground_at g' p i.
Proof. intros R R' G [th Hr]. exists th. exact (stands_grows L A ex g g' (tsubst th p) i R R' G Hr). Qed.
End ground.

Section met.
Context {Op D : Type} `{Countable Op} (L : lang Op) (A : analysis Op D) (Lo : lang_ok L) (it : gset nat -> list nat) (Hit : enumerates it).
Context (ord : gmap (nat * nat) (node Op) -> list (nat * nat)) (Hord : enumerates_keys ord) (cycles : bool) (ex : bool) (limit : nat).
Context (g : egraph Op D) (R : reachable_np L A ex g) (Ec : eg_clean g = true).
Lemma found_instance p t id o : stands_for ord p t -> known g id -> search_eclass_with_limit L it cycles p g id limit = Ok (Some o) -> has_instance g t (eg_find g id).
Proof using Lo Hit Hord R Ec.
  intros (fuel & ast & Ha & E & Ht) Hk Es. pose proof Ha as (Hd & Hok & Hne). pose proof (reach_settled L A Lo ex g R Ec) as G.
  destruct (pattern_class ord Hord L Lo it Hit g G cycles fuel ast p t id Ec Hd Hok Hne E Ht Hk) as (all & Hs & _ & _ & Hsound & _).
  rewrite Hs in Es. destruct all as [|s all]; [rewrite take_nil in Es; discriminate Es|].
  destruct (Hsound s) as (_ & _ & Hv & Hp); [left|]. exists (subst_get s). split; [|exact Hp]. intros v i Hi. exact (proj1 (Hv v i Hi)).
Qed.
Lemma loop_instances best id ps ts : Forall2 (stands_for ord) ps ts -> known g id -> goals_loop L it cycles limit g best id ps = Ok tt ->
  Forall (fun t => has_instance g t (eg_find g id)) ts.
Proof using Lo Hit Hord R Ec.
  intros Hps Hk. induction Hps as [|p t ps ts Hp _ IH]; intros E; [constructor|]. cbn [goals_loop] in E.
  destruct (search_eclass_with_limit L it cycles p g id limit) as [[o|]| |] eqn:Es; [|by destruct best as [[]| |]|done|done].
  constructor; [exact (found_instance p t id o Hp Hk Es)|exact (IH E)].
Qed.
Lemma checked_instances w fuel order order' id ps ts : Forall2 (stands_for ord) ps ts -> known g id ->
  check_goals L it cycles w fuel limit g order order' id ps = Ok tt -> Forall (fun t => has_instance g t (eg_find g id)) ts.
Proof using Lo Hit Hord R Ec.
  intros Hps Hk E. unfold check_goals in E. destruct (best_size w fuel g order id) as [[]| |]; [|done|done]. cbn [mbind res_bind] in E.
  exact (loop_instances _ id ps ts Hps Hk E).
Qed.
Lemma met_instances id ps ts : Forall2 (stands_for ord) ps ts -> known g id -> forallb (goal_met L it cycles limit g id) ps = true ->
  Forall (fun t => has_instance g t (eg_find g id)) ts.
Proof using Lo Hit Hord R Ec.
  intros Hps Hk. induction Hps as [|p t ps ts Hp _ IH]; intros E; [constructor|]. cbn [forallb] in E. apply andb_true_iff in E as [E1 E2].
  unfold goal_met in E1. destruct (search_eclass_with_limit L it cycles p g id limit) as [[o|]| |] eqn:Es; try done.
  constructor; [exact (found_instance p t id o Hp Hk Es)|exact (IH E2)].
Qed.
End met.

Section stopped.
Context {Op D : Type} `{Countable Op} (L : lang Op) (A : analysis Op D) (ord : gmap (nat * nat) (node Op) -> list (nat * nat)) (ex : bool).
Context (clock : nat -> nat) {St : Type} (sch : scheduler Op D St) (li : limits) (rules : list (rewrite Op D)) (fuel here : nat) (Hr : Forall (rule_built ord) rules).
Context (Q : egraph Op D -> bool) (msg : nat).
Notation hooks := ([Hook (fun _ _ => PRet) (fun cl _ g => (cl, if Q g then Some msg else None))] : list (hook Op D unit)).
Lemma one_np : Forall hook_np hooks.
Proof. constructor; [|constructor]. intros cl i. exact I. Qed.
Lemma check_not_other i t (g : egraph Op D) m : check_limits clock li i t g <> Some (Other m).
Proof. intros E. by apply check_some in E as [[_ [=]]|[(_ & _ & [=])|(_ & _ & _ & [=])]]. Qed.
Lemma search_not_other rs i t st g mss st' t' m : search_rewrites clock sch li rs i t st g <> Ok (mss, st', t', Some (Other m)).
Proof. intros E%search_checked. by destruct E as (_ & _ & []). Qed.
Lemma apply_not_other rms i t ap g g' ap' t' m : apply_rewrites L A clock li fuel here rms i t ap g <> Ok (g', ap', t', Some (Other m)).
Proof.
  revert t ap g. induction rms as [|[rw ms] rms IH]; intros t ap g E; cbn [apply_rewrites] in E; [done|].
  destruct (rewrite_apply _ _ _ _ rw ms g) as [[g3 ids]| |]; [|done|done]. cbn [mbind res_bind] in E.
  destruct (check_limits clock li i t g3) eqn:E2; [|by eapply IH]. injection E as _ _ _ ->. by eapply check_not_other.
Qed.
Lemma one_other (r r' : runner Op D St unit) itn m : reachable_np L A ex (r_eg r) -> run_one L A clock sch li rules fuel here hooks r = Ok (r', itn) -> it_stop itn = Some (Other m) ->
  m = msg /\ Q (r_eg r) = true /\ onward L A ex (r_eg r) (r_eg r').
Proof.
  intros R E%run_one_phases Hs.
  destruct E as [g1 cl s1 mss st2 t2 s2 g3 ap t3 s3 g4 n can st3 Hf H1 H2 H3 H4 H5 -> ->]. cbn [r_eg it_stop] in *.
  assert (s3 = Some (Other m)) as ->.
  { destruct s3; [exact Hs|]. by destruct (can && _ && _ && _ && _). }
  destruct s2 as [s2|]; [|by apply apply_not_other in H3]. destruct H3 as (-> & _ & _ & [= <-]).
  destruct s1 as [s1|]; [|by apply search_not_other in H2]. destruct H2 as (_ & _ & _ & [= <-]).
  destruct (check_limits clock li _ _ _) eqn:E0; [destruct H1 as (_ & _ & [= <-]); by apply check_not_other in E0|].
  cbn in H1. destruct (Q (r_eg r)); [|discriminate H1]. injection H1 as <- _ <-. split; [done|]. split; [done|].
  exact (onward_rebuild L A fuel ex _ _ _ R H4).
Qed.
Lemma one_onward (r r' : runner Op D St unit) itn : reachable_np L A ex (r_eg r) -> run_one L A clock sch li rules fuel here hooks r = Ok (r', itn) -> onward L A ex (r_eg r) (r_eg r').
Proof using Hr.
  intros R E. eapply (RunnerProofs.one_T L A clock sch li rules fuel here hooks (reachable_np L A ex) (onward L A ex)); eauto using onward_refl, onward_trans, onward_np, onward_rebuild.
  - intros h cl i g g' Hin Rg Eh. exact (onward_hook L A fuel hooks ex one_np h cl i g g' Hin Rg Eh).
  - intros i g0 rw s0 ms s1 g1 g2 ids Hrw R0 _ T1 E1. exact (onward_rule L A rules fuel here ord ex Hr rw ms g1 g2 ids Hrw (proj1 T1) E1).
Qed.
Lemma rules_shaped : Forall rule_shaped rules.
Proof using Hr. eapply Forall_impl; [exact Hr|]. intros rw [Hb Ha0]. split; [intros ast; by apply (built_sast ord)|]. by eapply within_mono; [|exact Ha0]. Qed.
Lemma loop_other rounds (r r' : runner Op D St unit) m : reachable_np L A ex (r_eg r) -> eg_clean (r_eg r) = true -> run_loop L A clock sch li rules fuel here hooks rounds r = Ok (Some r') ->
  r_stop r' = Some (Other m) -> m = msg /\ exists g1, onward L A ex (r_eg r) g1 /\ eg_clean g1 = true /\ Q g1 = true /\ onward L A ex g1 (r_eg r').
Proof using Hr.
  revert r. induction rounds as [|rounds IH]; intros r R Ec E Hs; cbn [run_loop] in E; [done|].
  destruct (run_one _ _ _ _ _ _ _ _ _ r) as [[r1 itn]| |] eqn:E1; [|done|done]. cbn [mbind res_bind] in E.
  pose proof (one_onward r r1 itn R E1) as O1.
  destruct (one_stop L A clock sch li rules fuel here hooks ex rules_shaped r r1 itn (reachable_np_reachable _ _ _ _ R) E1) as (_ & _ & _ & _ & Ec1 & _).
  destruct (it_stop itn) as [s|] eqn:Ei.
  - injection E as <-. cbn [r_stop r_eg] in *. rewrite Hs in Ei. destruct (one_other r r1 itn m R E1 Ei) as (-> & HQ & O2).
    split; [done|]. exists (r_eg r). split; [by apply onward_refl|]. split; [done|]. by split.
  - destruct (check_limits clock li _ _ _) eqn:E2; [injection E as <-; cbn in Hs; injection Hs as ->; by apply check_not_other in E2|].
    destruct (IH (Runner (r_eg r1) (r_iters r1 ++ [itn]) (r_roots r1) (r_stop r1) (r_st r1) (r_cl r1) (S (r_tick r1))) (proj1 O1) Ec1 E Hs) as (-> & g1 & O2 & C2 & Q2 & O3). split; [done|]. exists g1. split; [by eapply onward_trans|]. done.
Qed.
Lemma run_other rounds roots g st r m : reachable_np L A ex g -> run L A clock sch li rules fuel here hooks rounds roots g st tt = Ok (Some r) ->
  r_stop r = Some (Other m) -> m = msg /\ exists g1, onward L A ex g g1 /\ eg_clean g1 = true /\ Q g1 = true /\ onward L A ex g1 (r_eg r).
Proof using Hr.
  intros R E Hs. unfold run in E. destruct (rebuild _ _ _ _ g) as [[g1 n]| |] eqn:E1; [|done|done]. cbn [mbind res_bind] in E.
  destruct (rebuild_step L A (fun _ => True) ex fuel g g1 n) as (_ & _ & Ec); [apply calls_any|by eapply reachable_np_reachable|done|].
  pose proof (onward_rebuild L A fuel ex _ _ _ R E1) as O1.
  destruct (loop_other rounds (Runner g1 [] roots None st tt 0) r m (proj1 O1) Ec E Hs) as (-> & g2 & O2 & C2 & Q2 & O3).
  split; [done|]. exists g2. split; [by eapply onward_trans|]. done.
Qed.
End stopped.

Section main.
Context {Op D : Type} `{Countable Op} (L : lang Op) (A : analysis Op D) (Hh : hook_free A) (Lo : lang_ok L).
Context (it : gset nat -> list nat) (Hit : enumerates it) (ord : gmap (nat * nat) (node Op) -> list (nat * nat)) (Hord : enumerates_keys ord).
Context (clock : nat -> nat) {St : Type} (sch : scheduler Op D St) (li : limits) (rules : list (rewrite Op D)) (fuel here : nat).
Context (ex : bool) (cycles cycles' : bool) (w limit msg : nat).
Context (Hr : Forall (rule_built ord) rules) (Hp : Forall pattern_rule rules) (Hon : honest L it cycles' w sch).
Context (e : list (node Op)) (t : term Op) (He : ExprTree e t) (goals : list (@pattern Op)) (gts : list (term (pop Op))) (Hg : Forall2 (stands_for ord) goals gts).
Context (g : egraph Op D) (i : nat) (fuel0 : nat) (Eg : with_expr L A fuel0 e (eg_new ex, []) = Ok (g, [i])).
Notation hooks := ([goal_hook L it cycles limit goals (eg_find g i) msg] : list (hook Op D unit)).
Context (rounds : nat) (st : St) (r : runner Op D St unit) (Er : run L A clock sch li rules fuel here hooks rounds [i] g st tt = Ok (Some r)).
Notation eq := (derivable rules (fun _ _ => False)).
Notation provable := (ProveSpec.provable rules t).

Lemma start_ok : reachable_np L A ex g /\ plain g /\ stands g t i.
Proof using Hh He Eg.
  assert (Eg1 : with_exprs L A fuel0 [e] (eg_new ex, []) = Ok (g, [i])) by (cbn [with_exprs]; by rewrite Eg).
  assert (Hes : Forall2 ExprTree [e] [t]) by (constructor; [exact He|constructor]).
  destruct (front_start L A Hh ex [e] [t] Hes fuel0 g [i] Eg1) as (R & P & F). apply Forall2_cons in F as [F _]. exact (conj R (conj P F)).
Qed.
Lemma hooks_fine : Forall (fun h : hook Op D unit => forall cl i, no_prune (hk_body h cl i) /\ reasons (fun _ => False) (hk_body h cl i)) hooks.
Proof. constructor; [|constructor]. intros cl k. exact (conj I I). Qed.
Lemma hooks_tidy : Forall (hook_tidy L A ex) hooks.
Proof. constructor; [|constructor]. intros f cl k g0 g1 _ Hc E. cbn in E. injection E as <-. exact Hc. Qed.
Lemma hooks_np : Forall hook_np hooks.
Proof. constructor; [|constructor]. intros cl k. exact I. Qed.
Lemma end_ok : onward L A ex g (r_eg r) /\ eg_clean (r_eg r) = true /\ known (r_eg r) (eg_find g i) /\
  eg_find (r_eg r) (eg_find g i) = eg_find (r_eg r) i /\ Rep (r_eg r) t (eg_find (r_eg r) i).
Proof using Hh Lo He Eg Er Hr.
  destruct start_ok as (R & _ & S).
  pose proof (run_onward L A clock sch li rules fuel here hooks ord ex Hr hooks_np rounds [i] g st tt r R Er) as [R' G].
  destruct (run_kept L A clock sch li rules fuel here hooks ex (rules_shaped ord rules Hr) rounds [i] g st tt r (reachable_np_reachable _ _ _ _ R) Er) as (_ & Ec & _ & Hk & _).
  assert (St' : Rep (r_eg r) t (eg_find (r_eg r) i)) by exact (stands_grows L A ex g (r_eg r) t i R R' G S).
  assert (Ef : eg_find (r_eg r) (eg_find g i) = eg_find (r_eg r) i) by exact (gr_find _ _ G i).
  split; [exact (conj R' G)|]. split; [exact Ec|]. split; [|exact (conj Ef St')].
  apply Hk. unfold stands in S. exact (Rep_known L A ex g t _ R S).
Qed.
Lemma instance_provable p : has_instance (r_eg r) p (eg_find (r_eg r) (eg_find g i)) -> provable p.
Proof using Hh Lo Hit Hord Hr Hp Hon He Eg Er.
  intros Hi. destruct start_ok as (R & P & _). destruct end_ok as ((R' & _) & _ & _ & Ef & Ht).
  destruct (instance_ground L A ex (r_eg r) p (eg_find g i) t R' Hi) as [th Hth]. exists th. rewrite Ef in Hth.
  exact (run_derivable_new L A Hh Lo it Hit ord Hord clock sch li rules fuel here hooks ex cycles' w Hr Hp Hon hooks_fine rounds [i] g st tt r R Er t (tsubst th p) _ P Ht Hth).
Qed.
Lemma checked_provable w' fuel' limit' order order' : check_goals L it cycles w' fuel' limit' (r_eg r) order order' (eg_find g i) goals = Ok tt -> Forall provable gts.
Proof using All.
  intros E. destruct end_ok as ((R' & _) & Ec & Hk & _).
  eapply Forall_impl; [exact (checked_instances L A Lo it Hit ord Hord cycles ex limit' (r_eg r) R' Ec w' fuel' order order' (eg_find g i) goals gts Hg Hk E)|].
  exact instance_provable.
Qed.
Lemma stopped_met m : r_stop r = Some (Other m) -> m = msg /\ Forall (fun p => has_instance (r_eg r) p (eg_find (r_eg r) (eg_find g i))) gts.
Proof using All.
  intros Es. destruct start_ok as (R & P & S). destruct end_ok as ((R' & _) & Ec & Hk & _).
  destruct (run_other L A ord ex clock sch li rules fuel here Hr (fun g0 => forallb (goal_met L it cycles limit g0 (eg_find g i)) goals) msg rounds [i] g st r m R Er Es) as
    (-> & g1 & O1 & C1 & Q1 & O2). split; [done|].
  assert (K1 : known g1 (eg_find g i)). { apply (grows_known L A ex g g1 _ (reachable_np_reachable _ _ _ _ R) (reachable_np_reachable _ _ _ _ (proj1 O1)) (proj2 O1)). exact (Rep_known L A ex g t _ R S). }
  eapply Forall_impl; [exact (met_instances L A Lo it Hit ord Hord cycles ex limit g1 (proj1 O1) C1 (eg_find g i) goals gts Hg K1 Q1)|].
  intros p Hi. apply (ground_instance L A Lo ex (r_eg r) p _ R' Ec).
  apply (ground_grows L A ex g1 (r_eg r) p _ (proj1 O1) R' (proj2 O2)). exact (instance_ground L A ex g1 p _ t (proj1 O1) Hi).
Qed.
Lemma stopped_ok w' order order' m : traverses (r_eg r) order -> traverses (r_eg r) order' -> r_stop r = Some (Other m) -> m = msg /\ Forall provable gts /\
  exists N, forall fuel' limit', N <= fuel' -> N <= limit' -> check_goals L it true w' fuel' limit' (r_eg r) order order' (eg_find g i) goals = Ok tt.
Proof using All.
  intros Ho Ho' Es. destruct (stopped_met m Es) as [-> Hi]. destruct end_ok as ((R' & _) & Ec & Hk & _). split; [done|].
  split; [eapply Forall_impl; [exact Hi|exact instance_provable]|].
  destruct (check_goals_exact L A Lo it Hit ord Hord ex (r_eg r) R' Ec w' order order' (eg_find g i) goals gts Ho Ho' Hg Hk) as [N HN].
  exists N. intros fuel' limit' Hf Hl. exact (proj1 (HN fuel' limit' Hf Hl) Hi).
Qed.
Lemma saturated_decides (J : St -> Prop) w' order order' : Forall (fun rw => standard_applier (rw_applier rw)) rules -> undoable rules -> thorough L it true w li sch J -> J st ->
  r_stop r = Some Saturated -> traverses (r_eg r) order -> traverses (r_eg r) order' ->
  exists N, forall fuel' limit', N <= fuel' -> N <= limit' ->
    (Forall provable gts -> check_goals L it true w' fuel' limit' (r_eg r) order order' (eg_find g i) goals = Ok tt) /\
    (~ Forall provable gts -> forall cy, check_goals L it cy w' fuel' limit' (r_eg r) order order' (eg_find g i) goals = Panic).
Proof using All.
  intros Ha Hun Hth HJ Es Ho Ho'. destruct start_ok as (R & P & S). destruct end_ok as ((R' & _) & Ec & Hk & Ef & Ht).
  destruct (check_goals_exact L A Lo it Hit ord Hord ex (r_eg r) R' Ec w' order order' (eg_find g i) goals gts Ho Ho' Hg Hk) as [N HN].
  assert (Hback : forall p, provable p -> has_instance (r_eg r) p (eg_find (r_eg r) (eg_find g i))).
  { intros p [th Hd]. apply (ground_instance L A Lo ex (r_eg r) p _ R' Ec). exists th. rewrite Ef.
    exact (run_closed L A Hh Lo it Hit ord Hord clock sch li rules fuel here hooks ex w J Hr Ha hooks_np hooks_tidy Hth rounds [i] g st tt r R HJ Er Es t (tsubst th p) _
      Ht (proj1 (derivable_rewrites rules _ (fun _ _ Hf => Hf) Hun t _ Hd))). }
  exists N. intros fuel' limit' Hf Hl. destruct (HN fuel' limit' Hf Hl) as [H1 H2]. split.
  - intros Hall. apply H1. eapply Forall_impl; [exact Hall|exact Hback].
  - intros Hn cy. apply H2. intros Hall. apply Hn. eapply Forall_impl; [exact Hall|exact instance_provable].
Qed.
End main.

Lemma prove_sound {Op D} `{Countable Op} (L : lang Op) (A : analysis Op D) (Hh : hook_free A) (Lo : lang_ok L)
    (it : gset nat -> list nat) (Hit : enumerates it) (ord : gmap (nat * nat) (node Op) -> list (nat * nat)) (Hord : enumerates_keys ord)
    clock {St} (sch : scheduler Op D St) li rules here ex cycles cycles' w w' limit order order' fuel rounds msg st e t goals gts r :
  Forall (rule_built ord) rules -> Forall pattern_rule rules -> honest L it cycles' w sch -> ExprTree e t -> Forall2 (stands_for ord) goals gts ->
  prove L A it cycles limit clock sch li rules here w' order order' ex fuel rounds msg st e goals = Ok (Some r) -> Forall (provable rules t) gts.
Proof.
  intros Hr Hp Hon He Hg E. unfold prove in E. destruct (with_expr L A fuel e _) as [[g roots]| |] eqn:Eg; [|done|done]. cbn [mbind res_bind] in E.
  assert (exists i, roots = [i]) as [i ->].
  { unfold with_expr in Eg. cbn [fst snd] in Eg. destruct (add_expr _ _ _ _) as [[g1 i]| |]; [|done|done]. cbn in Eg. injection Eg as -> <-. by exists i. }
  cbn [last expect mbind res_bind] in E. destruct (run _ _ _ _ _ _ _ _ _ _ _ _ _ _) as [[r0|]| |] eqn:Er; [|done..]. cbn [mbind res_bind] in E.
  destruct (check_goals _ _ _ _ _ _ _ _ _ _ _) as [[]| |] eqn:Ec; [|done|done].
  exact (checked_provable L A Hh Lo it Hit ord Hord clock sch li rules fuel here ex cycles cycles' w limit msg Hr Hp Hon e t He goals gts Hg g i fuel Eg rounds st r0 Er w' fuel limit _ _ Ec).
Qed.
