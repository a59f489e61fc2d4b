(** [prove] comes to an end: it returns, or panics because of a goal that is not met. *)
From Verif Require Import Base UnionFind EGraphModel EGraphSteps EGraphInv EGraphPres EGraphRuns Spec EGraphReach EGraphSafe EGraphNoPanic Terms RecExprModel RecExprProofs
  ExprModel PatSpec ExprProofs MachineModel MatchSpec MatchProofs MachineProofs CompileProofs CompileMain SearchProofs SearchMain MatchMain MatchProps
  RewriteModel RewriteProofs AlgSpec RuleSpec RuleProps RunnerModel RunnerSpec RunnerProofs RunnerLimits RunnerSound
  ExtractModel ExtractSpec ExtractMain CheckSpec TotalSpec TotalProofs TotalOps RunTotal QueryModel QuerySpec QueryProofs SimplifyModel SimplifyProofs ProveModel ProveProofs.

Section total.
Context {Op D : Type} `{Countable Op} (L : lang Op) (A : analysis Op D) (Hh : hook_free A) (Rd : D -> D -> Prop) (Hc : merge_climbs A Rd) (Lo : lang_ok L).
Context (it : gset nat -> list nat) (Hit : enumerates it) (ord : gmap (nat * nat) (node Op) -> list (nat * nat)) (Hord : enumerates_keys ord).
Context (clock : nat -> nat) {St : Type} (li : limits) (rules : list (rewrite Op D)) (here : nat) (ex cycles cycles' : bool) (limit msg : nat) (w' : positive).
Context (sch : nat -> scheduler Op D St) (J : St -> Prop) (Hd : dependable L A it cycles' ord ex sch J) (Hu : Forall (usable ord ex) rules).
Context (order order' : egraph Op D -> list nat) (Htr : forall g, traverses g (order g)) (Htr' : forall g, traverses g (order' g)).
Context (goals : list (@pattern Op)) (gts : list (term (pop Op))) (Hg : Forall2 (stands_for ord) goals gts).

Lemma goals_answer (g : egraph Op D) id ps ts : reachable_np L A ex g -> eg_clean g = true -> known g id -> Forall2 (stands_for ord) ps ts ->
  goals_loop L it cycles limit g (Ok tt) id ps = Ok tt \/
  (goals_loop L it cycles limit g (Ok tt) id ps = Panic /\ exists t, t ∈ ts /\ (cycles = true -> 0 < limit -> ~ has_instance g t (eg_find g id))).
Proof using Lo Hit Hord.
  intros R Ec Hk Hps. induction Hps as [|p t ps ts Hp _ IH]; [by left|]. cbn [goals_loop].
  destruct Hp as (fuel & ast & Ha & E & Ht). pose proof Ha as (Hd1 & Hok & Hne). pose proof (reach_settled L A Lo ex g R Ec) as G.
  destruct (pattern_class ord Hord L Lo it Hit g G cycles fuel ast p t id Ec Hd1 Hok Hne E Ht Hk) as (all & Hs & _ & _ & _ & Hall).
  rewrite Hs. cbn [mbind res_bind]. destruct (take limit all) as [|s0 l] eqn:Et; cbn [wrap].
  - right. split; [done|]. exists t. split; [left|]. intros Hcy Hl (sg & Hkn & Hp).
    destruct (Hall Hcy sg Hkn Hp) as (s & Hin & _). destruct all as [|a all]; [by apply elem_of_nil in Hin|].
    destruct limit as [|k]; [lia|discriminate Et].
  - destruct IH as [IH|(IH & q & Hq & Eq)]; [by left|]. right. split; [exact IH|]. exists q. split; [by right|exact Eq].
Qed.
Lemma prove_total e t st : dag e -> ExprTree e t -> J st ->
  exists N g i r, with_expr L A 1 e (eg_new ex, []) = Ok (g, [i]) /\ ended clock li [goal_hook L it cycles limit goals (eg_find g i) msg] r /\
    ((forall fuel w rounds, N <= fuel -> N <= w -> 1 `max` li_iter li <= rounds ->
        prove L A it cycles limit clock (sch w) li rules here w' order order' ex fuel rounds msg st e goals = Ok (Some r)) \/
     ((forall fuel w rounds, N <= fuel -> N <= w -> 1 `max` li_iter li <= rounds ->
        prove L A it cycles limit clock (sch w) li rules here w' order order' ex fuel rounds msg st e goals = Panic) /\
      exists t', t' ∈ gts /\ (cycles = true -> 0 < limit -> ~ has_instance (r_eg r) t' (eg_find (r_eg r) (eg_find g i))))).
Proof using All.
  intros Hde He HJ. assert (Hne : e <> []). { intros ->. unfold ExprTree in He. cbn in He. by inversion He. }
  destruct (with_total L A Hh ex e Hde Hne) as (g & i & Eg).
  destruct (start_ok L A Hh ex e t He g i 1 (Eg 1 (le_n _))) as (R & _ & _).
  set (hooks := [goal_hook L it cycles limit goals (eg_find g i) msg] : list (hook Op D unit)).
  assert (Hk : Forall (well_behaved L A ex g) hooks).
  { constructor; [|constructor]. split; [intros cl k; exact I| |intros cl k; exact I]. intros f cl k g0 g1 _ Hcl E. cbn in E. injection E as <-. exact Hcl. }
  destruct (run_total L A Hh Rd Hc Lo it Hit cycles' ord Hord ex clock sch J Hd li rules here hooks g Hu Hk [i] st tt R HJ) as (N & r & He1 & Er).
  assert (Hr : Forall (rule_built ord) rules) by (eapply Forall_impl; [exact Hu|]; by intros rw []).
  destruct (end_ok L A Hh Lo it ord clock (sch N) li rules N here ex cycles limit msg Hr e t He goals g i 1 (Eg 1 (le_n _)) (1 `max` li_iter li) st r
    (Er N N _ (le_n _) (le_n _) (le_n _))) as ((R' & _) & Ec & Kn & _).
  destruct (best_size_ok L A ex (r_eg r) R' w' (order (r_eg r)) (eg_find g i) (Htr _) Kn) as [N1 H1].
  destruct (best_size_ok L A ex (r_eg r) R' w' (order' (r_eg r)) (eg_find g i) (Htr' _) Kn) as [N2 H2].
  assert (Hsame : forall fuel w rounds, S (N + N1 + N2) <= fuel -> S (N + N1 + N2) <= w -> 1 `max` li_iter li <= rounds ->
    prove L A it cycles limit clock (sch w) li rules here w' order order' ex fuel rounds msg st e goals =
    _ ← goals_loop L it cycles limit (r_eg r) (Ok tt) (eg_find g i) goals; Ok (Some r)).
  { intros fuel w rounds Hf Hw Hrd. unfold prove. rewrite (Eg fuel) by lia. cbn [mbind res_bind last expect].
    fold hooks. rewrite (Er fuel w rounds) by lia. cbn [mbind res_bind]. unfold check_goals. rewrite H1, H2 by lia. reflexivity. }
  exists (S (N + N1 + N2)), g, i, r. split; [exact (Eg 1 (le_n _))|]. split; [exact He1|].
  destruct (goals_answer (r_eg r) (eg_find g i) goals gts R' Ec Kn Hg) as [E|(E & Hp)]; rewrite E in Hsame; cbn [mbind res_bind] in Hsame.
  - left. exact Hsame.
  - right. exact (conj Hsame Hp).
Qed.
End total.
