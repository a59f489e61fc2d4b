(** Saturated runs. *)
From Verif Require Import Base UnionFind EGraphModel EGraphSteps EGraphInv EGraphPres EGraphRuns Spec EGraphMain EGraphReach EGraphOps EGraphSafe
  EGraphNoPanic Terms RecExprModel RecExprProofs ExprModel PatSpec ExprProofs ExprSafe MachineModel MatchSpec MatchProofs MachineProofs CompileProofs
  CompileMain SearchProofs SearchMain MultiProofs MatchMain MatchProps RewriteModel RewriteProofs AlgSpec AlgProofs AlgRules RewriteMain RuleSpec
  Completion RuleSafe RuleProps CondProps RunnerModel RunnerSpec RunnerProofs RunnerSound RunnerLimits Still Saturation.

Section run.
Context {Op D : Type} `{Countable Op} (L : lang Op) (A : analysis Op D) (Hh : hook_free A) (Lo : lang_ok L).
Context (it : gset nat -> list nat) (Hit : enumerates it) (ord : gmap (nat * nat) (node Op) -> list (nat * nat)) (Hord : enumerates_keys ord).
Notation egraph := (egraph Op D).
Notation rewrite := (rewrite Op D).
Implicit Types (g : egraph).
Context (clock : nat -> nat) {St Cl : Type} (sch : scheduler Op D St) (li : limits) (rules : list rewrite) (fuel here : nat).
Context (hooks : list (hook Op D Cl)) (ex : bool) (w : nat) (J : St -> Prop).
Context (Hr : Forall (rule_built ord) rules) (Ha : Forall (fun rw => standard_applier (rw_applier rw)) rules).
Context (Hn : Forall hook_np hooks) (Ht : Forall (hook_tidy L A ex) hooks) (Hsch : thorough L it true w li sch J).
Notation run_one := (run_one L A clock sch li rules fuel here hooks).
Notation run_loop := (run_loop L A clock sch li rules fuel here hooks).
Notation run := (run L A clock sch li rules fuel here hooks).

Notation all_settled := (all_settled rules).

Lemma check_not_saturated i t g : check_limits clock li i t g <> Some Saturated.
Proof. intros E. by apply check_some in E as [[_ [=]]|[(_ & _ & [=])|(_ & _ & _ & [=])]]. Qed.
Lemma search_not_saturated rs i t st g mss st' t' : search_rewrites clock sch li rs i t st g <> Ok (mss, st', t', Some Saturated).
Proof. intros E%search_checked. by destruct E as (_ & _ & []). Qed.
Lemma apply_not_saturated rms i t ap g g' ap' t' : apply_rewrites L A clock li fuel here rms i t ap g <> Ok (g', ap', t', Some Saturated).
Proof.
  revert t ap g. induction rms as [|[rw ms] rms IH]; intros t ap g E; cbn [apply_rewrites] in E; [done|].
  destruct (rewrite_apply _ _ _ _ rw ms g) as [[g3 ids]| |]; [|done|done]. cbn [mbind res_bind] in E.
  destruct (check_limits clock li i t g3) eqn:E2; [|by eapply IH]. injection E as _ _ _ ->. by eapply check_not_saturated.
Qed.
Lemma search_J rs i t st g mss st' t' s : J st -> search_rewrites clock sch li rs i t st g = Ok (mss, st', t', s) ->
  J st' /\ (s = None -> searches sch i g rs st mss st').
Proof.
  revert t st mss. induction rs as [|rw rs IH]; intros t st mss HJ E; cbn [search_rewrites] in E.
  - injection E as <- <- _ _. split; [done|]. intros _. constructor.
  - destruct (sc_search _ sch i g rw st) as [[ms st1]| |] eqn:E1; [|done|done]. cbn [mbind res_bind] in E.
    pose proof (th_search _ _ _ _ _ _ _ Hsch _ _ _ _ _ _ HJ E1) as J1.
    destruct (check_limits clock li i t g) as [s1|]; [by injection E as <- <- _ <-|].
    destruct (search_rewrites _ _ _ rs i (S t) st1 g) as [[[[mss1 st2] t2] s2]| |] eqn:E2; [|done|done]. cbn [mbind res_bind] in E.
    injection E as <- <- <- <-. apply IH in E2 as [J2 S2]; [|done]. split; [done|]. intros ->. econstructor; eauto.
Qed.
Lemma bump_not_nil nm k ap : bump nm k ap <> [].
Proof. destruct ap as [|[n c] ap]; cbn; [done|]. by destruct (decide _). Qed.
Lemma apply_mono rms i t ap g g' t' s : apply_rewrites L A clock li fuel here rms i t ap g = Ok (g', [], t', s) -> ap = [].
Proof.
  revert t ap g. induction rms as [|[rw ms] rms IH]; intros t ap g E; cbn [apply_rewrites] in E; [by injection E|].
  destruct (rewrite_apply _ _ _ _ rw ms g) as [[g3 ids]| |]; [|done|done]. cbn [mbind res_bind] in E.
  assert (K : (if 0 <? length ids then bump (rw_name rw) (length ids) ap else ap) = []).
  { destruct (check_limits clock li i t g3); [by injection E|]. by apply IH in E. }
  destruct (0 <? length ids); [by apply bump_not_nil in K|done].
Qed.
Lemma apply_chain rms i t g g' t' : (forall rw ms, (rw, ms) ∈ rms -> rw ∈ rules) -> reachable L A ex g ->
  apply_rewrites L A clock li fuel here rms i t [] g = Ok (g', [], t', None) ->
  still L A ex g g' /\ forall rw ms, (rw, ms) ∈ rms -> exists h h', still L A ex g h /\ rewrite_apply L A fuel here rw ms h = Ok (h', []) /\ still L A ex h' g'.
Proof.
  revert t g. induction rms as [|[rw ms] rms IH]; intros t g Hin R E; cbn [apply_rewrites] in E.
  - injection E as <- _. split; [by apply still_refl|]. intros rw ms Hx. by apply elem_of_nil in Hx.
  - destruct (rewrite_apply _ _ _ _ rw ms g) as [[g3 ids]| |] eqn:E1; [|done|done]. cbn [mbind res_bind] in E.
    destruct (check_limits clock li i t g3); [done|]. pose proof (apply_mono _ _ _ _ _ _ _ _ E) as K.
    assert (ids = []) as ->. { destruct ids; [done|]. cbn in K. done. } cbn in E.
    assert (T1 : still L A ex g g3).
    { eapply (still_rule L A Hh ex fuel here rw ms); [|done|done]. rewrite Forall_forall in Ha. apply Ha, (Hin rw ms). left. }
    apply IH in E as [T2 Hx]; [|intros rw' ms' ?; apply (Hin rw' ms'); by right|apply T1].
    split; [by eapply still_trans|]. intros rw' ms' [[= -> ->]|Hy]%elem_of_cons.
    + exists g, g3. split_and!; [by apply still_refl|done|done].
    + destruct (Hx rw' ms' Hy) as (h & h' & S1 & Ey & S2). exists h, h'. split_and!; [by eapply still_trans|done|done].
Qed.
Lemma hooks_tidy hs i cl g g' cl' s : (forall h, h ∈ hs -> h ∈ hooks) -> reachable_np L A ex g -> eg_clean g = true ->
  run_hooks L A fuel hs i cl g = Ok (g', cl', s) -> onward L A ex g g' /\ eg_clean g' = true.
Proof.
  revert cl g. induction hs as [|h hs IH]; intros cl g Hsub R Ec E; cbn [run_hooks] in E; [injection E as <- _ _; split; [by apply onward_refl|done]|].
  destruct (run_prog _ _ _ _ _ g) as [g1| |] eqn:E1; [|done|done]. cbn [mbind res_bind] in E.
  assert (Hin : h ∈ hooks) by (apply Hsub; left).
  assert (C1 : eg_clean g1 = true) by (rewrite Forall_forall in Ht; by eapply (Ht h Hin)).
  pose proof (onward_hook L A fuel hooks ex Hn h cl i g g1 Hin R E1) as O1.
  destruct (hk_out h cl i g1) as [cl1 [m|]]; [by injection E as <- _ _|].
  apply IH in E as [O2 ?]; [|intros; apply Hsub; by right|apply O1|done]. split; [by eapply onward_trans|done].
Qed.

Lemma one_sat r r' itn : reachable_np L A ex (r_eg r) -> eg_clean (r_eg r) = true -> J (r_st r) -> run_one r = Ok (r', itn) ->
  reachable_np L A ex (r_eg r') /\ eg_clean (r_eg r') = true /\ J (r_st r') /\
  (it_stop itn = Some Saturated -> all_settled (r_eg r')).
Proof.
  intros R Ec HJ E%run_one_phases.
  destruct E as [g1 cl s1 mss st2 t2 s2 g3 ap t3 s3 g4 n can st3 Hf H1 H2 H3 H4 H5 -> ->]. cbn [r_eg r_st it_stop].
  assert (T1 : onward L A ex (r_eg r) g1 /\ eg_clean g1 = true).
  { destruct (check_limits _ _ _ _ _); [destruct H1 as (-> & _); split; [by apply onward_refl|done]|]. by eapply hooks_tidy. }
  destruct T1 as [O1 Ec1]. pose proof (proj1 O1) as R1.
  assert (T2 : J st2 /\ (s2 = None -> s1 = None /\ searches sch (length (r_iters r)) g1 rules (r_st r) mss st2)).
  { destruct s1; [destruct H2 as (_ & -> & _ & ->); done|]. apply search_J in H2 as [? ?]; [|done]. split; [done|]. auto. }
  destruct T2 as [J2 S2].
  assert (O3 : onward L A ex g1 g3).
  { destruct s2; [destruct H3 as (-> & _); by apply onward_refl|].
    eapply (apply_T L A clock sch li rules fuel here (reachable_np L A ex) (onward L A ex) (onward_refl L A ex) (onward_trans L A ex) (onward_np L A ex))
      with (i := length (r_iters r)) (g := g1); [|done|by apply onward_refl| |exact H3].
    - intros i g rw st ms st' h1 h2 ids Hrw _ _ Oh Eh. eapply onward_rule; [exact Hr|exact Hrw|apply Oh|exact Eh].
    - intros rw ms Hin. split; [by eapply elem_of_zip_l|]. destruct s1; [by destruct (S2 eq_refl)|]. apply search_found in H2 as [F2 _].
      rewrite Forall_forall in F2. by apply (F2 (rw, ms)). }
  assert (O4 : onward L A ex g3 g4) by (eapply onward_rebuild; [apply O3|exact H4]).
  destruct (rebuild_step L A (fun _ => True) ex fuel g3 g4 n) as (_ & _ & Ec4); [apply calls_any|by eapply reachable_np_reachable, O3|done|].
  split_and!; [apply O4|done| |].
  { destruct ap; [by eapply (th_stop _ _ _ _ _ _ _ Hsch)|]. by destruct H5 as [_ ->]. }
  intros Hsat. destruct s3 as [s3|].
  { exfalso. injection Hsat as ->. destruct s2 as [s2|].
    - destruct H3 as (_ & _ & _ & [= <-]). destruct s1 as [s1|].
      + destruct H2 as (_ & _ & _ & [= <-]). destruct (check_limits _ _ _ _ _) eqn:E0.
        * destruct H1 as (_ & _ & [= <-]). by eapply check_not_saturated.
        * apply hooks_stop in H1 as (? & ? & ? & ? & _ & _ & [=]).
      + by eapply search_not_saturated.
    - by eapply apply_not_saturated. }
  assert (s2 = None) as -> by (destruct s2; [by destruct H3 as (_ & _ & _ & [=])|done]).
  destruct (S2 eq_refl) as [-> Hss]. clear S2.
  destruct can; cbn [andb] in Hsat; [|done].
  destruct (total_size (r_eg r) =? total_size g1) eqn:X1; cbn [andb] in Hsat; [|done]. apply Nat.eqb_eq in X1.
  destruct (number_of_classes (r_eg r) =? number_of_classes g1); cbn [andb] in Hsat; [|done].
  destruct (total_size (r_eg r) =? total_size g4) eqn:X4; cbn [andb] in Hsat; [|done]. apply Nat.eqb_eq in X4. clear Hsat.
  assert (ap = []) as -> by (destruct ap; [done|]; by destruct H5).
  assert (Hi : length (r_iters r) < li_iter li).
  { destruct (check_limits clock li _ _ _) eqn:E0; [by destruct H1 as (_ & _ & [=])|]. by apply check_none in E0 as (_ & _ & ?). }
  pose proof (th_all _ _ _ _ _ _ _ Hsch _ _ _ _ _ _ _ HJ Hi Hss H5) as Hex.
  destruct (apply_chain _ _ _ _ _ _ (fun rw ms Hin => elem_of_zip_l _ _ _ _ Hin) (reachable_np_reachable _ _ _ _ R1) H3) as [T3 Hch].
  assert (Hd : dom (eg_memo g4) ⊆ dom (eg_memo g1)).
  { pose proof (gr_memo _ _ (proj2 (onward_trans L A ex _ _ _ O3 O4))) as Hm.
    intros x Hx. destruct (decide (x ∈ (dom (eg_memo g1) : gset (node Op)))) as [|Hno]; [done|]. exfalso.
    assert (Hlt : base.size (dom (eg_memo g1) : gset (node Op)) < base.size (dom (eg_memo g4) : gset (node Op))) by (apply subset_size; split; [done|]; intros Hs; by apply Hno, Hs).
    rewrite !size_dom in Hlt. unfold total_size in *. lia. }
  intros rw sg c Hrw Hsg Hm. destruct (elem_of_list_lookup_1 _ _ Hrw) as [k Hk].
  destruct (Forall2_lookup_l _ _ _ _ _ Hex Hk) as (ms & Hms & Hx).
  destruct (Hch rw ms) as (h & h' & Th & Eh & Th').
  { apply elem_of_list_lookup. exists k. apply lookup_zip_with_Some. eauto. }
  rewrite Forall_forall in Hr. rewrite Forall_forall in Ha.
  eapply (settle_rule L A Hh ex fuel here Lo it Hit ord Hord g1 g3 g4 n rw w ms h h'); eauto; [apply O4|by apply Hr].
Qed.
Lemma loop_sat rounds r r' : reachable_np L A ex (r_eg r) -> eg_clean (r_eg r) = true -> J (r_st r) -> run_loop rounds r = Ok (Some r') ->
  r_stop r' = Some Saturated -> reachable_np L A ex (r_eg r') /\ eg_clean (r_eg r') = true /\ all_settled (r_eg r').
Proof.
  revert r. induction rounds as [|rounds IH]; intros r R Ec HJ E Hs; cbn [RunnerModel.run_loop] in E; [done|].
  destruct (run_one r) as [[r1 itn]| |] eqn:E1; [|done|done]. cbn [mbind res_bind] in E. apply one_sat in E1 as (R1 & Ec1 & J1 & H1); [|done|done|done].
  destruct (it_stop itn) as [s|]; [injection E as <-; cbn in *; injection Hs as ->; auto|].
  destruct (check_limits _ _ _ _ _) eqn:E2; [injection E as <-; cbn in *; injection Hs as ->; by apply check_not_saturated in E2|].
  by apply IH in E.
Qed.
Lemma run_sat rounds roots g st cl r : reachable_np L A ex g -> J st -> run rounds roots g st cl = Ok (Some r) -> r_stop r = Some Saturated ->
  reachable_np L A ex (r_eg r) /\ eg_clean (r_eg r) = true /\ all_settled (r_eg r).
Proof.
  intros R HJ E Hs. unfold RunnerModel.run in E. destruct (rebuild _ _ _ _ g) as [[g1 n]| |] eqn:E1; [|done|done]. cbn [mbind res_bind] in E.
  destruct (rebuild_step L A (fun _ => True) ex fuel g g1 n) as (_ & _ & Ec); [apply calls_any|by eapply reachable_np_reachable|done|].
  apply (onward_rebuild L A fuel ex) in E1; [|done]. eapply loop_sat; [..|exact E|exact Hs]; cbn; [apply E1|done|done].
Qed.
End run.
