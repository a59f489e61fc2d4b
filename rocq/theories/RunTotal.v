(** Runs end: searching, the two schedulers, and the runner. *)
From Verif Require Import Base UnionFind EGraphModel EGraphSteps EGraphInv EGraphPres EGraphRuns Spec EGraphMain EGraphReach EGraphOps EGraphSafe
  EGraphNoPanic EGraphTerm Terms RecExprModel RecExprProofs ExprModel PatSpec ExprProofs ExprSafe MachineModel MatchSpec MatchProofs MachineProofs CompileProofs
  CompileMain SearchProofs SearchMain MultiProofs MatchMain MatchProps RewriteModel RewriteProofs AlgSpec AlgProofs AlgRules RewriteMain RuleSpec
  Completion RuleSafe RuleProps CondProps RunnerModel RunnerSpec RunnerProofs RunnerSound RunnerLimits Still Saturation SaturationRun BackoffSpec BackoffProofs
  CopyProofs TotalProofs TotalSpec.

Lemma okT_and {X} (f : nat -> nat -> res X) (P Q : X -> Prop) : okT f P -> (forall fuel w x, f fuel w = Ok x -> Q x) -> okT f (fun x => P x /\ Q x).
Proof. intros (N & x & Hx & E) Hq. exists N, x. split; [|done]. split; [done|]. exact (Hq N N x (E N N (le_n _) (le_n _))). Qed.

(** * Searching *)
Lemma pairs_cons c ss ms : pairs (SMatch c ss :: ms) = ((fun s => (c, s)) <$> ss) ++ pairs ms.
Proof. done. Qed.
Lemma pairs_class x ms : x ∈ pairs ms -> x.1 ∈ sm_class <$> ms.
Proof.
  unfold pairs. rewrite elem_of_concat. intros (l & Hx & (m & -> & Hm)%elem_of_list_fmap). apply elem_of_list_fmap in Hx as (s & -> & _).
  apply elem_of_list_fmap. by exists m.
Qed.
(** Blocks of equal keys are cut uniquely. *)
Lemma blocks {X Y} (c : X) (ss ss' : list Y) (l l' : list (X * Y)) :
  (forall x, x ∈ l -> x.1 <> c) -> (forall x, x ∈ l' -> x.1 <> c) -> ((fun s => (c, s)) <$> ss) ++ l = ((fun s => (c, s)) <$> ss') ++ l' -> ss = ss' /\ l = l'.
Proof.
  intros Hl Hl'. revert ss'. induction ss as [|s ss IH]; intros [|s' ss'] E; cbn in E.
  - done.
  - subst l. destruct (Hl (c, s')); [left|done].
  - subst l'. destruct (Hl' (c, s)); [left|done].
  - injection E as -> E. by destruct (IH _ E) as [-> ->].
Qed.
Lemma pairs_inj ms ms' : NoDup (sm_class <$> ms) -> NoDup (sm_class <$> ms') -> Forall (fun m => sm_substs m <> []) ms -> Forall (fun m => sm_substs m <> []) ms' ->
  pairs ms = pairs ms' -> ms = ms'.
Proof.
  revert ms'. induction ms as [|[c ss] ms IH]; intros [|[c' ss'] ms'] N N' F F' E.
  - done.
  - apply Forall_cons in F' as [F' _]. cbn in F'. destruct ss'; [done|]. done.
  - apply Forall_cons in F as [F _]. cbn in F. destruct ss; [done|]. done.
  - rewrite !pairs_cons in E. apply Forall_cons in F as [F1 F]. apply Forall_cons in F' as [F1' F']. cbn [fmap list_fmap sm_class sm_substs] in *.
    apply NoDup_cons in N as [N1 N]. apply NoDup_cons in N' as [N1' N'].
    assert (c' = c) as ->. { destruct ss as [|s ss]; [done|]. destruct ss' as [|s' ss']; [done|]. cbn in E. by injection E as -> _ _. }
    apply blocks in E as [-> E]; [|intros x Hx ->%eq_sym; apply N1; by apply pairs_class|intros x Hx ->%eq_sym; apply N1'; by apply pairs_class].
    f_equal. by apply IH.
Qed.
Lemma n_pairs ms : n_matches ms = length (pairs ms).
Proof.
  unfold n_matches. induction ms as [|[c ss] ms IH]; [done|]. rewrite pairs_cons, app_length, fmap_length, <- IH. done.
Qed.

Lemma grow_pow n w : n < w -> n < 2 ^ w - 1.
Proof. intros Hn. pose proof (Nat.pow_gt_lin_r 2 (S n) ltac:(lia)). assert (2 ^ S n <= 2 ^ w) by (apply Nat.pow_le_mono_r; lia). lia. Qed.

Section search.
Context {Op D : Type} `{Countable Op} (L : lang Op) (A : analysis Op D) (Lo : lang_ok L).
Context (it : gset nat -> list nat) (Hit : enumerates it) (cycles : bool) (ord : gmap (nat * nat) (node Op) -> list (nat * nat)) (Hord : enumerates_keys ord) (ex : bool).
Notation egraph := (egraph Op D).
Notation rewrite := (rewrite Op D).
Implicit Types (g : egraph) (rw : rewrite).

Lemma search_list g (s : searcher (Op := Op)) : reachable_np L A ex g -> eg_clean g = true -> searcher_built ord s ->
  exists all, forall k, exists ms, searcher_search L it cycles s g k = Ok ms /\ pairs ms = take k all /\
    NoDup (sm_class <$> ms) /\ Forall (fun m => sm_substs m <> []) ms.
Proof.
  intros R Ec Hb. destruct s as [p|m]; cbn [searcher_built searcher_search] in *.
  - destruct Hb as (fuel & ast & Hg & Hr & Hn). destruct Hg as (Hd & Hok & Hne).
    destruct (pattern_new_ast ord fuel ast p Hd Hok Hne Hn) as (Hd' & Hok' & Hne' & _ & _).
    destruct (good_ast_tree (pt_ast p) (conj Hd' (conj Hok' Hne'))) as [_ [t Ht]].
    destruct (pattern_search ord Hord L Lo it Hit g (reach_settled L A Lo ex g R Ec) cycles fuel ast p t Ec (reach_indexed L A ex g R Ec) Hd Hok Hne Hn Ht)
      as (all & Hk & _). by exists all.
  - destruct Hb as (fuel & v1 & p1 & ps & Hg & Ho & Hn).
    assert (Hg' : Forall (fun cl => good_ast cl.2) ((v1, p1) :: ps)) by (eapply Forall_impl; [exact Hg|]; by intros ? [? _]).
    destruct (multi_search_main L A it ord ex g fuel v1 p1 ps m cycles Lo Hit Hord R Ec Hg' Ho Hn) as (all & Hk & _). by exists all.
Qed.
(** Beyond some limit the answer stays the same. *)
Lemma search_stable g (s : searcher (Op := Op)) : reachable_np L A ex g -> eg_clean g = true -> searcher_built ord s ->
  exists N ms, forall k, N <= k -> searcher_search L it cycles s g k = Ok ms.
Proof.
  intros R Ec Hb. destruct (search_list g s R Ec Hb) as (all & Hk). destruct (Hk (length all)) as (ms & E & Hp & Hc & Hf). exists (length all), ms.
  intros k Hle. destruct (Hk k) as (ms' & E' & Hp' & Hc' & Hf'). rewrite E'. f_equal. apply pairs_inj; auto.
  rewrite Hp, Hp'. rewrite !take_ge by lia. done.
Qed.
Lemma limited_stable g rw k : reachable_np L A ex g -> eg_clean g = true -> searcher_built ord (rw_searcher rw) ->
  exists W ms, searcher_search L it cycles (rw_searcher rw) g k = Ok ms /\ forall w, W <= w -> rewrite_search L it cycles w g rw k = Ok ms.
Proof.
  intros R Ec Hb. destruct (search_list g _ R Ec Hb) as (all & Hk). destruct (Hk k) as (ms & E & _). exists (S (n_matches ms)), ms. split; [done|].
  intros w Hw. unfold rewrite_search. rewrite E. cbn [mbind res_bind]. unfold umax. rewrite (proj2 (Nat.ltb_lt _ _)) by (apply grow_pow; lia). done.
Qed.
Lemma unlimited_stable g rw : reachable_np L A ex g -> eg_clean g = true -> searcher_built ord (rw_searcher rw) ->
  exists W ms k, searcher_search L it cycles (rw_searcher rw) g k = Ok ms /\ forall w, W <= w -> rewrite_search L it cycles w g rw (umax w) = Ok ms.
Proof.
  intros R Ec Hb. destruct (search_stable g _ R Ec Hb) as (N & ms & E). exists (S (n_matches ms) + S N), ms, N. split; [by apply E|].
  intros w Hw. unfold rewrite_search. rewrite E by (unfold umax; pose proof (grow_pow N w); lia). cbn [mbind res_bind].
  rewrite (proj2 (Nat.ltb_lt _ _)) by (apply grow_pow; lia). done.
Qed.

Lemma simple_dependable : dependable L A it cycles ord ex (simple_scheduler L it cycles) (fun _ => True).
Proof.
  split.
  - intros i g rw st _ R Ec Hb. destruct (unlimited_stable g rw R Ec Hb) as (W & ms & k & E & Hw). exists W, ms, st. split; [done|]. split.
    + intros w Hle. cbn [simple_scheduler sc_search]. by rewrite Hw.
    + intros m s Hm Hs. by exists k, ms, m.
  - intros i st _. exists 0, true, st. done.
Qed.
Lemma shl_large w x k : x * 2 ^ k < w -> shl w x k = x * 2 ^ k.
Proof. intros Hw. unfold shl. apply Nat.mod_small. pose proof (grow_pow (x * 2 ^ k) w). lia. Qed.
Lemma backoff_dependable debug : dependable L A it cycles ord ex (fun w => backoff_scheduler L it cycles w debug) (fun _ => True).
Proof.
  split.
  - intros i g rw b _ R Ec Hb. set (s := rule_stats (rw_name rw) b). set (th := rs_limit s * 2 ^ rs_times s).
    destruct (decide (i < rs_until s)) as [Hi|Hi].
    { exists 0, [], (set_stats (rw_name rw) s b). split; [done|]. split; [|intros m st Hm; by apply elem_of_nil in Hm].
      intros w _. cbn [backoff_scheduler sc_search]. unfold backoff_search. cbn zeta. fold s. by rewrite (proj2 (Nat.ltb_lt _ _)). }
    destruct (limited_stable g rw (th + 1) R Ec Hb) as (W & ms & E & Hw).
    assert (Hst : forall w, W + th + rs_times s + 2 <= w -> checked_shl w (rs_limit s) (rs_times s) = Ok th /\
      rewrite_search L it cycles w g rw (umax w `min` (th + 1)) = Ok ms).
    { intros w Hle. split.
      - unfold checked_shl. rewrite (proj2 (Nat.ltb_lt _ _)) by lia. rewrite shl_large by (fold th; lia). done.
      - rewrite Nat.min_r by (unfold umax; pose proof (grow_pow (th + 1) w); lia). apply Hw. lia. }
    destruct (decide (th < n_matches ms)) as [Hn|Hn].
    + set (u := i + rs_ban s * 2 ^ rs_times s). exists (W + th + rs_times s + u + 2), [], (set_stats (rw_name rw) (RStats (rs_applied s) u (S (rs_times s)) (rs_limit s) (rs_ban s)) b).
      split; [done|]. split; [|intros m st Hm; by apply elem_of_nil in Hm].
      intros w Hle. destruct (Hst w) as [E1 E2]; [lia|]. cbn [backoff_scheduler sc_search]. unfold backoff_search. cbn zeta. fold s.
      rewrite (proj2 (Nat.ltb_ge _ _)) by lia. rewrite E1. cbn [mbind res_bind]. rewrite E2. cbn [mbind res_bind].
      rewrite (proj2 (Nat.ltb_lt _ _)) by done. unfold uadd. rewrite shl_large by (unfold u in *; lia). fold u.
      rewrite (proj2 (Nat.leb_le _ _)) by (unfold umax; pose proof (grow_pow u w); lia). done.
    + exists (W + th + rs_times s + 2), ms, (set_stats (rw_name rw) (RStats (S (rs_applied s)) (rs_until s) (rs_times s) (rs_limit s) (rs_ban s)) b).
      split; [done|]. split; [|intros m st Hm Hs; by exists (th + 1), ms, m].
      intros w Hle. destruct (Hst w) as [E1 E2]; [lia|]. cbn [backoff_scheduler sc_search]. unfold backoff_search. cbn zeta. fold s.
      rewrite (proj2 (Nat.ltb_ge _ _)) by lia. rewrite E1. cbn [mbind res_bind]. rewrite E2. cbn [mbind res_bind].
      rewrite (proj2 (Nat.ltb_ge _ _)) by lia. done.
  - intros i b _. destruct (stop_ok i b) as (r & b' & E). exists 0, r, b'. done.
Qed.
End search.

(** * The runner *)
Section run.
Context {Op D : Type} `{Countable Op} (L : lang Op) (A : analysis Op D) (Hh : hook_free A) (Rd : D -> D -> Prop) (Hcl : merge_climbs A Rd) (Lo : lang_ok L).
Context (it : gset nat -> list nat) (Hit : enumerates it) (cycles : bool) (ord : gmap (nat * nat) (node Op) -> list (nat * nat)) (Hord : enumerates_keys ord) (ex : bool).
Notation egraph := (egraph Op D).
Notation rewrite := (rewrite Op D).
Implicit Types (g : egraph) (rw : rewrite).
Context (clock : nat -> nat) {St Cl : Type} (sch : nat -> scheduler Op D St) (J : St -> Prop) (Hsch : dependable L A it cycles ord ex sch J).
Context (li : limits) (rules : list rewrite) (here : nat) (hooks : list (hook Op D Cl)) (g0 : egraph).
Context (Hr : Forall (usable ord ex) rules) (Hk : Forall (well_behaved L A ex g0) hooks).
Notation next := (next L A).
Notation idn := (fun g => length (eg_uf g)).

Lemma np_good g : reachable_np L A ex g -> good g.
Proof. intros R. by eapply reachable_good, reachable_np_reachable. Qed.
Lemma rules_built : Forall (rule_built ord) rules.
Proof. eapply Forall_impl; [exact Hr|]. by intros rw []. Qed.
Lemma hooks_np : Forall hook_np hooks.
Proof. eapply Forall_impl; [exact Hk|]. by intros h []. Qed.

(** Matches the rule can be applied to, in any e-graph with at least [N] ids. *)
Definition fits (N : nat) (rw : rewrite) (ms : list smatch) : Prop :=
  forall c s, (c, s) ∈ pairs ms -> match_ids N (applier_vars (rw_applier rw) ++ sast_vars (searcher_ast (rw_searcher rw))) c s.
Lemma pairs_elem c s ms : (c, s) ∈ pairs ms <-> exists m, m ∈ ms /\ sm_class m = c /\ s ∈ sm_substs m.
Proof.
  unfold pairs. rewrite elem_of_concat. split.
  - intros (l & Hx & (m & -> & Hm)%elem_of_list_fmap). apply elem_of_list_fmap in Hx as (s' & [= -> ->] & Hs). eauto.
  - intros (m & Hm & <- & Hs). eexists. split; [|apply elem_of_list_fmap; eauto]. apply elem_of_list_fmap. eauto.
Qed.
Lemma search_T g rs i t st : reachable_np L A ex g -> eg_clean g = true -> (forall rw, rw ∈ rs -> rw ∈ rules) -> J st ->
  okT (fun _ w => search_rewrites clock (sch w) li rs i t st g)
    (fun '(mss, st', _, _) => J st' /\ forall rw ms, (rw, ms) ∈ zip rs mss -> rw ∈ rules /\ fits (idn g) rw ms).
Proof.
  intros R Ec. revert t st. induction rs as [|rw rs IH]; intros t st Hsub HJ; cbn [search_rewrites].
  { apply okT_ret. split; [done|]. intros rw ms Hx. by apply elem_of_nil in Hx. }
  assert (Hin : rw ∈ rules) by (apply Hsub; left). pose proof (proj1 (Forall_forall _ _) Hr rw Hin) as Hrw0. destruct Hrw0 as [Hb Hf Hn Hx].
  destruct (dp_search _ _ _ _ _ _ _ _ Hsch i g rw st HJ R Ec (proj1 Hb)) as (W & ms & st' & HJ' & Hw & Hm).
  assert (Hfit : fits (idn g) rw ms).
  { intros c s (m & Hin' & <- & Hs)%pairs_elem. destruct (Hm m s Hin' Hs) as (k & ms0 & m0 & Es & Hm0 & Ec0 & Hs0).
    apply rewrite_new_some in Hn as [_ Hsub'].
    destruct (found_facts L A Lo it Hit ord Hord ex g R Ec (rw_searcher rw) cycles k ms0 (sm_class m) s (proj1 Hb) Es) as (H1 & H2 & H3 & H4 & H5).
    { apply pairs_elem. eauto. }
    split; [exact H1|]. split; [by intros; eapply H3|].
    intros v [Hv|Hv]%elem_of_app; apply H4.
    + apply Hsub'. by apply applier_vars_needs.
    + apply searcher_vars_provides. unfold sast_vars in Hv. destruct (rw_searcher rw) as [q|m']; cbn in *; [by apply elem_of_list_to_set|by apply elem_of_nil in Hv]. }
  eapply (okT_bind _ _ (fun x => x = (ms, st'))).
  { exists W, (ms, st'). split; [done|]. intros _ w _ Hle. by apply Hw. }
  intros x ->. destruct (check_limits clock li i t g) as [s|].
  { apply okT_ret. split; [done|]. intros rw' ms' Hz. by apply elem_of_nil in Hz. }
  eapply okT_bind; [apply IH; [intros; apply Hsub; by right|done]|]. intros [[[mss st2] t2] s2] [HJ2 Hz]. apply okT_ret. split; [done|].
  intros rw' ms' [[= -> ->]|Hz']%elem_of_cons; [done|auto].
Qed.
Lemma rule_T rw ms g : rw ∈ rules -> reachable_np L A ex g -> fits (idn g) rw ms ->
  okT (fun fuel _ => rewrite_apply L A fuel here rw ms g) (fun '(g', _) => next g g' /\ reachable_np L A ex g').
Proof.
  intros Hin R Hfit. pose proof (proj1 (Forall_forall _ _) Hr rw Hin) as Hrw0. destruct Hrw0 as [Hb Hf Hn Hx].
  eapply okT_impl; [apply (okT_and _ (fun '(g', _) => next g g') (fun '(g', _) => reachable_np L A ex g'))|by intros [g' ids]].
  - apply (apply_matches_T L A Hh Rd Hcl here); [| | |by apply np_good|done].
    + intros ast Hs. destruct (built_sast ord (rw_searcher rw) ast (proj1 Hb) Hs) as (? & ? & ?). by split.
    + by apply fine_safe.
    + intros Hex p Hp. unfold explaining in Hex. rewrite (reach_explain L A ex g (reachable_np_reachable _ _ _ _ R)) in Hex.
      destruct (rw_searcher rw) as [q|m] eqn:Es; [by eexists|]. by destruct (Hx Hex m p eq_refl).
  - intros fuel _ [g' ids] E. by apply (onward_rule L A rules fuel here ord ex rules_built rw ms g g' ids).
Qed.
Lemma apply_all_T rms i t ap g : (forall rw ms, (rw, ms) ∈ rms -> rw ∈ rules /\ fits (idn g) rw ms) -> reachable_np L A ex g ->
  okT (fun fuel _ => apply_rewrites L A clock li fuel here rms i t ap g) (fun '(g', _, _, _) => next g g' /\ reachable_np L A ex g').
Proof.
  revert t ap g. induction rms as [|[rw ms] rms IH]; intros t ap g Hin R; cbn [apply_rewrites].
  { apply okT_ret. split; [|done]. by apply next_refl, np_good. }
  destruct (Hin rw ms) as [Hrw Hf]; [left|].
  eapply okT_bind; [by apply rule_T|]. intros [g1 ids] [N1 R1]. destruct (check_limits clock li i t g1); [by apply okT_ret|].
  eapply okT_impl; [apply IH; [|done]|].
  - intros rw' ms' Hx. destruct (Hin rw' ms') as [Hrw' Hf']; [by right|]. split; [done|]. intros c s Hp.
    eapply ready_mono; [|intros v Hv; exact Hv|by apply Hf']. exact (next_size L A g g1 (np_good g R) N1).
  - intros [[[g2 a2] t2] s2] [N2 R2]. split; [|done]. by eapply next_trans.
Qed.
Lemma hooks_T hs i cl g : (forall h, h ∈ hs -> h ∈ hooks) -> reachable_np L A ex g -> eg_clean g = true -> idn g0 <= idn g ->
  okT (fun fuel _ => run_hooks L A fuel hs i cl g) (fun '(g', _, _) => next g g' /\ reachable_np L A ex g' /\ eg_clean g' = true).
Proof.
  revert cl g. induction hs as [|h hs IH]; intros cl g Hsub R Ec Hle; cbn [run_hooks].
  { apply okT_ret. split; [|done]. by apply next_refl, np_good. }
  assert (Hin : h ∈ hooks) by (apply Hsub; left). pose proof Hk as Hk'. rewrite Forall_forall in Hk'. destruct (Hk' h Hin) as [Hnp Ht Hi].
  eapply (okT_bind _ _ (fun g' => next g g' /\ reachable_np L A ex g' /\ eg_clean g' = true)).
  - apply okT_and.
    + apply (prog_T L A Hh Rd Hcl); [by apply np_good|]. eapply uses_known_mono; [exact Hle|apply Hi].
    + intros fuel _ g1 E. split; [by apply (onward_hook L A fuel hooks ex hooks_np h cl i g g1)|by eapply Ht].
  - intros g1 (N1 & R1 & C1). destruct (hk_out h cl i g1) as [cl1 [m|]]; [by apply okT_ret|].
    eapply okT_impl; [apply IH; [intros; apply Hsub; by right|done|done|]|].
    + pose proof (next_size L A g g1 (np_good g R) N1) as Hs. unfold EGraphNoPanic.size in Hs. lia.
    + intros [[g2 cl2] s2] (N2 & R2 & C2). split; [|done]. by eapply next_trans.
Qed.
Lemma rebuilt_T g : reachable_np L A ex g ->
  okT (fun fuel _ => rebuild L A fuel (modify_n L A fuel) g) (fun '(g', _) => next g g' /\ reachable_np L A ex g' /\ eg_clean g' = true).
Proof.
  intros R. eapply okT_impl; [apply (okT_and _ (fun '(g', _) => next g g') (fun '(g', _) => reachable_np L A ex g' /\ eg_clean g' = true))|by intros [g' n]].
  - apply (rebuild_T L A Hh Rd Hcl). by apply np_good.
  - intros fuel _ [g' n] E. split; [by apply (onward_rebuild L A fuel ex g g' n)|].
    destruct R as [_ R]. by destruct (rebuild_step L A no_prune ex fuel g g' n calls_np R E) as (_ & _ & ?).
Qed.

(** The states between iterations. *)
Record waiting (r : runner Op D St Cl) : Prop := {
  wt_np : reachable_np L A ex (r_eg r); wt_clean : eg_clean (r_eg r) = true; wt_ids : idn g0 <= idn (r_eg r); wt_J : J (r_st r); wt_stop : r_stop r = None }.
Lemma one_T r : waiting r ->
  okT (fun fuel w => run_one L A clock (sch w) li rules fuel here hooks r) (fun '(r', _) => waiting r').
Proof.
  intros [R Ec Hle HJ Es]. unfold run_one. rewrite Es. cbn [assert mbind res_bind].
  eapply (okT_bind _ _ (fun '(g1, _, _) => next (r_eg r) g1 /\ reachable_np L A ex g1 /\ eg_clean g1 = true)).
  { destruct (check_limits _ _ _ _ _); [|by apply hooks_T]. apply okT_ret. split; [|done]. by apply next_refl, np_good. }
  intros [[g1 cl] s1] (N1 & R1 & C1).
  eapply (okT_bind _ _ (fun '(mss, st', _, _) => J st' /\ forall rw ms, (rw, ms) ∈ zip rules mss -> rw ∈ rules /\ fits (idn g1) rw ms)).
  { destruct s1; [|by apply search_T]. apply okT_ret. split; [done|]. intros rw ms Hz. destruct rules; by apply elem_of_nil in Hz. }
  intros [[[mss st] t2] s2] [HJ2 Hz].
  eapply (okT_bind _ _ (fun '(g', _, _, _) => next g1 g' /\ reachable_np L A ex g')).
  { destruct s2; [|by apply apply_all_T]. apply okT_ret. split; [|done]. by apply next_refl, np_good. }
  intros [[[g3 ap] t3] s3] [N3 R3].
  eapply okT_bind; [by apply rebuilt_T|]. intros [g4 n] (N4 & R4 & C4).
  eapply (okT_bind _ _ (fun '(_, st') => J st')).
  { destruct ap; [|by apply okT_ret]. destruct (dp_stop _ _ _ _ _ _ _ _ Hsch (length (r_iters r)) st HJ2) as (W & b & st' & HJ' & Hw).
    exists W, (b, st'). split; [done|]. intros _ w _ Hw'. by apply Hw. }
  intros [can st3] HJ3. apply okT_ret. split; cbn; auto.
  pose proof (next_size L A _ _ (np_good _ R) N1). pose proof (next_size L A _ _ (np_good _ R1) N3). pose proof (next_size L A _ _ (np_good _ R3) N4).
  unfold EGraphNoPanic.size in *. lia.
Qed.
Lemma loop_T rounds r : waiting r -> okT (fun fuel w => run_loop L A clock (sch w) li rules fuel here hooks rounds r) (fun _ => True).
Proof.
  revert r. induction rounds as [|rounds IH]; intros r Hw; cbn [run_loop]; [by apply okT_ret|].
  eapply okT_bind; [by apply one_T|]. intros [r1 itn] [R Ec Hle HJ Es]. destruct (it_stop itn); [by apply okT_ret|].
  destruct (check_limits _ _ _ _ _); [by apply okT_ret|]. apply IH. by split.
Qed.
Lemma loop_more fuel w k rounds r r' : run_loop L A clock (sch w) li rules fuel here hooks rounds r = Ok (Some r') ->
  run_loop L A clock (sch w) li rules fuel here hooks (rounds + k) r = Ok (Some r').
Proof.
  revert r. induction rounds as [|rounds IH]; intros r E; cbn [run_loop Nat.add] in *; [done|].
  destruct (run_one _ _ _ _ _ _ _ _ _ r) as [[r1 itn]| |]; [|done|done]. cbn [mbind res_bind] in *. destruct (it_stop itn); [done|].
  destruct (check_limits _ _ _ _ _); [done|]. by apply IH.
Qed.
Lemma within_mono (Q Q' : prog Op D -> Prop) (a : applier Op D) : (forall p : prog Op D, Q p -> Q' p) -> applier_within Q a -> applier_within Q' a.
Proof.
  intros HQ. induction a as [p|asts|c a IH|vars body ret]; cbn; auto. intros [Hc Ha]. split; [|auto]. destruct c; cbn in *; auto.
Qed.
Lemma rules_shaped : Forall rule_shaped rules.
Proof.
  eapply Forall_impl; [exact Hr|]. intros rw [[Hb Ha] _ _ _]. split; [intros ast; by apply (built_sast ord)|]. by eapply within_mono; [|exact Ha].
Qed.
Lemma run_total roots st cl : reachable_np L A ex g0 -> J st ->
  exists N r, ended clock li hooks r /\
    forall fuel w rounds, N <= fuel -> N <= w -> 1 `max` li_iter li <= rounds ->
      run L A clock (sch w) li rules fuel here hooks rounds roots g0 st cl = Ok (Some r).
Proof.
  intros R HJ. set (n := 1 `max` li_iter li).
  assert (T : okT (fun fuel w => run L A clock (sch w) li rules fuel here hooks n roots g0 st cl) (fun _ => True)).
  { unfold run. eapply okT_bind; [by apply rebuilt_T|]. intros [g1 k] (N1 & R1 & C1). apply loop_T. split; cbn; auto.
    exact (next_size L A _ _ (np_good _ R) N1). }
  destruct T as (N & x & _ & E).
  pose proof (run_ended L A clock (sch N) li rules N here hooks ex rules_shaped n roots g0 st cl x (reachable_np_reachable _ _ _ _ R) (E N N (le_n _) (le_n _))) as He.
  destruct x as [r|]; [|unfold n in He; lia]. exists N, r. split; [done|]. intros fuel w rounds Hf Hw Hn. specialize (E fuel w Hf Hw).
  unfold run in *. destruct (rebuild _ _ _ _ g0) as [[g1 k]| |]; [|done|done]. cbn [mbind res_bind] in *.
  replace rounds with (n + (rounds - n)) by (unfold n in *; lia). by apply loop_more.
Qed.
End run.
