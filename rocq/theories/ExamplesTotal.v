(** Runs, hooks and a scheduler used by the examples in PropertiesTotal.v. *)
From Verif Require Import Base UnionFind EGraphModel EGraphPres EGraphInv Spec EGraphReach Terms RecExprModel RecExprProofs
  ExprModel PatSpec ExprProofs MachineModel MatchSpec RewriteModel AlgSpec RuleSpec RuleProps RunnerModel RunnerSpec BackoffSpec BackoffProofs TotalSpec
  RunTotal Examples ExamplesExpr ExamplesMatch ExamplesRewrite ExamplesRun.

Lemma unitan_free : hook_free unitan.
Proof. done. Qed.
Lemma unitan_climbs : merge_climbs unitan (fun _ _ => False).
Proof. split; [by constructor|]. intros [] [] [] f1 f2 [= <- <-]. by right. Qed.
Lemma comm_usable ex : usable ord0 ex comm.
Proof.
  split.
  - pose proof rules0_built as Hb. unfold rules0 in Hb. apply Forall_cons in Hb as [Hb _]. exact Hb.
  - exact pat_f10_good.
  - vm_compute. reflexivity.
  - intros _ m p Hm. discriminate Hm.
Qed.
Lemma cond_usable ex : usable ord0 ex cond_rule.
Proof.
  split.
  - pose proof rules0_built as Hb. unfold rules0 in Hb. apply Forall_cons in Hb as [_ Hb]. apply Forall_cons in Hb as [Hb _]. exact Hb.
  - split; [split; [exact pat_f01_good|exact pat_f10_good]|exact pat_gf_good].
  - vm_compute. reflexivity.
  - intros _ m p Hm. discriminate Hm.
Qed.
Lemma rules0_usable ex : Forall (usable ord0 ex) rules0.
Proof. constructor; [apply comm_usable|constructor; [apply cond_usable|constructor]]. Qed.

(** A hook that adds f(0,0) and rebuilds. *)
Definition add_hook : hook nat unit unit :=
  Hook (fun _ _ => PAdd (Node 5 [0; 0]) (fun _ => PRebuild (fun _ => PRet))) (fun cl _ _ => (cl, None)).
Lemma add_hook_fine ex : well_behaved natlang unitan ex (rw_g ex) add_hook.
Proof.
  split.
  - intros cl i. cbn. done.
  - intros fuel cl i g g' _ _ E. cbn [hk_body add_hook run_prog] in E.
    destruct (api_add _ _ _ g) as [[g1 j]| |]; [|done|done]. cbn [mbind res_bind] in E.
    unfold rebuild in E. destruct (process_unions _ _ _ _ _ g1) as [[g2 n]| |]; [|done|done]. cbn [mbind res_bind] in E. by injection E as <-.
  - intros cl i. cbn [hk_body add_hook uses_known].
    assert (Hl : 0 < length (eg_uf (rw_g ex))) by (destruct ex; vm_compute; lia).
    split; [|intros; done]. intros c Hc. cbn in Hc. apply elem_of_cons in Hc as [->|Hc]; [exact Hl|]. apply elem_of_list_singleton in Hc as ->. exact Hl.
Qed.

(** ** A run that panics at every width of [usize] *)
(** A rule switched off by the match limit 0 (with a ban length of 1): each iteration bans it
    once more, and [checked_shl] panics once the rule was banned as often as there are bits. *)
Definition off : backoff := rule_match_limit 1 0 (backoff_default 9 1).
Definition off_stats (i u : nat) : backoff := Backoff 9 1 {[1 := RStats 0 u i 0 1]}.
Definition off_g : egraph nat unit := fst_ok (eg_new false) 0 (rebuild natlang unitan 20 (modify_n natlang unitan 20) (rw_g false)).
Lemma off_g_eq : rebuild natlang unitan 20 (modify_n natlang unitan 20) (rw_g false) = Ok (off_g, 0).
Proof. apply fst_ok_eq. vm_compute. reflexivity. Qed.
Lemma eg_ext (g g' : egraph nat unit) : eg_explain g = eg_explain g' -> eg_uf g = eg_uf g' -> eg_nodes g = eg_nodes g' -> eg_memo g = eg_memo g' ->
  eg_pending g = eg_pending g' -> uq_set (eg_apending g) = uq_set (eg_apending g') -> uq_queue (eg_apending g) = uq_queue (eg_apending g') ->
  eg_classes g = eg_classes g' -> eg_by_op g = eg_by_op g' -> eg_clean g = eg_clean g' -> eg_log g = eg_log g' -> g = g'.
Proof. destruct g as [? ? ? ? ? [] ? ? ? ?], g' as [? ? ? ? ? [] ? ? ? ?]. cbn. intros. by subst. Qed.
Global Instance eclass_eq_dec : EqDecision (eclass nat unit).
Proof. solve_decision. Defined.
Definition off_g' : egraph nat unit := fst_ok (eg_new false) 0 (rebuild natlang unitan 20 (modify_n natlang unitan 20) off_g).
Lemma off_g'_eq : rebuild natlang unitan 20 (modify_n natlang unitan 20) off_g = Ok (off_g', 0).
Proof. apply fst_ok_eq. vm_compute. reflexivity. Qed.
Lemma off_same : off_g' = off_g.
Proof.
  apply eg_ext.
  - vm_compute. reflexivity.
  - vm_compute. reflexivity.
  - vm_compute. reflexivity.
  - refine (bool_decide_eq_true_1 _ _). vm_compute. reflexivity.
  - vm_compute. reflexivity.
  - refine (bool_decide_eq_true_1 _ _). vm_compute. reflexivity.
  - vm_compute. reflexivity.
  - refine (bool_decide_eq_true_1 _ _). vm_compute. reflexivity.
  - refine (bool_decide_eq_true_1 _ _). vm_compute. reflexivity.
  - vm_compute. reflexivity.
  - vm_compute. reflexivity.
Qed.
Lemma off_g_again : rebuild natlang unitan 20 (modify_n natlang unitan 20) off_g = Ok (off_g, 0).
Proof. exact (eq_trans off_g'_eq (f_equal (fun x => Ok (x, 0)) off_same)). Qed.
Definition off_ms : list smatch := [SMatch 3 [[(0, 1); (1, 0)]]].
Lemma off_found : searcher_search natlang it0 true (rw_searcher comm) off_g 1 = Ok off_ms.
Proof. vm_compute. reflexivity. Qed.
Lemma off_size : total_size off_g = 6.
Proof. vm_compute. reflexivity. Qed.
Lemma off_start : off = off_stats 0 0.
Proof. vm_compute. reflexivity. Qed.

Section off.
Context (w : nat) (Hw : 2 <= w).
Lemma pow_w : 4 <= 2 ^ w.
Proof. change 4 with (2 ^ 2). apply Nat.pow_le_mono_r; lia. Qed.
Lemma off_search i u : u <= i -> i < w ->
  backoff_search natlang it0 true w true i off_g comm (off_stats i u) = Ok ([], off_stats (S i) (i + 2 ^ i)).
Proof.
  intros Hu Hi. unfold backoff_search. assert (rule_stats (rw_name comm) (off_stats i u) = RStats 0 u i 0 1) as -> by done. cbn [rs_until rs_limit rs_times rs_ban rs_applied].
  rewrite (proj2 (Nat.ltb_ge _ _)) by lia. unfold checked_shl. rewrite (proj2 (Nat.ltb_lt _ _)) by lia. cbn [mbind res_bind].
  assert (shl w 0 i = 0) as ->. { unfold shl. cbn [Nat.mul]. apply Nat.mod_0_l. by apply Nat.pow_nonzero. }
  pose proof pow_w as Hp. assert (umax w `min` (0 + 1) = 1) as -> by (unfold umax; lia).
  unfold rewrite_search. rewrite off_found. cbn [mbind res_bind]. change (n_matches off_ms) with 1.
  rewrite (proj2 (Nat.ltb_lt _ _)) by (unfold umax; lia). cbn [assert mbind res_bind].
  change (0 <? 1) with true. cbn [mbind res_bind]. cbv iota.
  assert (H2 : 2 ^ S i <= 2 ^ w) by (apply Nat.pow_le_mono_r; lia). cbn [Nat.pow] in H2.
  pose proof (Nat.pow_gt_lin_r 2 i ltac:(lia)) as Hl.
  assert (shl w 1 i = 2 ^ i) as ->. { unfold shl. rewrite Nat.mul_1_l. apply Nat.mod_small. lia. }
  unfold uadd. rewrite (proj2 (Nat.leb_le _ _)) by (unfold umax; lia). cbn [mbind res_bind].
  unfold set_stats, off_stats. cbn [bo_limit bo_ban bo_stats]. rewrite insert_singleton. done.
Qed.
Lemma off_stop i : backoff_can_stop i (off_stats (S i) (i + 2 ^ i)) = Ok (false, off_stats (S i) i).
Proof.
  unfold backoff_can_stop, off_stats. cbn [bo_stats bo_limit bo_ban]. rewrite map_to_list_singleton.
  assert (Hp : 0 < 2 ^ i) by (pose proof (Nat.pow_nonzero 2 i); lia).
  cbn [fmap list_fmap snd]. rewrite filter_cons_True by (cbn; lia). cbn [foldr rs_until].
  change (filter _ []) with (@nil rstats). cbn [foldr]. rewrite (proj2 (Nat.leb_le _ _)) by lia. cbn [assert mbind res_bind existsb rs_until].
  replace (i + 2 ^ i - (i + 2 ^ i - i)) with i by lia. rewrite Nat.eqb_refl. cbn [orb assert mbind res_bind].
  rewrite map_fmap_singleton. rewrite decide_True by (cbn; lia). cbn [rs_applied rs_until rs_times rs_limit rs_ban].
  replace (i + 2 ^ i - (i + 2 ^ i - i)) with i by lia. done.
Qed.
Notation off_run := (run natlang unitan (fun _ => 0) (backoff_scheduler natlang it0 true w true) (Limits (S w) 60 90) [comm] 20 9 ([] : list (hook nat unit unit))).
Notation off_loop := (run_loop natlang unitan (fun _ => 0) (backoff_scheduler natlang it0 true w true) (Limits (S w) 60 90) [comm] 20 9 ([] : list (hook nat unit unit))).
Lemma off_check i t : i <= w -> check_limits (fun _ => 0) (Limits (S w) 60 90) i t off_g = None.
Proof.
  intros Hi. unfold check_limits. rewrite off_size. cbn [li_time li_node li_iter]. change (90 <? 0) with false. change (60 <? 6) with false. cbv iota.
  by rewrite (proj2 (Nat.leb_gt _ _)) by lia.
Qed.
Lemma off_loop_panics d : forall i u its t st, w = i + d -> u <= i -> length its = i -> st = off_stats i u ->
  forall rounds, d < rounds -> off_loop rounds (Runner off_g its [] None st () t) = Panic.
Proof.
  induction d as [|d IH]; intros i u its t st Hd Hu Hl -> [|rounds] Hr; try lia; cbn [run_loop]; unfold run_one; cbn [r_stop assert mbind res_bind r_iters r_eg r_tick r_cl r_st];
    rewrite Hl, off_check by lia; cbn [run_hooks mbind res_bind search_rewrites backoff_scheduler sc_search].
  - unfold backoff_search. assert (rule_stats (rw_name comm) (off_stats i u) = RStats 0 u i 0 1) as -> by done. cbn [rs_until rs_limit rs_times rs_ban rs_applied].
    rewrite (proj2 (Nat.ltb_ge _ _)) by lia. unfold checked_shl. rewrite (proj2 (Nat.ltb_ge _ _)) by lia. done.
  - rewrite off_search by lia. cbn [mbind res_bind]. rewrite off_check by lia. cbn [mbind res_bind].
    cbn [zip zip_with apply_rewrites]. change (rewrite_apply natlang unitan 20 9 comm [] off_g) with (Ok (off_g, @nil nat)). cbn [mbind res_bind length Nat.ltb Nat.leb].
    rewrite off_check by lia. cbn [apply_rewrites mbind res_bind]. rewrite off_g_again. cbn [mbind res_bind sc_can_stop]. rewrite off_stop. cbn [mbind res_bind andb it_stop r_iters r_tick r_eg r_roots r_stop r_st r_cl].
    rewrite off_check by (rewrite app_length; cbn; lia).
    apply (IH (S i) i); [lia|lia|rewrite app_length; cbn; lia|done|lia].
Qed.
Lemma off_panics rounds : w < rounds -> off_run rounds [] (rw_g false) off () = Panic.
Proof.
  intros Hr. unfold run. rewrite off_g_eq. cbn [mbind res_bind]. by apply (off_loop_panics w 0 0).
Qed.
End off.

(** A hook that sets the data of the class it is called for: it calls itself for ever. *)
Definition restless : analysis nat unit :=
  Analysis (fun _ _ _ => tt) (fun _ _ _ => tt) (fun _ _ => (tt, (false, false))) (fun id => PSetData id tt PRet).
Lemma restless_climbs : merge_climbs restless (fun _ _ => False).
Proof. split; [by constructor|]. intros [] [] [] f1 f2 [= <- <-]. by right. Qed.
Lemma restless_modify fuel id g g' : modify_n natlang restless fuel id g <> Ok g'.
Proof.
  revert id g g'. induction fuel as [|fuel IH]; intros id g g' E; cbn [modify_n restless an_modify run_prog] in E; [done|].
  unfold set_analysis_data in E. destruct (set_data_core id tt g) as [[g1 r]| |]; [|done|done]. cbn [mbind res_bind] in E.
  destruct (modify_n natlang restless fuel r g1) as [g2| |] eqn:E1; [|done|done]. by apply IH in E1.
Qed.
Lemma restless_session fuel ex g' : session natlang restless fuel ex (PAdd (Node 0 []) (fun _ => PRet)) <> Ok g'.
Proof.
  intros E. unfold session in E. cbn [run_prog] in E. unfold api_add, add_uncanonical in E.
  assert (exists g1, add_core restless (Node 0 []) (eg_new ex) = Ok (g1, 0, Some 0)) as [g1 E1] by (destruct ex; by eexists).
  rewrite E1 in E. cbn [mbind res_bind] in E. destruct (modify_n natlang restless fuel 0 g1) as [g2| |] eqn:E2; [|done|done].
  by apply restless_modify in E2.
Qed.
