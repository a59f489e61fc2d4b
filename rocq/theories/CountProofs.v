(** Settings of the backoff scheduler, and counts of applications. *)
From Verif Require Import Base UnionFind EGraphModel MachineModel RewriteModel RunnerModel RunnerSpec RunnerProofs BackoffSpec BackoffProofs CountSpec.

Section settings.
Context (w limit ban : nat).
Notation conf := (configure w limit ban).
Lemma conf_snoc ss s : conf (ss ++ [s]) = set_one w (conf ss) s.
Proof. unfold configure. by rewrite foldl_app. Qed.

Lemma stats_one b s name : names s = Some name ->
  rs_applied (rule_stats name (set_one w b s)) = rs_applied (rule_stats name b) /\
  rs_until (rule_stats name (set_one w b s)) = rs_until (rule_stats name b) /\
  rs_times (rule_stats name (set_one w b s)) = rs_times (rule_stats name b).
Proof. destruct s; intros [= <-]; cbn; unfold do_not_ban, rule_match_limit, rule_ban_length; rewrite stats_set, decide_True; done. Qed.
Lemma stats_other b s name : names s <> Some name ->
  (bo_stats (set_one w b s) !! name) = bo_stats b !! name.
Proof.
  destruct s; cbn; try done; intros Hn; unfold do_not_ban, rule_match_limit, rule_ban_length, set_stats; cbn;
    (rewrite lookup_insert_ne; [done|]); congruence.
Qed.
Lemma conf_fresh ss name : let s := rule_stats name (conf ss) in rs_applied s = 0 /\ rs_until s = 0 /\ rs_times s = 0.
Proof.
  induction ss as [|s ss IH] using rev_ind; [done|]. rewrite conf_snoc. cbn zeta in *.
  destruct (decide (names s = Some name)) as [E|E].
  - destruct (stats_one (conf ss) s name E) as (-> & -> & ->). done.
  - pose proof (stats_other (conf ss) s name E) as El. unfold rule_stats in *. rewrite El. destruct (bo_stats (conf ss) !! name); done.
Qed.
Lemma conf_named ss name s : s ∈ ss -> names s = Some name -> is_Some (bo_stats (conf ss) !! name).
Proof.
  induction ss as [|s' ss IH] using rev_ind; intros Hs Hn; [by apply elem_of_nil in Hs|]. rewrite conf_snoc.
  destruct (decide (names s' = Some name)) as [E|E].
  - destruct s'; cbn in E; simplify_eq; cbn; unfold do_not_ban, rule_match_limit, rule_ban_length, set_stats; cbn; rewrite lookup_insert; eauto.
  - rewrite stats_other by done. apply IH; [|done]. apply elem_of_app in Hs as [Hs| ->%elem_of_list_singleton]; [done|congruence].
Qed.
Lemma conf_limit pre post name s k : names s = Some name ->
  match s with SLimit _ k' => k = k' | SNoBan _ => k = umax w | _ => False end ->
  Forall (fun s => ~ limits_rule name s) post -> rs_limit (rule_stats name (conf (pre ++ s :: post))) = k.
Proof.
  intros Hn Hs. induction post as [|s' post IH] using rev_ind; intros Hp.
  - rewrite conf_snoc. destruct s; cbn in *; try done; injection Hn as ->; unfold do_not_ban, rule_match_limit;
      rewrite stats_set, decide_True by done; cbn; by symmetry.
  - apply Forall_app in Hp as [Hp Hs']. rewrite Forall_singleton in Hs'. specialize (IH Hp).
    rewrite app_comm_cons, app_assoc, conf_snoc. etrans; [|exact IH].
    destruct (conf_named (pre ++ s :: post) name s) as [st Hst]; [set_solver|done|].
    destruct (decide (names s' = Some name)) as [E|E].
    + destruct s'; cbn in E; simplify_eq; try (by destruct (Hs' eq_refl)). { cbn [set_one]. unfold rule_ban_length. by rewrite stats_set, decide_True. }
    + unfold rule_stats. rewrite stats_other by done. by rewrite Hst.
Qed.
Lemma conf_ban pre post name k :
  Forall (fun s => ~ bans_rule name s) post -> rs_ban (rule_stats name (conf (pre ++ SBan name k :: post))) = k.
Proof.
  induction post as [|s' post IH] using rev_ind; intros Hp.
  - rewrite conf_snoc. cbn. unfold rule_ban_length. by rewrite stats_set, decide_True.
  - apply Forall_app in Hp as [Hp Hs']. rewrite Forall_singleton in Hs'. specialize (IH Hp).
    rewrite app_comm_cons, app_assoc, conf_snoc. etrans; [|exact IH].
    destruct (conf_named (pre ++ SBan name k :: post) name (SBan name k)) as [st Hst]; [set_solver|done|].
    destruct (decide (names s' = Some name)) as [E|E].
    + destruct s' as [| |n q|n q|n]; cbn in E; simplify_eq; cbn [bans_rule] in Hs'; [| |]; cbn [set_one].
      1,3: unfold do_not_ban, rule_match_limit; rewrite stats_set, decide_True; done.
      by destruct Hs'.
    + unfold rule_stats. rewrite stats_other by done. by rewrite Hst.
Qed.
Lemma conf_unnamed ss name : Forall (fun s => names s <> Some name) ss -> bo_stats (conf ss) !! name = None.
Proof.
  induction ss as [|s ss IH] using rev_ind; intros Hs; [by apply lookup_empty|]. apply Forall_app in Hs as [Hp Hs]. rewrite Forall_singleton in Hs.
  rewrite conf_snoc, stats_other by done. auto.
Qed.
Lemma conf_default_limit pre post name k : Forall (fun s => names s <> Some name) (pre ++ SDefaultLimit k :: post) ->
  Forall (fun s => match s with SDefaultLimit _ => False | _ => True end) post ->
  rs_limit (rule_stats name (conf (pre ++ SDefaultLimit k :: post))) = k.
Proof.
  intros Hn Hp. unfold rule_stats. rewrite conf_unnamed by done. cbn. clear Hn.
  induction post as [|s post IH] using rev_ind; [by rewrite conf_snoc|]. apply Forall_app in Hp as [Hp Hs]. rewrite Forall_singleton in Hs.
  rewrite app_comm_cons, app_assoc, conf_snoc. etrans; [|exact (IH Hp)]. by destruct s.
Qed.
Lemma conf_default_ban pre post name k : Forall (fun s => names s <> Some name) (pre ++ SDefaultBan k :: post) ->
  Forall (fun s => match s with SDefaultBan _ => False | _ => True end) post ->
  rs_ban (rule_stats name (conf (pre ++ SDefaultBan k :: post))) = k.
Proof.
  intros Hn Hp. unfold rule_stats. rewrite conf_unnamed by done. cbn. clear Hn.
  induction post as [|s post IH] using rev_ind; [by rewrite conf_snoc|]. apply Forall_app in Hp as [Hp Hs]. rewrite Forall_singleton in Hs.
  rewrite app_comm_cons, app_assoc, conf_snoc. etrans; [|exact (IH Hp)]. by destruct s.
Qed.
End settings.

Section unbanned.
Context {Op D : Type} `{Countable Op} (L : lang Op) (it : gset nat -> list nat) (cycles : bool) (w : nat) (debug : bool).
Notation egraph := (egraph Op D).
Definition unbannable (b : backoff) (name : nat) : Prop :=
  let s := rule_stats name b in rs_limit s = umax w /\ rs_until s = 0 /\ rs_times s = 0.
Lemma umax_shl : shl w (umax w) 0 = umax w.
Proof. unfold shl, umax. rewrite Nat.pow_0_r, Nat.mul_1_r. apply Nat.mod_small. pose proof (Nat.pow_nonzero 2 w). lia. Qed.
Lemma unbannable_search b name i (g : egraph) rw ms b' : unbannable b name -> backoff_search L it cycles w debug i g rw b = Ok (ms, b') ->
  unbannable b' name /\ (rw_name rw = name -> rewrite_search L it cycles w g rw (umax w) = Ok ms).
Proof.
  intros (Hl & Hu & Ht) E. destruct (decide (rw_name rw = name)) as [En|En].
  - apply bsearch_cases in E. rewrite En, Hl, Hu, Ht, umax_shl in E. replace (umax w `min` (umax w + 1)) with (umax w) in E by lia.
    destruct E as [(? & _)|(_ & _ & ms0 & E & [(Hn & _)|(_ & -> & ->)])]; [lia| |].
    + exfalso. unfold rewrite_search in E. destruct (searcher_search _ _ _ _ _ _) as [ms1| |]; try done. cbn [mbind res_bind] in E.
      destruct (n_matches ms1 <? umax w) eqn:El; [|done]. cbn in E. injection E as <-. apply Nat.ltb_lt in El. lia.
    + split; [|done]. unfold unbannable. by rewrite stats_set, decide_True.
  - split; [|done]. apply bsearch_cases in E. unfold unbannable.
    destruct E as [(_ & _ & ->)|(_ & _ & ms0 & _ & [(_ & _ & u & _ & ->)|(_ & _ & ->)])]; by rewrite stats_set, decide_False.
Qed.
Lemma unbannable_stop b name i r b' : unbannable b name -> backoff_can_stop i b = Ok (r, b') -> unbannable b' name.
Proof.
  intros (Hl & Hu & Ht) E. apply stop_cases in E as [(_ & _ & ->)|(m & _ & _ & _ & _ & _ & _ & Es)]; [done|].
  unfold unbannable. rewrite Es. cbn zeta. rewrite Hu, decide_False by lia. done.
Qed.
Lemma unbannable_used b b' name : used (D := D) L it cycles w debug b b' -> unbannable b name -> unbannable b' name.
Proof.
  induction 1 as [b|b i g rw ms b1 b2 E U IH|b i r b1 b2 E U IH]; intros Hb; [done| |].
  - apply IH. exact (proj1 (unbannable_search _ _ _ _ _ _ _ Hb E)).
  - apply IH. exact (unbannable_stop _ _ _ _ _ Hb E).
Qed.
Lemma do_not_ban_main limit ban pre post name b' i :
  Forall (fun s => ~ limits_rule name s) post -> used (D := D) L it cycles w debug (configure w limit ban (pre ++ SNoBan name :: post)) b' ->
  ~ banned b' name i /\
  forall (g : egraph) rw ms b'', rw_name rw = name -> backoff_search L it cycles w debug i g rw b' = Ok (ms, b'') -> rewrite_search L it cycles w g rw (umax w) = Ok ms.
Proof.
  intros Hp U. assert (Hb : unbannable (configure w limit ban (pre ++ SNoBan name :: post)) name).
  { destruct (conf_fresh w limit ban (pre ++ SNoBan name :: post) name) as (_ & Hu & Ht). split_and!; [|done|done]. by apply conf_limit. }
  apply (unbannable_used _ _ _ U) in Hb. split.
  - rewrite banned_stats. destruct Hb as (_ & -> & _). lia.
  - intros g rw ms b'' En E. by eapply unbannable_search.
Qed.
End unbanned.

(** * Counts *)
Lemma bump_keys name k ap n : n ∈ (bump name k ap).*1 <-> n = name \/ n ∈ ap.*1.
Proof.
  induction ap as [|[m c] ap IH]; cbn; [set_solver|]. case_decide as Hm; cbn; [set_solver|]. rewrite !elem_of_cons, IH. tauto.
Qed.
Lemma bump_NoDup name k ap : NoDup ap.*1 -> NoDup (bump name k ap).*1.
Proof.
  induction ap as [|[m c] ap IH]; cbn; intros Hn; [apply NoDup_singleton|]. apply NoDup_cons in Hn as [Hm Hn].
  case_decide as E; cbn; apply NoDup_cons; [done|]. rewrite bump_keys. split; [naive_solver|auto].
Qed.
Lemma total_bump n name k ap : total n (bump name k ap) = total n ap + (if decide (name = n) then k else 0).
Proof.
  induction ap as [|[m c] ap IH]; cbn [bump total]; [lia|].
  destruct (decide (m = name)) as [->|E]; cbn [total]; [destruct (decide (name = n)); lia|]. rewrite IH. lia.
Qed.
Lemma bump_pos name k ap : 0 < k -> Forall (fun p => 0 < p.2) ap -> Forall (fun p => 0 < p.2) (bump name k ap).
Proof.
  intros Hk. induction 1 as [|[m c] ap Hc Hap IH]; cbn; [by constructor|]. case_decide; constructor; auto. cbn in *. lia.
Qed.
Lemma total_lookup n c ap : NoDup ap.*1 -> (n, c) ∈ ap -> total n ap = c.
Proof.
  assert (Hz : forall ap : list (nat * nat), n ∉ ap.*1 -> total n ap = 0).
  { induction ap0 as [|[m d] ap0 IH]; cbn; [done|]. intros Hn. rewrite decide_False by set_solver. apply IH. set_solver. }
  induction ap as [|[m d] ap IH]; cbn; intros Hn Hi; [by apply elem_of_nil in Hi|]. apply NoDup_cons in Hn as [Hm Hn].
  apply elem_of_cons in Hi as [[= -> ->]|Hi]; [rewrite decide_True by done; rewrite Hz; [lia|done]|].
  rewrite decide_False; [by apply IH|]. intros ->. apply Hm. apply elem_of_list_fmap. by exists (n, c).
Qed.
Lemma total_in n ap : 0 < total n ap -> exists c, (n, c) ∈ ap.
Proof.
  induction ap as [|[m d] ap IH]; cbn; [lia|]. case_decide as E; [subst; exists d; by left|]. intros Ht. destruct IH as [c Hc]; [lia|].
  exists c. by right.
Qed.
Lemma counts_iff ap n c : NoDup ap.*1 -> Forall (fun p => 0 < p.2) ap -> (n, c) ∈ ap <-> total n ap = c /\ 0 < c.
Proof.
  intros Hn Hp. split.
  - intros Hi. split; [by apply total_lookup|]. rewrite Forall_forall in Hp. by apply (Hp (n, c)).
  - intros [<- Ht]. destruct (total_in _ _ Ht) as [d Hd]. by rewrite (total_lookup _ _ _ Hn Hd).
Qed.

Section counts.
Context {Op D : Type} `{Countable Op} (L : lang Op) (A : analysis Op D) (clock : nat -> nat).
Context {St Cl : Type} (sch : scheduler Op D St) (li : limits) (rules : list (rewrite Op D)) (fuel here : nat) (hooks : list (hook Op D Cl)).
Notation egraph := (egraph Op D).
Lemma apply_counts rms i t ap g g' ap' t' s : apply_rewrites L A clock li fuel here rms i t ap g = Ok (g', ap', t', s) ->
  NoDup ap.*1 -> Forall (fun p => 0 < p.2) ap ->
  exists k cs, applied_each L A fuel here (take k rms) g cs g' /\ (s = None -> take k rms = rms) /\
    NoDup ap'.*1 /\ Forall (fun p => 0 < p.2) ap' /\ forall n, total n ap' = total n ap + total n cs.
Proof.
  revert t ap g. induction rms as [|[rw ms] rms IH]; intros t ap g E Hn Hp; cbn [apply_rewrites] in E.
  { injection E as <- <- <- <-. exists 0, []. split; [constructor|]. split; [done|]. split; [done|]. split; [done|]. intros. cbn. lia. }
  destruct (rewrite_apply L A fuel here rw ms g) as [[g1 ids]| |] eqn:E1; try done. cbn [mbind res_bind] in E.
  set (ap1 := if 0 <? length ids then bump (rw_name rw) (length ids) ap else ap) in *.
  assert (H1 : NoDup ap1.*1 /\ Forall (fun p => 0 < p.2) ap1 /\ forall n, total n ap1 = total n ap + (if decide (rw_name rw = n) then length ids else 0)).
  { unfold ap1. destruct (Nat.ltb_spec 0 (length ids)) as [Hl|Hl].
    - split_and!; [by apply bump_NoDup|by apply bump_pos|intros; by rewrite total_bump].
    - split_and!; auto. intros n. case_decide; lia. }
  destruct H1 as (H1 & H2 & H3). destruct (check_limits _ _ _ _ _) as [s1|].
  - injection E as <- <- <- <-. exists 1, [(rw_name rw, length ids)]. cbn [take]. rewrite take_0. split_and!; [econstructor; [exact E1|constructor]|done|done|done|].
    intros n. rewrite H3. cbn. lia.
  - apply IH in E as (k & cs & Ha & Hs & N & P & T); [|done|done]. exists (S k), ((rw_name rw, length ids) :: cs). cbn [take].
    split_and!; [by econstructor| |done|done|].
    + intros Es. by rewrite Hs.
    + intros n. rewrite T, H3. cbn. lia.
Qed.
Lemma iteration_counts r r' itn : run_one L A clock sch li rules fuel here hooks r = Ok (r', itn) ->
  exists g1 mss k cs g2, applied_each L A fuel here (take k (zip rules mss)) g1 cs g2 /\
    rebuild L A fuel (modify_n L A fuel) g2 = Ok (r_eg r', it_rebuilds itn) /\
    NoDup (it_applied itn).*1 /\
    forall name n, (name, n) ∈ it_applied itn <-> total name cs = n /\ 0 < n.
Proof.
  intros E%run_one_phases. destruct E as [g1 cl s1 mss st2 t2 s2 g3 ap t3 s3 g4 n can st3 Hf H1 H2 H3 H4 H5 -> ->]. cbn [r_eg it_rebuilds it_applied].
  destruct s2 as [s2|].
  - destruct H3 as (-> & -> & _ & _). exists g1, mss, 0, [], g1. split_and!; [constructor|done|constructor|]. intros name k.
    split; [by intros ?%elem_of_nil|]. cbn. lia.
  - destruct (apply_counts _ _ _ _ _ _ _ _ _ H3) as (k & cs & Ha & _ & N & P & T); [constructor|constructor|].
    exists g1, mss, k, cs, g3. split_and!; auto. intros name m. rewrite (counts_iff _ _ _ N P), T. cbn. done.
Qed.
End counts.
Lemma conf_not_banned w limit ban ss name i : ~ banned (configure w limit ban ss) name i.
Proof. rewrite banned_stats. destruct (conf_fresh w limit ban ss name) as (_ & -> & _). lia. Qed.
Lemma late_default : exists ss k, SDefaultBan k ∈ ss /\
  Forall (fun s => match s with SBan _ _ => False | SDefaultBan k' => k' = k | _ => True end) ss /\
  rs_ban (rule_stats 1 (configure 64 1000 5 ss)) <> k.
Proof.
  exists [SLimit 1 20; SDefaultBan 9], 9. split; [right; left|]. split; [repeat constructor|].
  assert (E : rs_ban (rule_stats 1 (configure 64 1000 5 [SLimit 1 20; SDefaultBan 9])) = 5) by (vm_compute; reflexivity). rewrite E. lia.
Qed.
