(** The two schedulers of src/run.rs. *)
From Verif Require Import Base UnionFind EGraphModel EGraphSteps EGraphInv EGraphPres EGraphRuns Spec EGraphMain EGraphReach EGraphOps EGraphSafe
  EGraphNoPanic Terms RecExprModel RecExprProofs ExprModel PatSpec ExprProofs ExprSafe MachineModel MatchSpec MatchProofs MachineProofs CompileProofs
  CompileMain SearchProofs SearchMain MultiProofs MatchMain MatchProps RewriteModel RewriteProofs AlgSpec AlgProofs AlgRules RewriteMain RuleSpec
  Completion RuleSafe RuleProps CondProps RunnerModel RunnerSpec RunnerProofs RunnerSound RunnerLimits Still Saturation SaturationRun BackoffSpec.

Section backoff.
Context {Op D : Type} `{Countable Op} (L : lang Op) (it : gset nat -> list nat) (cycles : bool) (w : nat).
Notation egraph := (egraph Op D).
Notation rewrite := (rewrite Op D).
Implicit Types (g : egraph) (rw : rewrite) (b : backoff).
Notation simple := (simple_scheduler (D := D) L it cycles w).
Notation sched := (backoff_scheduler (D := D) L it cycles w).
Notation bsearch := (backoff_search (D := D) L it cycles w).
Notation rsearch := (rewrite_search (D := D) L it cycles w).

Lemma simple_honest : honest L it cycles w simple.
Proof.
  intros i g rw st ms st' m s E Hm Hs. cbn in E. destruct (rsearch g rw (umax w)) as [ms0| |] eqn:E1; [|done|done]. cbn in E. injection E as -> ->.
  exists (umax w), ms, m. auto.
Qed.
Lemma simple_thorough li : thorough L it cycles w li simple (fun _ => True).
Proof.
  split; [done|done|]. intros i g rs st mss st' st'' _ _ Hs _. induction Hs as [|rw rs st ms st1 mss st2 E Hs IH]; constructor; [|done].
  cbn in E. destruct (rsearch g rw (umax w)) as [ms0| |] eqn:E1; [|done|done]. cbn in E. injection E as -> ->.
  exists (umax w). split; [done|]. apply rewrite_search_inv in E1 as [_ E1]. exact E1.
Qed.

(** ** Backoff *)
Lemma stats_set name name' s b : rule_stats name' (set_stats name s b) = if decide (name = name') then s else rule_stats name' b.
Proof. unfold rule_stats, set_stats. cbn. destruct (decide (name = name')) as [->|Hn]; [by rewrite lookup_insert|by rewrite lookup_insert_ne]. Qed.
Lemma banned_stats b name i : banned b name i <-> i < rs_until (rule_stats name b).
Proof.
  unfold banned, rule_stats. destruct (bo_stats b !! name) as [s|] eqn:E; cbn; [|split; [intros (? & [=] & _)|lia]].
  split; [by intros (? & [= <-] & ?)|eauto].
Qed.

(** One search. *)
Lemma bsearch_cases debug i g rw b ms b' : bsearch debug i g rw b = Ok (ms, b') ->
  let s := rule_stats (rw_name rw) b in
  let th := shl w (rs_limit s) (rs_times s) in
  (i < rs_until s /\ ms = [] /\ b' = set_stats (rw_name rw) s b) \/
  (rs_until s <= i /\ rs_times s < w /\ exists ms0, rsearch g rw (umax w `min` (th + 1)) = Ok ms0 /\
    ((th < n_matches ms0 /\ ms = [] /\ exists until, uadd w debug i (shl w (rs_ban s) (rs_times s)) = Ok until /\
        b' = set_stats (rw_name rw) (RStats (rs_applied s) until (S (rs_times s)) (rs_limit s) (rs_ban s)) b) \/
     (n_matches ms0 <= th /\ ms = ms0 /\
        b' = set_stats (rw_name rw) (RStats (S (rs_applied s)) (rs_until s) (rs_times s) (rs_limit s) (rs_ban s)) b))).
Proof.
  unfold backoff_search. cbn zeta. set (s := rule_stats (rw_name rw) b). intros E. destruct (Nat.ltb_spec i (rs_until s)) as [Hi|Hi].
  { injection E as <- <-. by left. }
  right. unfold checked_shl in *. destruct (Nat.ltb_spec (rs_times s) w) as [Ht|Ht]; [|done]. cbn [mbind res_bind] in *. split; [done|]. split; [done|].
  destruct (rsearch g rw _) as [ms0| |] eqn:E1; [|done|done]. cbn [mbind res_bind] in *. exists ms0. split; [done|].
  destruct (Nat.ltb_spec (shl w (rs_limit s) (rs_times s)) (n_matches ms0)) as [Hn|Hn].
  - left. destruct (uadd w debug i (shl w (rs_ban s) (rs_times s))) as [u| |] eqn:E2; [|done|done]. cbn [mbind res_bind] in *. injection E as <- <-. split_and!; [done|done|]. by exists u.
  - right. by injection E as <- <-.
Qed.
Lemma bsearch_bans debug i g rw b ms b' : bsearch debug i g rw b = Ok (ms, b') ->
  forall name, rs_ban (rule_stats name b') = rs_ban (rule_stats name b).
Proof.
  intros E name. apply bsearch_cases in E as [(_ & _ & ->)|(_ & _ & ms0 & _ & [(_ & _ & u & _ & ->)|(_ & _ & ->)])]; rewrite stats_set; by destruct (decide _) as [->|].
Qed.
Lemma stop_cases i b r b' : backoff_can_stop i b = Ok (r, b') ->
  ((forall name, ~ banned b name i) /\ r = true /\ b' = b) \/
  (exists m, r = false /\ i < m /\ (exists name, i < rs_until (rule_stats name b) /\ rs_until (rule_stats name b) = m) /\
    (forall name, banned b name i -> m <= rs_until (rule_stats name b)) /\
    bo_limit b' = bo_limit b /\ bo_ban b' = bo_ban b /\
    forall name, rule_stats name b' = let s := rule_stats name b in
      if decide (i < rs_until s) then RStats (rs_applied s) (rs_until s - (m - i)) (rs_times s) (rs_limit s) (rs_ban s) else s).
Proof.
  unfold backoff_can_stop. set (bs := filter (fun s => i < rs_until s) (map_to_list (bo_stats b)).*2).
  assert (Hb : forall s, s ∈ bs <-> i < rs_until s /\ exists name, bo_stats b !! name = Some s).
  { intros s. unfold bs. rewrite elem_of_list_filter, elem_of_list_fmap. split; intros [Hi He]; (split; [done|]).
    - destruct He as ([n s'] & -> & He%elem_of_map_to_list). eauto.
    - destruct He as [n He]. exists (n, s). by rewrite elem_of_map_to_list. }
  destruct bs as [|s0 ss].
  { intros [= <- <-]. left. split_and!; [|done|done]. intros name (s & Hs & Hi). assert (s ∈ @nil rstats) as []%elem_of_nil. apply Hb. eauto. }
  set (m := foldr (fun s m => rs_until s `min` m) (rs_until s0) ss).
  assert (Hm : (forall s, s ∈ s0 :: ss -> m <= rs_until s) /\ exists s, s ∈ s0 :: ss /\ rs_until s = m).
  { unfold m. clear. induction ss as [|s ss [IH1 IH2]]; cbn [foldr].
    - split; [intros s ->%elem_of_list_singleton; done|]. exists s0. split; [left|done].
    - split.
      + intros x Hx. apply elem_of_cons in Hx as [->|Hx]; [etrans; [apply Nat.le_min_r|apply IH1; left]|].
        apply elem_of_cons in Hx as [->|Hx]; [apply Nat.le_min_l|]. etrans; [apply Nat.le_min_r|apply IH1; by right].
      + destruct IH2 as (x & Hx & Ex). destruct (Nat.min_spec (rs_until s) (foldr (fun s m => rs_until s `min` m) (rs_until s0) ss)) as [[_ ->]|[_ ->]].
        * exists s. split; [right; left|done].
        * exists x. split; [|done]. apply elem_of_cons in Hx as [->|Hx]; [left|right; by right]. }
  destruct Hm as [Hm1 (sm & Hsm & Em)]. pose proof (proj1 (Hb _) Hsm) as [Him (nm & Hnm)].
  destruct (i <=? m); [|done]. cbn [assert mbind res_bind]. destruct (existsb _ _); [|done]. cbn [assert mbind res_bind]. intros [= <- <-]. right.
  exists m. split_and!; [done|lia| | |done|done|].
  - exists nm. unfold rule_stats. rewrite Hnm. cbn. lia.
  - intros name (s & Hs & Hi). unfold rule_stats. rewrite Hs. cbn. apply Hm1, Hb. eauto.
  - intros name. unfold rule_stats. cbn [bo_stats bo_limit bo_ban]. rewrite lookup_fmap. destruct (bo_stats b !! name) as [s|]; cbn; [done|].
    by rewrite decide_False by lia.
Qed.
Lemma stop_ok i b : exists r b', backoff_can_stop i b = Ok (r, b').
Proof.
  unfold backoff_can_stop. set (bs := filter (fun s => i < rs_until s) (map_to_list (bo_stats b)).*2).
  assert (Hb : forall s, s ∈ bs -> i < rs_until s) by (intros s Hs; by apply elem_of_list_filter in Hs as [? _]).
  destruct bs as [|s0 ss]; [eauto|]. set (m := foldr (fun s m => rs_until s `min` m) (rs_until s0) ss).
  assert (Hm : exists s, s ∈ s0 :: ss /\ rs_until s = m).
  { unfold m. clear. induction ss as [|s ss (x & Hx & Ex)]; cbn [foldr]; [exists s0; split; [left|done]|].
    destruct (Nat.min_spec (rs_until s) (foldr (fun s m => rs_until s `min` m) (rs_until s0) ss)) as [[_ ->]|[_ ->]].
    * exists s. split; [right; left|done].
    * exists x. split; [|done]. apply elem_of_cons in Hx as [->|Hx]; [left|right; by right]. }
  destruct Hm as (s & Hs & Es). pose proof (Hb s Hs).
  rewrite (proj2 (Nat.leb_le i m)) by lia. cbn [assert mbind res_bind].
  assert (existsb (fun s => rs_until s - (m - i) =? i) (s0 :: ss) = true) as E; [|cbn [rs_until] in *; rewrite E; cbn [assert mbind res_bind]; eauto].
  apply existsb_exists. exists s. split; [by apply elem_of_list_In|]. apply Nat.eqb_eq. lia.
Qed.

Lemma backoff_honest debug : honest L it cycles w (sched debug).
Proof.
  intros i g rw st ms st' m s E Hm Hs. cbn in E.
  apply bsearch_cases in E as [(_ & -> & _)|(_ & _ & ms0 & E0 & [(_ & -> & _)|(_ & -> & _)])]; [by apply elem_of_nil in Hm|by apply elem_of_nil in Hm|].
  eexists _, _, m. eauto.
Qed.
(** A ban lasts at least beyond the iteration in which it is decided. *)
Lemma stay_banned debug i g rs st mss st' name : searches (sched debug) i g rs st mss st' -> banned st name i -> banned st' name i.
Proof.
  intros Hs. induction Hs as [|rw rs st ms st1 mss st2 E Hs IH]; [done|]. intros Hb. apply IH. clear IH Hs. cbn in E.
  apply banned_stats. apply banned_stats in Hb.
  apply bsearch_cases in E as [(_ & _ & ->)|(Hi & _ & ms0 & _ & [(_ & _ & u & _ & ->)|(_ & _ & ->)])]; rewrite stats_set; destruct (decide _) as [<-|]; cbn; (done || lia).
Qed.
Lemma backoff_thorough debug li : thorough L it cycles w li (sched debug) (bans_last w debug li).
Proof.
  split.
  - intros i g rw st ms st' HJ E name t j u. rewrite (bsearch_bans _ _ _ _ _ _ _ E). apply HJ.
  - intros i st r st' HJ E name t j u. apply stop_cases in E as [(_ & _ & ->)|(m & _ & _ & _ & _ & _ & _ & E)]; [apply HJ|].
    rewrite E. cbn zeta. destruct (decide _); apply HJ.
  - intros i g rs st mss st' st'' HJ Hi Hs Hstop.
    assert (Hnb : forall name, ~ banned st' name i).
    { apply stop_cases in Hstop as [(? & _)|(m & [=] & _)]. done. }
    clear Hstop st''. induction Hs as [|rw rs st ms st1 mss st2 E Hs IH]; constructor.
    + apply bsearch_cases in E as [(Hb & _ & ->)|(Hu & Ht & ms0 & Es & [(_ & _ & u & Eu & ->)|(Hn & -> & _)])].
      * exfalso. apply (Hnb (rw_name rw)). eapply stay_banned; [exact Hs|]. apply banned_stats. by rewrite stats_set, decide_True.
      * exfalso. apply (Hnb (rw_name rw)). eapply stay_banned; [exact Hs|]. apply banned_stats. rewrite stats_set, decide_True by done. cbn. by eapply HJ.
      * eexists. split; [exact Es|]. apply rewrite_search_inv in Es as [_ Es]. lia.
    + apply IH; [|done]. intros name t j u. rewrite (bsearch_bans _ _ _ _ _ _ _ E). apply HJ.
Qed.

(** Odd ban lengths last in builds with overflow checks. *)
Lemma odd_last li b : 0 < w -> (forall name, Nat.odd (rs_ban (rule_stats name b)) = true) -> bans_last w true li b.
Proof.
  intros Hw Ho name t i u Ht _ E. unfold uadd in E. destruct (Nat.leb_spec (i + shl w (rs_ban (rule_stats name b)) t) (umax w)); [|done].
  injection E as <-. assert (shl w (rs_ban (rule_stats name b)) t <> 0); [|lia]. unfold shl. intros E0.
  apply Nat.mod_divide in E0; [|by apply Nat.pow_nonzero]. destruct E0 as [q E0].
  specialize (Ho name). rewrite <- Nat.negb_even in Ho. apply negb_true_iff in Ho.
  assert (Hp : 2 ^ w = 2 ^ (w - t - 1) * 2 * 2 ^ t).
  { rewrite <- (Nat.pow_1_r 2) at 3. rewrite <- !Nat.pow_add_r. f_equal. lia. }
  rewrite Hp in E0. assert (rs_ban (rule_stats name b) = 2 * (q * 2 ^ (w - t - 1))) as Eb.
  { apply (Nat.mul_cancel_r _ _ (2 ^ t)); [by apply Nat.pow_nonzero|]. rewrite E0. lia. }
  rewrite Eb, Nat.even_mul in Ho. done.
Qed.
End backoff.

Section main.
Context {Op D : Type} `{Countable Op} (L : lang Op) (A : analysis Op D) (Lo : lang_ok L) (it : gset nat -> list nat) (Hit : enumerates it) (w : nat).
Notation egraph := (egraph Op D).
Notation rewrite := (rewrite Op D).
Implicit Types (g : egraph) (rw : rewrite) (b : backoff).

Lemma ban_end_stats b name : ban_end b name = rs_until (rule_stats name b).
Proof. unfold ban_end, rule_stats. by destruct (bo_stats b !! name). Qed.
Lemma starves_end cycles debug name b b' : starves (D := D) L it cycles w debug name b b' -> ban_end b' name <= ban_end b name.
Proof.
  intros Hs. induction Hs as [b|b i g rw ms b1 b2 Hb E Hs IH|b i r b1 b2 E Hs IH]; [done| |]; (etrans; [exact IH|]); clear IH Hs; rewrite !ban_end_stats.
  - destruct (decide (rw_name rw = name)) as [He|He].
    + specialize (Hb He). apply banned_stats in Hb. subst name.
      apply bsearch_cases in E as [(_ & _ & ->)|(Hi & _)]; [|lia]. by rewrite stats_set, decide_True.
    + apply bsearch_cases in E as [(_ & _ & ->)|(_ & _ & ms0 & _ & [(_ & _ & u & _ & ->)|(_ & _ & ->)])]; by rewrite stats_set, decide_False.
  - apply stop_cases in E as [(_ & _ & ->)|(m & _ & _ & _ & _ & _ & _ & E)]; [done|]. rewrite E. cbn zeta. destruct (decide _); cbn; lia.
Qed.
Lemma starves_over cycles debug name b b' i : starves (D := D) L it cycles w debug name b b' -> ban_end b name <= i -> ~ banned b' name i.
Proof. intros Hs%starves_end Hi Hb%banned_stats. rewrite <- ban_end_stats in Hb. lia. Qed.

Lemma stop_main i b : exists r b', backoff_can_stop i b = Ok (r, b') /\
  (r = true <-> forall name, ~ banned b name i) /\
  (r = true -> b' = b) /\
  (r = false -> exists name, banned b name i /\ ~ banned b' name i) /\
  (forall name, banned b' name i -> banned b name i) /\
  (forall name, let s := rule_stats name b in let s' := rule_stats name b' in
     rs_until s' <= rs_until s /\ rs_times s' = rs_times s /\ rs_limit s' = rs_limit s /\ rs_ban s' = rs_ban s /\ rs_applied s' = rs_applied s).
Proof.
  destruct (stop_ok i b) as (r & b' & E). exists r, b'. split; [done|].
  apply stop_cases in E as [(Hn & -> & ->)|(m & -> & Him & (nm & Hu & Em) & Hmin & _ & _ & E)].
  - split_and!; try done.
  - split_and!.
    + split; [done|]. intros Hn. exfalso. by eapply Hn, banned_stats.
    + done.
    + intros _. exists nm. split; [by apply banned_stats|]. rewrite banned_stats, E. cbn zeta. rewrite decide_True by done. cbn. lia.
    + intros name Hb. apply banned_stats. apply banned_stats in Hb. rewrite E in Hb. cbn zeta in Hb. destruct (decide _); [done|]. by cbn in Hb.
    + intros name. rewrite E. cbn zeta. destruct (decide _); cbn; split_and!; lia.
Qed.

Context (ord : gmap (nat * nat) (node Op) -> list (nat * nat)) (Hord : enumerates_keys ord) (ex : bool) (g : egraph).
Context (R : reachable_np L A ex g) (Ec : eg_clean g = true).
Lemma bsearch_main rw : searcher_built ord (rw_searcher rw) ->
  exists all : list (nat * subst),
    (forall sg c, (forall v i, sg v = Some i -> known g i) -> matched g (rw_searcher rw) sg c ->
       exists sub, (c, sub) ∈ all /\ forall v, provides (rw_searcher rw) v -> subst_get sub v = eg_find g <$> sg v) /\
    (forall k, exists ms, searcher_search L it true (rw_searcher rw) g k = Ok ms /\ pairs ms = take k all) /\
    forall debug i b ms b', backoff_search L it true w debug i g rw b = Ok (ms, b') ->
      let s := rule_stats (rw_name rw) b in let s' := rule_stats (rw_name rw) b' in
      (forall name, name <> rw_name rw -> rule_stats name b' = rule_stats name b) /\
      rs_limit s' = rs_limit s /\ rs_ban s' = rs_ban s /\
      (banned b (rw_name rw) i -> ms = [] /\ s' = s) /\
      (~ banned b (rw_name rw) i -> rs_limit s * 2 ^ rs_times s < 2 ^ w ->
        (rs_limit s * 2 ^ rs_times s < length all /\ ms = [] /\ rs_times s' = S (rs_times s) /\ rs_applied s' = rs_applied s /\
           (i + rs_ban s * 2 ^ rs_times s < 2 ^ w -> rs_until s' = i + rs_ban s * 2 ^ rs_times s)) \/
        (length all <= rs_limit s * 2 ^ rs_times s /\ pairs ms = all /\ rs_times s' = rs_times s /\ rs_applied s' = S (rs_applied s) /\
           rs_until s' = rs_until s)).
Proof.
  intros Hb. destruct (search_all L A Lo it Hit ord Hord ex g R Ec _ Hb) as (all & Hk & Hall). exists all. split; [done|]. split; [done|].
  intros debug i b ms b' E. cbn zeta. rewrite !banned_stats.
  pose proof (bsearch_bans _ _ _ _ _ _ _ _ _ _ _ E (rw_name rw)) as Hban.
  apply bsearch_cases in E as [(Hi & -> & ->)|(Hi & Ht & ms0 & Es & Hc)].
  { rewrite !stats_set, decide_True by done. split; [|split_and!; done || lia]. intros name Hn. rewrite stats_set. by rewrite decide_False. }
  set (s := rule_stats (rw_name rw) b) in *.
  assert (Hoth : forall name, name <> rw_name rw -> rule_stats name b' = rule_stats name b).
  { intros name Hn. destruct Hc as [(_ & _ & u & _ & ->)|(_ & _ & ->)]; rewrite stats_set; by rewrite decide_False. }
  assert (Hlim : rs_limit (rule_stats (rw_name rw) b') = rs_limit s).
  { destruct Hc as [(_ & _ & u & _ & ->)|(_ & _ & ->)]; rewrite stats_set; by rewrite decide_True. }
  split_and!; [done|done|done|lia|]. intros _ Hfit.
  assert (Hsh : shl w (rs_limit s) (rs_times s) = rs_limit s * 2 ^ rs_times s) by (unfold shl; by apply Nat.mod_small).
  rewrite Hsh in *. set (th := rs_limit s * 2 ^ rs_times s) in *.
  apply rewrite_search_inv in Es as [Es Hmax]. destruct (Hk (umax w `min` (th + 1))) as (ms1 & Es1 & Hp). rewrite Es in Es1. injection Es1 as <-.
  assert (Hlen : n_matches ms0 = (umax w `min` (th + 1)) `min` length all) by (rewrite <- pairs_length, Hp, take_length; done).
  destruct Hc as [(Hn & -> & u & Eu & ->)|(Hn & -> & ->)]; rewrite stats_set, decide_True by done; cbn [rs_times rs_until rs_applied].
  - left. split_and!; [lia|done|done|done|]. intros Hf. unfold uadd in Eu.
    assert (shl w (rs_ban s) (rs_times s) = rs_ban s * 2 ^ rs_times s) as Eb by (unfold shl; apply Nat.mod_small; lia).
    rewrite Eb in Eu. unfold umax in Eu. rewrite (proj2 (Nat.leb_le _ _)) in Eu by lia. by injection Eu as <-.
  - right. split_and!; [lia| |done|done|done]. rewrite Hp. apply take_ge. lia.
Qed.
End main.
Lemma odd_default w li : 0 < w -> forall limit ban, Nat.odd ban = true -> bans_last w true li (backoff_default limit ban).
Proof. intros Hw limit ban Ho. apply odd_last; [done|]. intros name. unfold rule_stats, backoff_default. cbn. by rewrite lookup_empty. Qed.
