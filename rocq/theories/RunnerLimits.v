(** Stop reasons and limits of the runner, for any rules, schedulers and hooks. *)
From Verif Require Import Base UnionFind EGraphModel EGraphSteps EGraphInv EGraphPres EGraphRuns Spec EGraphMain EGraphReach EGraphOps EGraphSafe
  EGraphNoPanic Terms RecExprModel RecExprProofs ExprModel PatSpec ExprProofs ExprSafe MachineModel MatchSpec
  RewriteModel RewriteProofs AlgSpec RuleSpec RunnerModel RunnerSpec RunnerProofs RunnerSound.

Section limits.
Context {Op D : Type} `{Countable Op} (L : lang Op) (A : analysis Op D).
Notation egraph := (egraph Op D).
Notation prog := (prog Op D).
Notation rewrite := (rewrite Op D).
Implicit Types (g : egraph).
Context (clock : nat -> nat) {St Cl : Type} (sch : scheduler Op D St) (li : limits) (rules : list rewrite) (fuel here : nat).
Context (hooks : list (hook Op D Cl)).
Notation check := (check_limits clock li).
Notation run_one := (run_one L A clock sch li rules fuel here hooks).
Notation run_loop := (run_loop L A clock sch li rules fuel here hooks).
Notation run := (run L A clock sch li rules fuel here hooks).
Notation runner := (runner Op D St Cl).
Notation phases := (phases L A clock sch li rules fuel here hooks).
Context (ex : bool) (Hr : Forall rule_shaped rules).

(** * Growth *)
Definition further g g' : Prop := reachable L A ex g' /\ grows g g'.
Lemma further_size g g' : further g g' -> total_size g <= total_size g'.
Proof. intros [_ G]. unfold total_size. rewrite <- !size_dom. apply subseteq_size, G. Qed.
Lemma further_refl g : reachable L A ex g -> further g g.
Proof. intros R. split; [done|]. by eapply grows_refl, reachable_Inv. Qed.
Lemma further_trans g1 g2 g3 : further g1 g2 -> further g2 g3 -> further g1 g3.
Proof. intros [_ G1] [R G2]. split; [done|]. by eapply grows_trans. Qed.
Lemma further_reach g g' : reachable L A ex g -> further g g' -> reachable L A ex g'.
Proof. by intros _ [R _]. Qed.
Lemma further_hook (h : hook Op D Cl) cl i g g' : h ∈ hooks -> reachable L A ex g ->
  run_prog L A fuel (modify_n L A fuel) (hk_body h cl i) g = Ok g' -> further g g'.
Proof. intros _ R E. split; [by eapply reach_run|]. by eapply run_grows. Qed.
Lemma further_rebuild g g' n : reachable L A ex g -> rebuild L A fuel (modify_n L A fuel) g = Ok (g', n) -> further g g'.
Proof. intros R E. destruct (rebuild_step L A _ ex fuel g g' n calls_any R E) as (R' & G & _). by split. Qed.
Lemma further_rule (rw : rewrite) ms g1 g2 ids : rw ∈ rules -> reachable L A ex g1 ->
  rewrite_apply L A fuel here rw ms g1 = Ok (g2, ids) -> further g1 g2.
Proof.
  intros Hrw R E. rewrite Forall_forall in Hr. destruct (Hr rw Hrw) as [Hb Ha].
  destruct (apply_matches_step L A _ ex fuel here (rw_applier rw) (searcher_ast (rw_searcher rw)) (rw_name rw) ms g1 g2 ids calls_any) as [R2 G2]; auto.
  by split.
Qed.
Lemma phases_further r r' itn (ph : phases r r' itn) : reachable L A ex (r_eg r) ->
  further (r_eg r) (ph_g1 _ _ _ _ _ _ _ _ _ _ _ _ ph) /\ further (ph_g1 _ _ _ _ _ _ _ _ _ _ _ _ ph) (ph_g3 _ _ _ _ _ _ _ _ _ _ _ _ ph) /\
  further (ph_g3 _ _ _ _ _ _ _ _ _ _ _ _ ph) (ph_g4 _ _ _ _ _ _ _ _ _ _ _ _ ph) /\ further (r_eg r) (r_eg r').
Proof.
  intros R. eapply (phases_T L A clock sch li rules fuel here hooks (reachable L A ex) further);
    eauto using further_refl, further_trans, further_reach, further_hook, further_rebuild.
  intros i g0 rw s0 ms s1 g1 g2 ids Hrw R0 _ T1 E1. eapply further_rule; [done|by apply T1|exact E1].
Qed.

(** * Checks *)
Lemma check_some i t g s : check i t g = Some s ->
  (li_time li < clock t /\ s = TimeLimit (clock t)) \/
  (clock t <= li_time li /\ li_node li < total_size g /\ s = NodeLimit (total_size g)) \/
  (clock t <= li_time li /\ total_size g <= li_node li /\ li_iter li <= i /\ s = IterationLimit i).
Proof.
  unfold check_limits. destruct (li_time li <? clock t) eqn:Et; [apply Nat.ltb_lt in Et; intros [= <-]; auto|apply Nat.ltb_ge in Et].
  destruct (li_node li <? total_size g) eqn:En; [apply Nat.ltb_lt in En; intros [= <-]; auto|apply Nat.ltb_ge in En].
  destruct (li_iter li <=? i) eqn:Ei; [apply Nat.leb_le in Ei; intros [= <-]; auto 6|done].
Qed.
Lemma check_none i t g : check i t g = None -> clock t <= li_time li /\ total_size g <= li_node li /\ i < li_iter li.
Proof.
  unfold check_limits. destruct (li_time li <? clock t) eqn:Et; [done|apply Nat.ltb_ge in Et].
  destruct (li_node li <? total_size g) eqn:En; [done|apply Nat.ltb_ge in En].
  destruct (li_iter li <=? i) eqn:Ei; [done|apply Nat.leb_gt in Ei]. auto.
Qed.

(** What the checks made from clock reading [t] up to [t'], in iteration [i], until the
    e-graph [g'] resulted, amount to. *)
Definition checked (i t t' : nat) g' (s : option stop) : Prop :=
  t <= t' /\ (forall k, t <= k -> S k < t' -> clock k <= li_time li) /\
  match s with
  | None => forall k, t <= k -> k < t' -> clock k <= li_time li
  | Some (TimeLimit x) => t < t' /\ x = clock (pred t') /\ li_time li < x
  | Some (NodeLimit n) => t < t' /\ clock (pred t') <= li_time li /\ li_node li < n <= total_size g'
  | Some (IterationLimit n) => t < t' /\ clock (pred t') <= li_time li /\ n = i /\ li_iter li <= i
  | _ => False
  end.
Lemma checked_none i t t1 t2 g1 g2 s : checked i t t1 g1 None -> checked i t1 t2 g2 s -> checked i t t2 g2 s.
Proof.
  intros (L1 & _ & K1) (L2 & A2 & K2). split; [lia|]. split.
  - intros k ? ?. destruct (decide (k < t1)); [apply K1|apply A2]; lia.
  - destruct s as [[| | | |]|]; try done; try (destruct K2 as [? K2]; split; [lia|done]).
    intros k ? ?. destruct (decide (k < t1)); [apply K1|apply K2]; lia.
Qed.
Lemma checked_further i t t' g g' s : further g g' -> checked i t t' g s -> checked i t t' g' s.
Proof.
  intros T (L1 & A1 & K1). split_and!; auto. apply further_size in T. destruct s as [[| | | |]|]; try done.
  destruct K1 as (? & ? & ? & ?). split_and!; auto. lia.
Qed.
Lemma checked_one i t g s : check i t g = s -> checked i t (S t) g s.
Proof.
  intros E. split; [lia|]. split; [intros; lia|]. destruct s as [s|].
  - apply check_some in E as [[? ->]|[(? & ? & ->)|(? & ? & ? & ->)]]; cbn; auto with lia.
  - apply check_none in E as (? & _). intros k ? ?. by replace k with t by lia.
Qed.
Lemma search_checked rs i t st g mss st' t' s : search_rewrites clock sch li rs i t st g = Ok (mss, st', t', s) -> checked i t t' g s.
Proof.
  revert t st mss. induction rs as [|rw rs IH]; intros t st mss E; cbn [search_rewrites] in E.
  - injection E as _ _ <- <-. split; [done|]. split; intros; lia.
  - destruct (sc_search _ sch i g rw st) as [[ms st1]| |]; [|done|done]. cbn [mbind res_bind] in E.
    destruct (check i t g) as [s1|] eqn:E1; apply checked_one in E1; [by injection E as _ _ <- <-|].
    destruct (search_rewrites _ _ _ rs i (S t) st1 g) as [[[[mss1 st2] t2] s2]| |] eqn:E2; [|done|done]. cbn [mbind res_bind] in E.
    injection E as <- <- <- <-. apply IH in E2. by eapply checked_none.
Qed.
Lemma apply_checked rms i t ap g g' ap' t' s : reachable L A ex g -> (forall rw ms, (rw, ms) ∈ rms -> rw ∈ rules) ->
  apply_rewrites L A clock li fuel here rms i t ap g = Ok (g', ap', t', s) -> checked i t t' g' s.
Proof.
  revert g t ap. induction rms as [|[rw ms] rms IH]; intros g t ap R Hin E; cbn [apply_rewrites] in E.
  - injection E as _ _ <- <-. split; [done|]. split; intros; lia.
  - destruct (rewrite_apply _ _ _ _ rw ms g) as [[g3 ids]| |] eqn:E1; [|done|done]. cbn [mbind res_bind] in E.
    apply further_rule in E1; [|apply (Hin rw ms); left|done].
    destruct (check i t g3) as [s1|] eqn:E2; apply checked_one in E2; [by injection E as <- _ <- <-|].
    apply IH in E; [by eapply checked_none|apply E1|]. intros rw' ms' Hx. apply (Hin rw' ms'). by right.
Qed.
Lemma hooks_stop hs i cl g g' cl' s : run_hooks L A fuel hs i cl g = Ok (g', cl', Some s) ->
  exists (h : hook Op D Cl) cl0 g0 m, h ∈ hs /\ (hk_out h cl0 i g0).2 = Some m /\ s = Other m.
Proof.
  revert cl g. induction hs as [|h hs IH]; intros cl g E; cbn [run_hooks] in E; [done|].
  destruct (run_prog _ _ _ _ _ g) as [g1| |] eqn:E1; [|done|done]. cbn [mbind res_bind] in E.
  destruct (hk_out h cl i g1) as [cl1 [m|]] eqn:Eo.
  - injection E as <- _ <-. exists h, cl, g1, m. rewrite Eo. split_and!; auto. left.
  - apply IH in E as (h' & cl0 & g0 & m & Hh & Ho & ->). exists h', cl0, g0, m. split_and!; auto. by right.
Qed.

(** * One iteration *)
(** Why an iteration stopped. *)
Definition iter_stop (i t t' : nat) g g' (itn : iteration) : Prop :=
  match it_stop itn with
  | Some (Other m) => (forall k, t <= k -> k < t' -> clock k <= li_time li) /\ t < t' /\
      exists (h : hook Op D Cl) cl0 g0, h ∈ hooks /\ (hk_out h cl0 i g0).2 = Some m
  | Some Saturated => (forall k, t <= k -> k < t' -> clock k <= li_time li) /\ t < t' /\ i < li_iter li /\ it_applied itn = [] /\
      total_size g' = total_size g /\ number_of_classes g' = number_of_classes g /\ total_size g' <= li_node li
  | None => (forall k, t <= k -> k < t' -> clock k <= li_time li) /\ t < t' /\ i < li_iter li
  | s => checked i t t' g' s
  end.
Lemma one_stop r r' itn : reachable L A ex (r_eg r) -> run_one r = Ok (r', itn) ->
  iter_stop (length (r_iters r)) (r_tick r) (r_tick r') (r_eg r) (r_eg r') itn /\
  it_nodes itn = total_size (r_eg r) /\ it_classes itn = number_of_classes (r_eg r) /\
  further (r_eg r) (r_eg r') /\ eg_clean (r_eg r') = true /\ r_iters r' = r_iters r /\ r_stop r = None /\ r_stop r' = None /\ r_roots r' = r_roots r.
Proof.
  intros R E%run_one_phases. pose proof (phases_further _ _ _ E R) as (T1 & T3 & T4 & T5).
  destruct E as [g1 cl s1 mss st2 t2 s2 g3 ap t3 s3 g4 n can st3 Hf H1 H2 H3 H4 H5 -> ->]. cbn [ph_g1 ph_g3 ph_g4 r_eg r_iters r_tick r_stop r_roots it_nodes it_classes] in *.
  destruct (rebuild_step L A _ ex fuel g3 g4 n calls_any (proj1 T3) H4) as (_ & _ & Ec).
  split_and!; auto.
  assert (K : match s3 with
              | Some (Other m) => (forall k, r_tick r <= k -> k < t3 -> clock k <= li_time li) /\ r_tick r < t3 /\
                  exists (h : hook Op D Cl) cl0 g0, h ∈ hooks /\ (hk_out h cl0 (length (r_iters r)) g0).2 = Some m
              | Some Saturated => False
              | None => r_tick r < t3 /\ (forall k, r_tick r <= k -> k < t3 -> clock k <= li_time li) /\
                        total_size (r_eg r) <= li_node li /\ length (r_iters r) < li_iter li
              | s => checked (length (r_iters r)) (r_tick r) t3 g4 s
              end).
  { destruct (check (length (r_iters r)) (r_tick r) (r_eg r)) as [s0|] eqn:E0.
    - destruct H1 as (-> & -> & ->). destruct H2 as (_ & _ & -> & ->). destruct H3 as (-> & _ & -> & ->).
      pose proof (check_some _ _ _ _ E0) as Hc. apply checked_one in E0. pose proof (checked_further _ _ _ _ _ _ T4 E0) as Hk.
      destruct Hc as [[_ ->]|[(_ & _ & ->)|(_ & _ & _ & ->)]]; exact Hk.
    - pose proof (check_none _ _ _ E0) as (Hct & Hcn & Hci). apply checked_one in E0. destruct s1 as [s1|].
      + destruct (hooks_stop _ _ _ _ _ _ _ H1) as (h & cl0 & g0 & m & Hh & Ho & ->).
        destruct H2 as (_ & _ & -> & ->). destruct H3 as (_ & _ & -> & ->). split_and!; [|lia|eauto].
        intros k ? ?. by replace k with (r_tick r) by lia.
      + assert (R1 : reachable L A ex g1) by apply T1.
        pose proof (search_checked _ _ _ _ _ _ _ _ _ H2) as C2. apply (checked_none _ _ _ _ _ _ _ E0) in C2.
        assert (t2 >= S (r_tick r)) as Ht2.
        { pose proof (search_checked _ _ _ _ _ _ _ _ _ H2) as (? & _). lia. }
        destruct s2 as [s2|].
        * destruct H3 as (-> & _ & -> & ->). apply (checked_further _ _ _ _ _ _ T4) in C2. destruct s2; try done; by destruct C2 as (_ & _ & []).
        * apply apply_checked in H3; [|done|intros rw ms; apply elem_of_zip_l].
          destruct (H3) as (Ht3 & _). apply (checked_none _ _ _ _ _ _ _ C2) in H3. apply (checked_further _ _ _ _ _ _ T4) in H3.
          destruct s3 as [[| | | |]|]; try done; try by destruct H3 as (_ & _ & []).
          destruct H3 as (? & _ & ?). split_and!; auto with lia. }
  unfold iter_stop. cbn [it_stop it_applied]. destruct s3 as [[| | | |]|]; try done.
  destruct K as (Kt & Kc & Kn & Ki). destruct can; cbn [andb].
  - destruct (total_size (r_eg r) =? total_size g1); cbn [andb]; [|done].
    destruct (number_of_classes (r_eg r) =? number_of_classes g1); cbn [andb]; [|done].
    destruct (total_size (r_eg r) =? total_size g4) eqn:E3; cbn [andb]; [|done]. apply Nat.eqb_eq in E3.
    destruct (number_of_classes (r_eg r) =? number_of_classes g4) eqn:E4; [|done]. apply Nat.eqb_eq in E4.
    split_and!; auto; [|lia]. destruct ap; [done|]. by destruct H5.
  - done.
Qed.

(** * The loop *)
(** At the head of the loop. *)
Record midway (r : runner) : Prop := {
  mw_reach : reachable L A ex (r_eg r);
  mw_stop : r_stop r = None;
  mw_iters : forall k itn, r_iters r !! k = Some itn -> it_stop itn = None /\ (0 < k -> it_nodes itn <= li_node li);
  mw_next : r_iters r <> [] -> length (r_iters r) < li_iter li /\ total_size (r_eg r) <= li_node li;
  mw_time : forall k, k < r_tick r -> clock k <= li_time li;
}.
Notation ended := (ended clock li hooks).
Lemma one_nodes r r' itn : reachable L A ex (r_eg r) -> run_one r = Ok (r', itn) -> it_nodes itn = total_size (r_eg r).
Proof. intros R E. by apply one_stop in E as (_ & ? & _). Qed.

Lemma loop_ended rounds r x : midway r -> run_loop rounds r = Ok x ->
  match x with
  | None => rounds = 0 \/ rounds + length (r_iters r) < li_iter li
  | Some r' => ended r'
  end.
Proof.
  revert r. induction rounds as [|rounds IH]; intros r [R Hs Hi Hn Ht] E; cbn [RunnerModel.run_loop] in E; [injection E as <-; by left|].
  destruct (run_one r) as [[r1 itn]| |] eqn:E1; [|done|done]. cbn [mbind res_bind] in E.
  apply one_stop in E1 as (St1 & En & Ecl & T1 & Ec1 & Ei & _ & Es1 & Er1); [|done].
  assert (Hlen : length (r_iters r) < 1 `max` li_iter li).
  { destruct (r_iters r) as [|x0 l0] eqn:El; [cbn; lia|]. destruct (Hn ltac:(done)) as [? _]. lia. }
  assert (Hmid : forall k itn', (r_iters r ++ [itn]) !! k = Some itn' ->
    (S k < length (r_iters r ++ [itn]) -> it_stop itn' = None) /\ (0 < k -> it_nodes itn' <= li_node li)).
  { intros k itn' Hk. apply lookup_app_Some in Hk as [Hk|[Hk1 Hk2]].
    - destruct (Hi _ _ Hk). auto.
    - apply list_lookup_singleton_Some in Hk2 as [Hk2 <-]. rewrite app_length. cbn. split; [lia|]. intros Hpos. rewrite En. apply Hn.
      intros El. rewrite El in *. cbn in *. lia. }
  assert (Hpre : forall k, k < r_tick r -> clock k <= li_time li) by done.
  unfold iter_stop in St1. destruct (it_stop itn) as [s|] eqn:Est.
  - injection E as <-. split; cbn [r_iters r_eg r_tick r_stop]; rewrite ?Ei.
    + rewrite app_length. cbn. lia.
    + exact Hmid.
    + assert (Hck : r_tick r < r_tick r1 /\ forall k, r_tick r <= k -> S k < r_tick r1 -> clock k <= li_time li).
      { destruct s; [|by destruct St1 as (_ & ? & ? & _)..|]; destruct St1 as (Hc & ? & _); (split; [done|]); intros; apply Hc; lia. }
      split; [lia|]. intros k Hk. destruct (decide (k < r_tick r)); [auto|]. apply Hck; lia.
    + exists itn. rewrite last_snoc. split; [done|]. exists s. split; [done|]. split; [by left|].
      destruct s as [|n|n|x|m].
      * destruct St1 as (Hc & Hlt & Hil & Ha & H1 & H2 & H3). split; [|split_and!; congruence].
        split; [by intros [x [=]]|]. intros Hx. assert (clock (pred (r_tick r1)) <= li_time li) by (apply Hc; lia). lia.
      * destruct St1 as (_ & _ & Hlt & Hc & -> & Hle). split; [split; [by intros [x [=]]|lia]|].
        assert (length (r_iters r) = 0) as El.
        { destruct (r_iters r) as [|x0 l0] eqn:El; [done|]. destruct (Hn ltac:(done)) as [? _]. lia. }
        rewrite app_length, El. cbn. split_and!; lia.
      * destruct St1 as (_ & _ & Hlt & Hc & Hle). split; [split; [by intros [x [=]]|lia]|done].
      * destruct St1 as (_ & _ & Hlt & -> & Hc). split; [|done]. split; [done|]. eauto.
      * destruct St1 as (Hc & Hlt & h & cl0 & g0 & Hh & Ho). split.
        -- split; [by intros [x [=]]|]. intros Hx. assert (clock (pred (r_tick r1)) <= li_time li) by (apply Hc; lia). lia.
        -- exists h, cl0, g0. rewrite app_length, Nat.add_comm. cbn. done.
  - destruct St1 as (Hc & Hlt & Hil). assert (Hc' : forall k, k < r_tick r1 -> clock k <= li_time li).
    { intros k Hk. destruct (decide (k < r_tick r)); [auto|]. apply Hc; lia. }
    rewrite Ei in E. destruct (check _ (r_tick r1) (r_eg r1)) as [s|] eqn:Ek.
    + injection E as <-. split; cbn [r_iters r_eg r_tick r_stop].
      * rewrite app_length. cbn. lia.
      * exact Hmid.
      * split; [lia|]. intros k Hk. apply Hc'. lia.
      * exists itn. rewrite last_snoc. split; [done|]. exists s. split; [done|]. split; [by right|]. cbn [pred].
        rewrite app_length in Ek. cbn [length] in Ek. rewrite app_length. cbn [length].
        apply check_some in Ek as [[? ->]|[(? & ? & ->)|(? & ? & ? & ->)]].
        -- split; [|done]. split; [done|]. eauto.
        -- split; [split; [by intros [x [=]]|lia]|lia].
        -- split; [split; [by intros [x [=]]|lia]|]. split_and!; lia.
    + apply check_none in Ek as (Hk1 & Hk2 & Hk3). apply IH in E.
      * destruct x as [r'|]; [done|]. cbn [r_iters] in E. rewrite app_length in *. cbn [length] in *. lia.
      * split; cbn [r_eg r_iters r_stop r_tick]; auto; [apply T1| |].
        -- intros k itn' Hk. split; [|by apply (Hmid k)]. apply lookup_app_Some in Hk as [Hk|[Hk1' Hk2']]; [by apply (Hi k)|].
           by apply list_lookup_singleton_Some in Hk2' as [_ <-].
        -- intros k Hk. destruct (decide (k = r_tick r1)) as [->|]; [done|]. apply Hc'. lia.
Qed.
Lemma run_ended rounds roots g st cl x : reachable L A ex g -> run rounds roots g st cl = Ok x ->
  match x with
  | None => rounds < 1 `max` li_iter li
  | Some r' => ended r'
  end.
Proof.
  intros R E. unfold RunnerModel.run in E. destruct (rebuild _ _ _ _ g) as [[g1 n]| |] eqn:E1; [|done|done]. cbn [mbind res_bind] in E.
  apply further_rebuild in E1; [|done]. apply loop_ended in E.
  - destruct x as [r'|]; [done|]. cbn in E. lia.
  - split; cbn; try done; [apply E1|intros; lia].
Qed.
Lemma loop_final rounds r r' : reachable L A ex (r_eg r) -> run_loop rounds r = Ok (Some r') ->
  further (r_eg r) (r_eg r') /\ eg_clean (r_eg r') = true /\ r_roots r' = r_roots r.
Proof.
  revert r. induction rounds as [|rounds IH]; intros r R E; cbn [RunnerModel.run_loop] in E; [done|].
  destruct (run_one r) as [[r1 itn]| |] eqn:E1; [|done|done]. cbn [mbind res_bind] in E.
  apply one_stop in E1 as (_ & _ & _ & T1 & Ec1 & _ & _ & _ & Er1); [|done].
  destruct (it_stop itn); [by injection E as <-|]. destruct (check _ _ _); [by injection E as <-|].
  apply IH in E as (T2 & ? & E2); [|apply T1]. cbn in *. split_and!; [by eapply further_trans|done|by rewrite E2].
Qed.
Lemma run_final rounds roots g st cl r : reachable L A ex g -> run rounds roots g st cl = Ok (Some r) ->
  further g (r_eg r) /\ eg_clean (r_eg r) = true /\ r_roots r = roots.
Proof.
  intros R E. unfold RunnerModel.run in E. destruct (rebuild _ _ _ _ g) as [[g1 n]| |] eqn:E1; [|done|done]. cbn [mbind res_bind] in E.
  apply further_rebuild in E1; [|done]. apply loop_final in E as (T2 & ? & ?); [|apply E1]. split_and!; auto. by eapply further_trans.
Qed.
Lemma run_kept rounds roots g st cl r : reachable L A ex g -> run rounds roots g st cl = Ok (Some r) ->
  reachable L A ex (r_eg r) /\ eg_clean (r_eg r) = true /\ r_roots r = roots /\
  (forall i, known g i -> known (r_eg r) i) /\
  (forall i j, eg_find g i = eg_find g j -> eg_find (r_eg r) i = eg_find (r_eg r) j) /\
  (exists l, eg_log (r_eg r) = l ++ eg_log g).
Proof.
  intros R E. apply run_final in E as ((R' & G) & Ec & Er); [|done]. split_and!; auto.
  - intros i Hi. destruct G as [_ [l Hl] _ _]. unfold known in *. rewrite <- (iv_len _ (reachable_Inv _ _ _ _ R')), Hl, app_length.
    pose proof (iv_len _ (reachable_Inv _ _ _ _ R)). lia.
  - intros i j. by eapply coarser_eq, G.
  - apply G.
Qed.
End limits.
