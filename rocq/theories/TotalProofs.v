(** Nothing runs out of fuel when the analysis has no hook and its merges climb: every
    operation, program, rule application and run ends, and its result does not depend on how
    much more fuel there was. *)
From Verif Require Import Base UnionFind EGraphModel EGraphSteps EGraphInv EGraphPres EGraphRuns Spec EGraphMain EGraphReach EGraphOps EGraphSafe
  EGraphNoPanic EGraphTerm Terms RecExprModel RecExprProofs ExprModel PatSpec ExprProofs ExprSafe MachineModel MatchSpec MatchProofs RewriteModel RewriteProofs
  RuleSpec RuleSafe CopyProofs.

(** From some fuel and some width on, the answer is the same and satisfies [P]. *)
Definition okT {X} (f : nat -> nat -> res X) (P : X -> Prop) : Prop :=
  exists N x, P x /\ forall fuel w, N <= fuel -> N <= w -> f fuel w = Ok x.
Lemma okT_ret {X} (x : X) (P : X -> Prop) : P x -> okT (fun _ _ => Ok x) P.
Proof. intros Hx. by exists 0, x. Qed.
Lemma okT_bind {X Y} (f : nat -> nat -> res X) (k : nat -> nat -> X -> res Y) P Q :
  okT f P -> (forall x, P x -> okT (fun fuel w => k fuel w x) Q) -> okT (fun fuel w => f fuel w ≫= k fuel w) Q.
Proof.
  intros (N1 & x & Hx & E1) Hk. destruct (Hk x Hx) as (N2 & y & Hy & E2). exists (N1 + N2), y. split; [done|].
  intros fuel w Hf Hw. rewrite E1 by lia. cbn [mbind res_bind]. apply E2; lia.
Qed.
Lemma okT_impl {X} (f : nat -> nat -> res X) (P Q : X -> Prop) : okT f P -> (forall x, P x -> Q x) -> okT f Q.
Proof. intros (N & x & Hx & E) Hi. exists N, x. auto. Qed.
Lemma okT_eq {X} (f f' : nat -> nat -> res X) P : (forall fuel w, 1 <= fuel -> f fuel w = f' fuel w) -> okT f' P -> okT f P.
Proof. intros He (N & x & Hx & E). exists (S N), x. split; [done|]. intros fuel w Hf Hw. rewrite He by lia. apply E; lia. Qed.

Section total.
Context {Op D : Type} `{Countable Op} (L : lang Op) (A : analysis Op D) (Hh : hook_free A) (Rd : D -> D -> Prop) (Hcl : merge_climbs A Rd) (here : nat).
Notation node := (node Op).
Notation egraph := (egraph Op D).
Notation prog := (prog Op D).
Notation pnode := (EGraphModel.node (pop Op)).
Implicit Types (g : egraph) (p : list pnode).
Notation next := (next L A).
Notation ready := match_ids.
Notation md := (modify_n L A).

Lemma md_fine : forall id N, id < N -> uses_known N (an_modify A id).
Proof. intros id N _. by rewrite Hh. Qed.
(** An operation that is the same for all positive fuel, and safe. *)
Lemma okT_idle {X} (F : nat -> res X) P : (exists x, forall fuel, F (S fuel) = Ok x) -> okP (F 1) P -> okT (fun fuel _ => F fuel) P.
Proof.
  intros [x Hx] Ho. rewrite Hx in Ho. exists 1, x. split; [done|]. intros [|fuel] _ Hf _; [lia|apply Hx].
Qed.
Lemma add_T n g : good g -> (forall c, c ∈ nch n -> c < size g) ->
  okT (fun fuel _ => api_add A (md fuel) n g) (fun '(g', i) => next g g' /\ i < size g').
Proof.
  intros G Hch. apply (okT_idle (fun fuel => api_add A (md fuel) n g)); [|apply (api_add_good L A); [by apply modify_n_good, md_fine|done|done]].
  destruct (add_core_safe A n g (go_inv _ G) (go_x _ G)) as (g1 & id & o & E & _).
  { apply Forall_forall. intros c Hi. rewrite (iv_len _ (go_inv _ G)). by apply Hch. }
  exists (add_log (EAdd n id) (match o with Some _ => set_clean false g1 | None => g1 end), id).
  intros fuel. unfold api_add, add_uncanonical. rewrite E. cbn [mbind res_bind]. destruct o as [h|]; [|done].
  by rewrite (hook_free_md_ok L A Hh).
Qed.
Lemma perform_union_T a b r rule g : good g -> a < size g -> b < size g -> rule = Some (JRule r) \/ (rule = None /\ eg_explain g = None) ->
  okT (fun fuel _ => perform_union A (md fuel) a b rule (add_log (EUnion a b r) g)) (fun '(g', _) => next g g').
Proof.
  intros G Ha Hb Hr. apply (okT_idle (fun fuel => perform_union A (md fuel) a b rule (add_log (EUnion a b r) g)));
    [|apply (perform_union_good L A); [by apply modify_n_good, md_fine|done..]].
  destruct (api_union_core_safe A a b r rule g (go_inv _ G) (go_x _ G)) as (g1 & o & E & _);
    [rewrite (iv_len _ (go_inv _ G)); exact Ha|rewrite (iv_len _ (go_inv _ G)); exact Hb|done|].
  eexists. intros fuel. unfold perform_union. rewrite E. cbn [mbind res_bind]. by rewrite idle_hook by (by apply hook_free_idle).
Qed.
Lemma union_T a b r g : good g -> a < size g -> b < size g -> okT (fun fuel _ => api_union A (md fuel) a b r g) (fun '(g', _) => next g g').
Proof.
  intros G Ha Hb. unfold api_union, union, union_trusted. cbn [eg_explain add_log]. destruct (eg_explain g) eqn:Ex; apply perform_union_T; auto.
Qed.
Lemma trusted_T a b r g : good g -> a < size g -> b < size g -> okT (fun fuel _ => api_union_trusted A (md fuel) a b r g) (fun '(g', _) => next g g').
Proof. intros G Ha Hb. unfold api_union_trusted, union_trusted. apply perform_union_T; auto. Qed.
Lemma rebuild_T g : good g -> okT (fun fuel _ => rebuild L A fuel (md fuel) g) (fun '(g', _) => next g g').
Proof.
  intros G. destruct (rebuild_term L A Rd g Hh Hcl G) as (f0 & g' & k & Hf & _). exists f0, (g', k). split; [|auto].
  pose proof (rebuild_good L A f0 (md f0) g (modify_n_good L A f0 md_fine) G) as Ho. by rewrite Hf in Ho.
Qed.
Lemma prog_T (p : prog) g : good g -> uses_known (size g) p -> okT (fun fuel _ => run_prog L A fuel (md fuel) p g) (next g).
Proof.
  revert g. induction p as [|k IH|n k IH|a b r k IH|a b r k IH|i d k IH|i d k IH|i f k IH|k IH]; intros g G U; cbn [run_prog uses_known] in *.
  - apply okT_ret. by apply next_refl.
  - apply IH; [done|]. apply U; [by apply (good_ids (D := D))|done].
  - destruct U as [Hch Hk]. eapply okT_bind; [by apply add_T|]. intros [g1 i] [N1 Hi].
    eapply okT_impl; [apply IH; [apply N1|]|intros; by eapply next_trans]. apply Hk; [by eapply next_size|done].
  - destruct U as (Ha & Hb & Hk). eapply okT_bind; [by apply union_T|].
    intros [g1 v] N1. eapply okT_impl; [apply IH; [apply N1|]|intros; by eapply next_trans]. apply Hk. by eapply next_size.
  - destruct U as (Ha & Hb & Hk). eapply okT_bind; [by apply trusted_T|].
    intros [g1 v] N1. eapply okT_impl; [apply IH; [apply N1|]|intros; by eapply next_trans]. apply Hk. by eapply next_size.
  - destruct U as (Hi & Hk). eapply okT_bind with (P := next g).
    + unfold set_analysis_data.
      destruct (set_data_core_safe i d g) as (g1 & r & E & X1 & ->); [apply G..|unfold size in Hi; rewrite (iv_len _ (go_inv _ G)); done|].
      rewrite E. cbn [mbind res_bind].
      assert (R : brun L A any g g1) by (eapply (brun_prim1 L A LSetData); [done|]; econstructor; eauto).
      exists 1, g1. split; [exact (next_good L A _ _ G R)|]. intros [|fuel] w Hf _; [lia|]. apply (hook_free_md_ok L A Hh).
    + intros g1 N1. eapply okT_impl; [apply IH; [apply N1|]|intros; by eapply next_trans]. apply Hk. by eapply next_size.
  - destruct U as (Hi & Hk).
    destruct (poke_data_safe i d g) as (g1 & E & X1); [apply G..|unfold size in Hi; rewrite (iv_len _ (go_inv _ G)); done|].
    rewrite E. cbn [mbind res_bind].
    assert (R : brun L A any g g1) by (eapply (brun_prim1 L A LPoke); [done|]; econstructor; eauto).
    pose proof (next_good L A _ _ G R) as N1. eapply okT_impl; [apply IH; [apply N1|]|intros; by eapply next_trans].
    eapply uses_known_mono; [|done]. by eapply next_size.
  - destruct U as (Hi & Hk).
    destruct (retain_nodes_safe i f g) as (g1 & E & X1); [apply G..|unfold size in Hi; rewrite (iv_len _ (go_inv _ G)); done|].
    rewrite E. cbn [mbind res_bind].
    assert (R : brun L A any g g1) by (eapply (brun_prim1 L A LRetain); [done|]; econstructor; eauto).
    pose proof (next_good L A _ _ G R) as N1. eapply okT_impl; [apply IH; [apply N1|]|intros; by eapply next_trans].
    eapply uses_known_mono; [|done]. by eapply next_size.
  - eapply okT_bind; [by apply rebuild_T|]. intros [g1 n] N1.
    eapply okT_impl; [apply IH; [apply N1|]|intros; by eapply next_trans]. apply U. by eapply next_size.
Qed.

Lemma add_inst_loop_T p0 p s ids g :
  dag p0 -> (exists pre, p0 = pre ++ p /\ length pre = length ids) -> good g -> bound_in g s p0 ->
  Forall (fun i => i < size g) ids ->
  okT (fun fuel _ => add_inst_loop A (md fuel) p s ids g) (fun '(g', ids') => next g g' /\ Forall (fun i => i < size g') ids' /\ length ids' = length p0).
Proof.
  intros Hd. revert ids g. induction p as [|[o cs] p IH]; intros ids g (pre & Hpre & Hl) G B Hids; cbn [add_inst_loop].
  - apply okT_ret. split_and!; [by apply next_refl|done|]. subst. by rewrite app_nil_r.
  - assert (Hp : p0 !! length ids = Some (Node o cs)) by (rewrite Hpre, <- Hl; by apply list_lookup_middle).
    assert (Hpre' : forall i, exists pre0, p0 = pre0 ++ p /\ length pre0 = length (ids ++ [i])).
    { intros i. exists (pre ++ [Node o cs]). rewrite <- app_assoc, !app_length. cbn. split; [done|lia]. }
    cbn [nop nch]. destruct o as [f|v].
    + destruct (map_children_ids f cs ids (size g)) as (m & -> & _ & Hmc); [|done|].
      { intros c Hc. exact (Hd _ _ c Hp Hc). }
      cbn [mbind res_bind]. eapply okT_bind; [by apply add_T|]. intros [g1 i] [N Hi].
      eapply okT_impl; [apply IH|]; [apply Hpre'|apply N|by eapply bound_in_next| |].
      * apply Forall_app. split; [by eapply Forall_size|by constructor].
      * intros [g2 ids'] (N2 & ? & ?). split_and!; auto. by eapply next_trans.
    + destruct (B _ _ _ Hp) as (i & Hi & Hk). unfold subst_index. rewrite Hi. cbn [expect mbind res_bind].
      unfold find_res. assert (valid_id g i = true) as -> by (by apply Nat.ltb_lt). cbn [mbind res_bind].
      apply IH; auto. apply Forall_app. split; [done|]. constructor; [|done].
      apply uf_find_lt; [apply G|done].
Qed.
Lemma apply_pat_loop_T p0 p s ids g :
  dag p0 -> (exists pre, p0 = pre ++ p /\ length pre = length ids) -> good g -> bound_in g s p0 ->
  Forall (fun i => i < size g) ids ->
  okT (fun fuel _ => apply_pat_loop A (md fuel) p s ids g) (fun '(g', ids') => next g g' /\ Forall (fun i => i < size g') ids' /\ length ids' = length p0).
Proof.
  intros Hd. revert ids g. induction p as [|[o cs] p IH]; intros ids g (pre & Hpre & Hl) G B Hids; cbn [apply_pat_loop].
  - apply okT_ret. split_and!; [by apply next_refl|done|]. subst. by rewrite app_nil_r.
  - assert (Hp : p0 !! length ids = Some (Node o cs)) by (rewrite Hpre, <- Hl; by apply list_lookup_middle).
    assert (Hpre' : forall i, exists pre0, p0 = pre0 ++ p /\ length pre0 = length (ids ++ [i])).
    { intros i. exists (pre ++ [Node o cs]). rewrite <- app_assoc, !app_length. cbn. split; [done|lia]. }
    cbn [nop nch]. destruct o as [f|v].
    + destruct (map_children_ids f cs ids (size g)) as (m & -> & _ & Hmc); [|done|].
      { intros c Hc. exact (Hd _ _ c Hp Hc). }
      cbn [mbind res_bind]. eapply okT_bind; [by apply add_T|]. intros [g1 i] [N Hi].
      eapply okT_impl; [apply IH|]; [apply Hpre'|apply N|by eapply bound_in_next| |].
      * apply Forall_app. split; [by eapply Forall_size|]. constructor; [|done]. apply uf_find_lt; [apply N|done].
      * intros [g2 ids'] (N2 & ? & ?). split_and!; auto. by eapply next_trans.
    + destruct (B _ _ _ Hp) as (i & Hi & Hk). unfold subst_index. rewrite Hi. cbn [expect mbind res_bind].
      apply IH; auto. apply Forall_app. split; [done|]. by constructor.
Qed.
Lemma add_inst_T p s g : dag p -> p <> [] -> good g -> bound_in g s p ->
  okT (fun fuel _ => add_instantiation_noncanonical A (md fuel) p s g) (fun '(g', i) => next g g' /\ i < size g').
Proof.
  intros Hd Hne G B. unfold add_instantiation_noncanonical. eapply okT_bind.
  - eapply (add_inst_loop_T p p s [] g); auto. by exists [].
  - intros [g1 ids] (N & Hids & Hl). destruct (last_ok ids (length p) (fun i => i < size g1)) as (i & -> & Hi); auto.
    { right. destruct p; [done|cbn; lia]. }
    apply okT_ret. auto.
Qed.
Lemma apply_pat_T p s g : dag p -> p <> [] -> good g -> bound_in g s p ->
  okT (fun fuel _ => apply_pat A (md fuel) p s g) (fun '(g', i) => next g g' /\ i < size g').
Proof.
  intros Hd Hne G B. unfold apply_pat. eapply okT_bind.
  - eapply (apply_pat_loop_T p p s [] g); auto. by exists [].
  - intros [g1 ids] (N & Hids & Hl). destruct (last_ok ids (length p) (fun i => i < size g1)) as (i & -> & Hi); auto.
    { right. destruct p; [done|cbn; lia]. }
    apply okT_ret. auto.
Qed.
Lemma union_inst_T p1 p2 s r g : shaped p1 -> shaped p2 -> good g -> bound_in g s p1 -> bound_in g s p2 ->
  okT (fun fuel _ => union_instantiations A (md fuel) p1 p2 s r g) (fun '(g', _) => next g g').
Proof.
  intros [Hd1 Hn1] [Hd2 Hn2] G B1 B2. unfold union_instantiations. eapply okT_bind; [by apply add_inst_T|].
  intros [g1 i1] [N1 Hi1]. eapply okT_bind; [apply add_inst_T; [done|done|apply N1|by eapply bound_in_next]|].
  intros [g2 i2] [N2 Hi2]. eapply okT_bind; [apply trusted_T; [apply N2|by eapply next_ids; [apply N1|exact N2|]|done]|].
  intros [g3 v] N3. apply okT_ret. eapply next_trans; [exact N1|]. by eapply next_trans.
Qed.
Lemma check_T cnd vars c s g : cond_safe cnd -> (forall v, v ∈ condition_vars cnd -> v ∈ vars) -> good g -> ready (size g) vars c s ->
  okT (fun fuel _ => check L A fuel cnd c s g) (fun '(g', _) => next g g').
Proof.
  intros Hc Hsub G Hr. destruct cnd as [p1 p2|vs body test]; cbn [check cond_safe condition_vars] in *.
  - destruct Hc as [[Hd1 Hn1] [Hd2 Hn2]].
    assert (B1 : bound_in g s p1) by (eapply ready_bound; [done|]; intros v Hv; apply Hsub, elem_of_app; auto).
    assert (B2 : bound_in g s p2) by (eapply ready_bound; [done|]; intros v Hv; apply Hsub, elem_of_app; auto).
    eapply okT_bind; [by apply apply_pat_T|]. intros [g1 i1] [N1 Hi1].
    eapply okT_bind; [apply apply_pat_T; [done|done|apply N1|by eapply bound_in_next]|]. intros [g2 i2] [N2 Hi2].
    apply okT_ret. by eapply next_trans.
  - eapply okT_bind; [apply prog_T; [done|]|].
    + apply Hc. eapply ready_mono; [done|exact Hsub|exact Hr].
    + intros g1 N1. by apply okT_ret.
Qed.
Section one.
Context (sast : option (list pnode)) (Hsast : forall ast, sast = Some ast -> shaped ast).
Notation sast_vars := (sast_vars sast).

Lemma pattern_one_T p sast' vars rule c s g : shaped p -> sast' = sast \/ sast' = None -> good g ->
  ready (size g) vars c s -> (forall v, v ∈ ast_vars p ++ sast_vars -> v ∈ vars) ->
  okT (fun fuel _ => pattern_apply_one L A fuel here p c s sast' rule g) (fun '(g', _) => next g g').
Proof.
  intros Hp Hs G Hr Hsub. unfold pattern_apply_one.
  assert (B : bound_in g s p) by (eapply ready_bound; [done|]; intros v Hv; apply Hsub, elem_of_app; auto).
  eapply okT_bind; [apply apply_pat_T; [apply Hp|apply Hp|done|done]|]. intros [g1 i1] [N1 Hi1].
  destruct sast' as [ast|].
  - destruct Hs as [Hs|]; [|done]. assert (Ba : bound_in g s ast).
    { eapply ready_bound; [done|]. intros v Hv. apply Hsub, elem_of_app. right. unfold sast_vars. by rewrite <- Hs. }
    eapply okT_bind; [apply union_inst_T; [by apply Hsast|done|apply N1|by eapply bound_in_next|by eapply bound_in_next]|].
    intros [g2 [from did]] N2. apply okT_ret. by eapply next_trans.
  - eapply okT_bind; [apply union_T; [apply N1|by eapply next_ids; [exact G|exact N1|apply Hr]|done]|].
    intros [g2 did] N2. apply okT_ret. by eapply next_trans.
Qed.
Lemma apply_one_T a sast' vars rule c s g : one_safe a -> sast' = sast \/ sast' = None -> good g ->
  ready (size g) vars c s -> (forall v, v ∈ applier_vars a ++ sast_vars -> v ∈ vars) ->
  okT (fun fuel _ => apply_one L A fuel here a c s sast' rule g) (fun '(g', _) => next g g').
Proof.
  intros Ha Hs. revert g. induction a as [p|asts|cnd a IH|vs body ret]; intros g G Hr Hsub; cbn [apply_one one_safe applier_vars] in *.
  - by eapply pattern_one_T.
  - done.
  - destruct Ha as [Hc Ha]. eapply okT_bind; [eapply (check_T cnd vars); [done| |done|done]|].
    + intros v Hv. apply Hsub. rewrite !elem_of_app. auto.
    + intros [g1 b] N1. destruct b; [|by apply okT_ret]. eapply okT_impl; [apply IH; [done|apply N1|by eapply next_ready|]|].
      * intros v Hv. apply Hsub. rewrite !elem_of_app in *. tauto.
      * intros [g2 l] N2. by eapply next_trans.
  - eapply okT_bind; [apply prog_T; [done|]|].
    + apply Ha. eapply ready_mono; [done| |exact Hr]. intros v Hv. apply Hsub. rewrite !elem_of_app. auto.
    + intros g1 N1. by apply okT_ret.
Qed.
Lemma pattern_T p vars rule c s g : shaped p -> (explaining g = true -> is_Some sast) -> good g ->
  ready (size g) vars c s -> (forall v, v ∈ ast_vars p ++ sast_vars -> v ∈ vars) ->
  okT (fun fuel _ => pattern_apply L A fuel here p sast rule c s g) (fun '(g', _) => next g g').
Proof.
  intros Hp He G Hr Hsub. unfold pattern_apply.
  assert (B : bound_in g s p) by (eapply ready_bound; [done|]; intros v Hv; apply Hsub, elem_of_app; auto).
  destruct (explaining g) eqn:Ex.
  - destruct (He eq_refl) as [ast Es]. rewrite Es. cbn [expect mbind res_bind].
    assert (Ba : bound_in g s ast).
    { eapply ready_bound; [done|]. intros v Hv. apply Hsub, elem_of_app. right. unfold sast_vars. by rewrite Es. }
    eapply okT_bind; [apply union_inst_T; [by apply Hsast|done|done|done|done]|].
    intros [g2 [from did]] N2. by apply okT_ret.
  - eapply okT_bind; [apply apply_pat_T; [apply Hp|apply Hp|done|done]|]. intros [g1 i1] [N1 Hi1].
    eapply okT_bind; [apply union_T; [apply N1|done|by eapply next_ids; [exact G|exact N1|apply Hr]]|].
    intros [g2 did] N2. apply okT_ret. by eapply next_trans.
Qed.
End one.
Lemma multi_clauses_T asts bnd (s : subst) g : Forall (fun cl => shaped cl.2) asts -> good g ->
  (forall v i, subst_get s v = Some i -> i < size g) -> (forall v, v ∈ bnd -> is_Some (subst_get s v)) ->
  (forall v, v ∈ multi_applier_vars bnd asts -> is_Some (subst_get s v)) ->
  okT (fun fuel _ => multi_clauses L A fuel here asts s g) (fun '(g', _) => next g g').
Proof.
  revert bnd s g. induction asts as [|[v p] asts IH]; intros bnd s g Hf G Hi Hb Hv; cbn [multi_clauses].
  - apply okT_ret. by apply next_refl.
  - inversion Hf as [|? ? Hp Hf']; subst. cbn [multi_applier_vars] in Hv.
    assert (B : bound_in g s p).
    { intros j w cs Hj. assert (is_Some (subst_get s w)) as [i Ei].
      { destruct (decide (w ∈ bnd)) as [?|Hn]; [auto|]. apply Hv, elem_of_app. left. apply elem_of_list_filter. split; [done|].
        apply ast_vars_elem. exists cs. by eapply elem_of_list_lookup_2. }
      exists i. split; [done|]. exact (Hi w i Ei). }
    eapply okT_bind; [apply apply_pat_T; [apply Hp|apply Hp|done|done]|]. intros [g1 i1] [N1 Hi1].
    destruct (subst_insert s v i1) as [s1 old] eqn:Es.
    assert (Hs1 : forall w, subst_get s1 w = if decide (w = v) then Some i1 else subst_get s w).
    { intros w. pose proof (subst_insert_get s v i1 w) as Hg. by rewrite Es in Hg. }
    assert (Hold : forall k, old = Some k -> k < size g).
    { intros k ->. apply (Hi v). pose proof (subst_insert_old s v i1) as Ho. by rewrite Es in Ho. }
    eapply okT_bind with (P := fun g2 => next g1 g2).
    + destruct old as [k|]; [|by apply okT_ret, next_refl, N1].
      eapply okT_bind; [apply union_T; [apply N1|done|by eapply next_ids; [exact G|exact N1|auto]]|]. intros [g2 b] N2. by apply okT_ret.
    + intros g2 N2. assert (N : next g g2) by (by eapply next_trans).
      eapply okT_bind; [apply (IH (v :: bnd)); [done|apply N2| | |]|].
      * intros w k Hw. rewrite Hs1 in Hw. destruct (decide (w = v)); [injection Hw as <-; by eapply next_ids; [apply N1|exact N2|]|].
        eapply next_ids; [exact G|exact N|eauto].
      * intros w [->|Hw]%elem_of_cons; rewrite Hs1; destruct (decide _); eauto. done.
      * intros w Hw. rewrite Hs1. destruct (decide (w = v)); [eauto|]. apply Hv, elem_of_app. by right.
      * intros [g3 l] N3. apply okT_ret. by eapply next_trans.
Qed.
Lemma each_T {X} (f : nat -> nat -> X -> egraph -> res (egraph * list nat)) xs (Pre : X -> egraph -> Prop) g :
  (forall x g, x ∈ xs -> good g -> Pre x g -> okT (fun fuel w => f fuel w x g) (fun '(g', _) => next g g')) ->
  (forall x g g', good g -> next g g' -> Pre x g -> Pre x g') ->
  good g -> (forall x, x ∈ xs -> Pre x g) -> okT (fun fuel w => each (f fuel w) xs g) (fun '(g', _) => next g g').
Proof.
  intros Hf Hm. revert g. induction xs as [|x xs IH]; intros g G Hp; cbn [each]; [by apply okT_ret, next_refl|].
  eapply okT_bind; [apply Hf; [left|done|apply Hp; left]|]. intros [g1 l1] N1.
  eapply okT_bind; [apply IH; [|apply N1|]|].
  - intros y g0 Hy. apply Hf. by right.
  - intros y Hy. eapply Hm; [exact G|exact N1|]. apply Hp. by right.
  - intros [g2 l2] N2. apply okT_ret. by eapply next_trans.
Qed.
Lemma apply_matches_T a sast rule ms g : (forall ast, sast = Some ast -> shaped ast) -> applier_safe a ->
  (explaining g = true -> forall p, a = APattern p -> is_Some sast) -> good g ->
  (forall c s, (c, s) ∈ pairs ms -> ready (size g) (applier_vars a ++ sast_vars sast) c s) ->
  okT (fun fuel _ => apply_matches L A fuel here a sast rule ms g) (fun '(g', _) => next g g').
Proof.
  intros Hs Ha He G Hr.
  assert (K : forall f, (forall c s g0, good g0 -> explaining g0 = explaining g -> ready (size g0) (applier_vars a ++ sast_vars sast) c s ->
      okT (fun fuel w => f fuel w c s g0) (fun '(g', _) => next g0 g')) -> okT (fun fuel w => for_matches (f fuel w) ms g) (fun '(g', _) => next g g')).
  { intros f Hf. eapply okT_eq; [intros fuel w _; apply for_matches_pairs|].
    eapply (each_T (fun fuel w '(c, s) => f fuel w c s) _ (fun x g0 => explaining g0 = explaining g /\ ready (size g0) (applier_vars a ++ sast_vars sast) x.1 x.2)); [| |done|].
    - intros [c s] g0 _ G0 [E0 R0]. by apply Hf.
    - intros x g0 g1 G0 N0 [E0 R0]. split; [|by eapply next_ready]. rewrite <- E0. apply (brun_explain L A any); [apply N0|apply G0].
    - intros [c s] Hin. split; [done|]. by apply Hr. }
  destruct a as [p|asts|cnd a|vs body ret]; cbn [apply_matches applier_safe] in *; apply K; intros c s g0 G0 E0 R0.
  - eapply pattern_T; [done|done| |done|done|done]. rewrite E0. intros Ex. by eapply He.
  - unfold multi_apply. eapply okT_bind; [eapply (multi_clauses_T asts []); [done|done|apply R0| |]|].
    + intros v Hn%elem_of_nil. done.
    + intros v Hv. apply R0, elem_of_app. by left.
    + intros [g1 l] N1. by apply okT_ret.
  - eapply (apply_one_T sast); [done|done| |done|done|done]. destruct (explaining g0); auto.
  - eapply (apply_one_T sast); [done|done| |done|done|done]. destruct (explaining g0); auto.
Qed.
End total.
