(** Conditional rules: what [ConditionEqual] answers, when a conditional rule fires. *)
From Verif Require Import Base UnionFind EGraphModel EGraphSteps EGraphInv EGraphPres EGraphRuns Spec EGraphMain EGraphReach EGraphOps EGraphSafe
  EGraphNoPanic Terms RecExprModel RecExprProofs ExprModel PatSpec ExprProofs ExprSafe MachineModel MatchSpec MatchProofs MachineProofs CompileProofs
  CompileMain SearchProofs SearchMain MultiProofs MatchMain MatchProps RewriteModel RewriteProofs AlgSpec AlgProofs AlgRules RewriteMain RuleSpec
  Completion RuleSafe RuleProps.

Section cond.
Context {Op D : Type} `{Countable Op} (L : lang Op) (A : analysis Op D).
Notation egraph := (egraph Op D).
Notation pnode := (EGraphModel.node (pop Op)).
Implicit Types (g : egraph) (p : list pnode).

Lemma condition_equal ex fuel p1 p2 t1 t2 c (s : subst) g g' b :
  reachable_np L A ex g -> good_ast p1 -> ExprTree p1 t1 -> good_ast p2 -> ExprTree p2 t2 ->
  check L A fuel (CEqual p1 p2) c s g = Ok (g', b) ->
  (b = true -> exists r, PRep g' (subst_get s) t1 r /\ PRep g' (subst_get s) t2 r) /\
  (hook_free A -> eg_clean g = true -> rooted p1 -> rooted p2 ->
   (forall v i, subst_get s v = Some i -> known g i /\ eg_find g i = i) ->
   (exists r, PRep g (subst_get s) t1 r /\ PRep g (subst_get s) t2 r) -> b = true).
Proof.
  intros [Hmod R] Hp1 Ht1 Hp2 Ht2 E. assert (R0 : reachable L A ex g) by (by eapply reach_mono). split.
  - intros ->. destruct (good_ast_tree p1 Hp1) as [Hok1 _]. destruct (good_ast_tree p2 Hp2) as [Hok2 _].
    destruct (check_step L A no_prune ex fuel (CEqual p1 p2) c s g g' true) as [R' _]; [apply calls_np|by split|done|done|].
    destruct (check_equal_joined L A no_prune ex fuel p1 p2 c s g g' t1 t2) as (i1 & i2 & H1 & H2 & Eq); auto; [apply calls_np|].
    assert (Rr : reachable L A ex g') by (by eapply reach_mono).
    pose proof (reachable_Inv _ _ _ _ Rr) as I'. pose proof (reach_listed L A ex g' (conj Hmod R')) as Ls'.
    exists (eg_find g' i1). split; apply NRep_PRep; auto. unfold at_id in H2. by rewrite Eq.
  - intros Hh Ec Hr1 Hr2 Hs (r & H1 & H2). pose proof (reachable_Inv _ _ _ _ R0) as I. pose proof (reach_listed L A ex g (conj Hmod R)) as Ls.
    eapply (check_equal_complete L A ex fuel p1 p2 t1 t2 c s g g' b r); eauto.
    + by eapply reachable_clean.
    + intros v i Hi. destruct (Hs v i Hi). auto.
    + by apply NRep_PRep.
    + by apply NRep_PRep.
Qed.

Section rule.
Context (Lo : lang_ok L) (it : gset nat -> list nat) (Hit : enumerates it)
  (ord : gmap (nat * nat) (node Op) -> list (nat * nat)) (Hord : enumerates_keys ord) (ex : bool) (g : egraph).
Context (R : reachable_np L A ex g) (Ec : eg_clean g = true) (Hh : hook_free A).

(** One match: the rule fires if the two instances are equal in [g]; if the check says no, nothing is merged. *)
Lemma conditional_fires fuel0 ast pl tl p1 t1 p2 t2 pr tr cycles k ms c s name fuel here g1 ids fuel' g2 n :
  good_ast ast -> pattern_new ord fuel0 ast = Ok pl -> ExprTree (pt_ast pl) tl ->
  good_ast p1 -> rooted p1 -> ExprTree p1 t1 -> good_ast p2 -> rooted p2 -> ExprTree p2 t2 -> good_ast pr -> ExprTree pr tr ->
  search_with_limit L it cycles pl g k = Ok ms -> (c, s) ∈ pairs ms ->
  rewrite_apply L A fuel here (Rewrite name (SPattern pl) (ACond (CEqual p1 p2) (APattern pr))) [SMatch c [s]] g = Ok (g1, ids) ->
  rebuild L A fuel' (modify_n L A fuel') g1 = Ok (g2, n) ->
  ((exists r, PRep g (subst_get s) t1 r /\ PRep g (subst_get s) t2 r) -> PRep g2 (subst_get s) tr (eg_find g2 c)) /\
  (forall g', check L A fuel (CEqual p1 p2) c s g = Ok (g', false) ->
     ids = [] /\ forall i j, known g i -> known g j -> (eg_find g2 i = eg_find g2 j <-> eg_find g i = eg_find g j)).
Proof.
  intros Hast Hn Htl Hp1 Hr1 Ht1 Hp2 Hr2 Ht2 Hpr Htr Es Hin Ea Er.
  destruct (search_at L A Lo it Hit ord Hord ex g R Ec fuel0 ast pl tl cycles k ms c s Hast Hn Htl Es Hin) as (Hat & _ & Hs & _ & _).
  destruct (np_facts L A ex g R Ec) as (I & Ls & Ep). destruct R as [Hmod Rq]. assert (R0 : reachable L A ex g) by (by eapply reach_mono).
  destruct Hast as (Hd & Hok & Hne). destruct (pattern_new_ast ord fuel0 ast pl Hd Hok Hne Hn) as (Hd' & Hok' & Hne' & _ & _).
  destruct (good_ast_tree pr Hpr) as [Hokr _].
  unfold rewrite_apply in Ea. cbn [rw_applier rw_searcher rw_name searcher_ast apply_matches] in Ea. unfold default_apply in Ea.
  rewrite for_matches_pairs in Ea. cbn [pairs fmap list_fmap sm_class sm_substs concat app each apply_one] in Ea.
  destruct (check L A fuel (CEqual p1 p2) c s g) as [[g0 b]| |] eqn:Ek; [|done|done]. cbn [mbind res_bind] in Ea.
  assert (Hsa : forall ast, (if explaining g then Some (pt_ast pl) else None) = Some ast -> pat_ok ast /\ exists tl, ExprTree ast tl).
  { intros a. destruct (explaining g); [|done]. intros [= <-]. split; [done|]. eauto. }
  destruct (check_step L A no_prune ex fuel (CEqual p1 p2) c s g g0 b) as [R1 G1]; [apply calls_np|by split|done|done|]. split.
  - intros Hr. destruct (condition_equal ex fuel p1 p2 t1 t2 c s g g0 b (conj Hmod Rq) Hp1 Ht1 Hp2 Ht2 Ek) as [_ Hb].
    rewrite (Hb Hh Ec Hr1 Hr2 Hs Hr) in Ea.
    destruct (pattern_apply_one _ _ _ _ _ _ _ _ _ _) as [[g3 l3]| |] eqn:E3; [|done|done]. cbn [mbind res_bind] in Ea. injection Ea as <- _.
    destruct (pattern_one_step L A no_prune ex fuel here pr (if explaining g then Some (pt_ast pl) else None) name c s g0 g3 l3 tr) as (R3 & G3 & HP); auto;
      [apply calls_np|].
    destruct (rebuild_step L A no_prune ex fuel' g3 g2 n) as (R2 & G2 & Ec2); auto; [apply calls_np|].
    assert (R2' : reachable L A ex g2) by (by eapply reach_mono). pose proof (reachable_Inv _ _ _ _ R2') as I2.
    apply NRep_PRep; [done|exact (reach_listed L A ex g2 (conj Hmod R2))|]. change (at_id g2 (subst_get s) tr c).
    destruct (explaining g); [|eapply at_grows; [exact G2|exact HP]].
    destruct (joined_grows _ _ _ _ _ G2 (HP tl Htl)) as (i1 & i2 & H1 & H2 & Eq). eapply at_same; [|exact H2]. rewrite <- Eq.
    eapply NRep_fun_clean; [exact I2|by eapply (reachable_clean L A ex)|exact H1|].
    eapply at_grows; [exact G2|]. eapply at_grows; [exact G3|]. eapply at_grows; [exact G1|]. done.
  - intros g' [= -> ->]. cbn [mbind res_bind] in Ea. injection Ea as <- <-. split; [done|].
    assert (exists nu1, carries (complete g) (fun i => CId (eg_find g i)) g g' nu1) as [nu1 C1].
    { cbn [check] in Ek. destruct (apply_pat _ _ p1 _ _) as [[g3 a1]| |] eqn:E1; [|done|done]. cbn [mbind res_bind] in Ek.
      destruct (apply_pat _ _ p2 _ _) as [[g4 a2]| |] eqn:E2; [|done|done]. cbn [mbind res_bind] in Ek. injection Ek as <- _.
      destruct (good_ast_tree p1 Hp1) as [Hok1 _].
      destruct (apply_pat_models L A Hh (complete g) ex fuel p1 s g g3 a1 (fun i => CId (eg_find g i)) R0) as (nu1 & C1); [by eapply complete_models|done|].
      destruct (apply_pat_step L A no_prune ex fuel p1 s g g3 a1 t1) as (R3 & _ & _); auto; [apply calls_np|].
      destruct (apply_pat_models L A Hh (complete g) ex fuel p2 s g3 g4 a2 nu1) as (nu2 & C2); [by eapply reach_mono|apply C1|done|].
      exists nu2. by eapply carries_trans. }
    eapply (unmerged L A Hh ex g g' nu1 fuel' g2 n); auto. by eapply reach_mono.
Qed.

(** Any matches: only conditional equalities are asserted. *)
Lemma conditional_only fuel0 ast pl tl p1 t1 p2 t2 pr tr cycles k ms name fuel here g1 ids fuel' g2 n :
  good_ast ast -> pattern_new ord fuel0 ast = Ok pl -> ExprTree (pt_ast pl) tl ->
  good_ast p1 -> ExprTree p1 t1 -> good_ast p2 -> ExprTree p2 t2 -> good_ast pr -> ExprTree pr tr ->
  search_with_limit L it cycles pl g k = Ok ms ->
  rewrite_apply L A fuel here (Rewrite name (SPattern pl) (ACond (CEqual p1 p2) (APattern pr))) ms g = Ok (g1, ids) ->
  rebuild L A fuel' (modify_n L A fuel') g1 = Ok (g2, n) ->
  forall a b, known g a -> known g b -> eg_find g2 a = eg_find g2 b ->
  forall (V : Type) (F : Op -> list V -> V) nu, models F nu (eg_log g) ->
    (forall m s, m ∈ ms -> s ∈ sm_substs m ->
       peval F (value_of nu (subst_get s)) t1 = peval F (value_of nu (subst_get s)) t2 -> nu (sm_class m) = peval F (value_of nu (subst_get s)) tr) ->
    nu a = nu b.
Proof.
  intros Hast Hn Htl Hp1 Ht1 Hp2 Ht2 Hpr Htr Es Ea Er a b Ka Kb Eab V F nu M Hms.
  assert (Hat : forall c s, (c, s) ∈ pairs ms -> at_id g (subst_get s) tl c /\ (forall v i, subst_get s v = Some i -> known g i) /\ known g c).
  { intros c s Hin. destruct (search_at L A Lo it Hit ord Hord ex g R Ec fuel0 ast pl tl cycles k ms c s Hast Hn Htl Es Hin) as (? & ? & H3 & ? & ?).
    split_and!; auto. intros v i Hi. by destruct (H3 v i Hi). }
  destruct R as [Hmod Rq]. assert (R0 : reachable L A ex g) by (by eapply reach_mono).
  destruct Hast as (Hd & Hok & Hne). destruct (pattern_new_ast ord fuel0 ast pl Hd Hok Hne Hn) as (Hd' & Hok' & Hne' & _ & _).
  assert (Hpl : forall a, Some (pt_ast pl) = Some a -> good_ast a) by (by intros ? [= <-]).
  unfold rewrite_apply in Ea. cbn [rw_applier rw_searcher rw_name searcher_ast] in Ea.
  destruct (apply_matches_step L A no_prune ex fuel here (ACond (CEqual p1 p2) (APattern pr)) (Some (pt_ast pl)) name ms g g1 ids) as [R1 G1]; auto;
    [apply calls_np|by split; [split|]|].
  destruct (apply_matches_models L A Hh F no_prune calls_np ex fuel here (Some (pt_ast pl)) Hpl (ACond (CEqual p1 p2) (APattern pr)) (fun _ => True)
    (fun x th => x = peval F th tl /\ (peval F th t1 = peval F th t2 -> x = peval F th tr)) name ms g g1 ids nu) as (nu1 & C1); auto.
  - by split; [split|].
  - intros ast' t x th [= <-] Ht [Hx _]. by rewrite (ExprTree_fun _ _ _ Ht Htl).
  - exists (fun _ th => peval F th t1 = peval F th t2). split.
    + intros u1 u2 x th Hu1 Hu2. by rewrite (ExprTree_fun _ _ _ Hu1 Ht1), (ExprTree_fun _ _ _ Hu2 Ht2).
    + intros t x th Ht [[_ Hx] Hc]. rewrite (ExprTree_fun _ _ _ Ht Htr). auto.
  - intros c s Hin. destruct (Hat c s Hin) as (H1 & H2 & H3). split; [|intros v i Hi; split; [done|by eapply H2]].
    intros g3 nu3 G3 R3 C3. destruct C3 as (M3 & K3 & _). split.
    + eapply (at_id_eval L A F nu3 ex g3); [by eapply reach_mono|done|]. eapply at_grows; [exact G3|done].
    + rewrite (K3 c H3). assert (Hv : forall t, peval F (value_of nu3 (subst_get s)) t = peval F (value_of nu (subst_get s)) t).
      { intros t. apply peval_ext. by eapply value_agree. }
      rewrite !Hv.
      apply pairs_in in Hin as (m & Hm & <- & Hs). by apply Hms.
  - destruct C1 as (M1 & K1 & N1). assert (R1' : reachable L A ex g1) by (by eapply reach_mono).
    destruct (rebuild_models L A Hh F ex fuel' g1 g2 n nu1 R1' M1 Er) as (M2 & _ & _).
    destruct (rebuild_step L A no_prune ex fuel' g1 g2 n) as (R2 & G2 & Ec2); auto; [apply calls_np|].
    rewrite <- (K1 a Ka), <- (K1 b Kb). eapply (models_same L A F nu1 ex g2); [by eapply reach_mono|done|done].
Qed.
End rule.
End cond.

Section client.
Context {Op D : Type} `{Countable Op} (L : lang Op) (A : analysis Op D) (fuel here : nat).
Lemma each_filter {X} (P : X -> Prop) `{forall x, Decision (P x)} (f h : X -> egraph Op D -> res (egraph Op D * list nat)) xs :
  (forall x g, x ∈ xs -> h x g = if decide (P x) then f x g else Ok (g, [])) -> forall g, each h xs g = each f (filter P xs) g.
Proof.
  induction xs as [|x xs IH]; intros Hh g; [done|]. assert (IH' := IH (fun y g Hy => Hh y g (elem_of_list_further _ _ _ Hy))).
  cbn [each]. rewrite (Hh x g (elem_of_list_here _ _)). rewrite filter_cons. destruct (decide (P x)).
  - cbn [each]. destruct (f x g) as [[g1 l1]| |]; [|done|done]. cbn [mbind res_bind]. by rewrite IH'.
  - cbn [mbind res_bind]. rewrite IH'. by destruct (each f (filter P xs) g) as [[? ?]| |].
Qed.
Lemma each_map {X Y} (k : X -> Y) (h : X -> egraph Op D -> res (egraph Op D * list nat)) (f : Y -> egraph Op D -> res (egraph Op D * list nat)) xs :
  (forall x g, h x g = f (k x) g) -> forall g, each h xs g = each f (k <$> xs) g.
Proof.
  intros Hh. induction xs as [|x xs IH]; intros g; [done|]. cbn [each fmap list_fmap]. rewrite Hh.
  destruct (f (k x) g) as [[g1 l1]| |]; [|done|done]. cbn [mbind res_bind]. by rewrite IH.
Qed.
Lemma client_condition name sr vars (f : nat -> subst -> bool) (a : applier Op D) ms (g : egraph Op D) :
  (forall p, a <> APattern p) -> (forall asts, a <> AMulti asts) ->
  rewrite_apply L A fuel here (Rewrite name sr (ACond (CFn vars (fun _ _ => PRet) (fun e s _ => f e s)) a)) ms g =
  rewrite_apply L A fuel here (Rewrite name sr a) ((fun m => SMatch (sm_class m) (filter (fun s => f (sm_class m) s = true) (sm_substs m))) <$> ms) g.
Proof.
  intros H1 H2. unfold rewrite_apply. cbn [rw_applier rw_searcher rw_name].
  assert (Hd : forall ms g, apply_matches L A fuel here a (searcher_ast sr) name ms g = default_apply L A fuel here a (searcher_ast sr) name ms g).
  { intros. destruct a; try done; [by destruct (H1 p)|by destruct (H2 asts)]. }
  rewrite Hd. cbn [apply_matches]. unfold default_apply, for_matches. apply each_map. intros m g1. cbn [sm_class sm_substs].
  apply each_filter. intros s g2 _. cbn [apply_one check].
  assert (Hr : run_prog L A fuel (modify_n L A fuel) PRet g2 = Ok g2) by done. rewrite Hr. cbn [mbind res_bind].
  destruct (decide (f (sm_class m) s = true)) as [->|Hf]; [done|]. by destruct (f (sm_class m) s).
Qed.
End client.
