(** Rules on their own matches: variables, safety, exactness, soundness. *)
From Verif Require Import Base UnionFind EGraphModel EGraphSteps EGraphInv EGraphPres EGraphRuns Spec EGraphMain EGraphReach EGraphOps EGraphSafe
  EGraphNoPanic Terms RecExprModel RecExprProofs ExprModel PatSpec ExprProofs ExprSafe MachineModel MatchSpec MatchProofs MachineProofs CompileProofs
  CompileMain SearchProofs SearchMain MultiProofs MatchMain MatchProps RewriteModel RewriteProofs AlgSpec AlgProofs AlgRules RewriteMain RuleSpec
  Completion RuleSafe.

Section props.
Context {Op D : Type} `{Countable Op} (L : lang Op) (A : analysis Op D).
Notation egraph := (egraph Op D).
Notation prog := (prog Op D).
Notation pnode := (EGraphModel.node (pop Op)).
Implicit Types (g : egraph) (p : list pnode).

(** ** Variables *)
Lemma applier_vars_needs (a : applier Op D) v : v ∈ applier_vars a <-> needs a v.
Proof.
  induction a as [p|asts|c a IH|vars body ret]; cbn [applier_vars needs].
  - apply ast_vars_elem.
  - rewrite multi_applier_vars_elem. split; intros (pre & bv & p & post & E & Hv & Hb); exists pre, bv, p, post.
    + split_and!; [done|by apply ast_vars_elem|apply Hb].
    + split_and!; [done|by apply ast_vars_elem|apply not_elem_of_nil|apply Hb].
  - rewrite elem_of_app, IH. destruct c as [p1 p2|vars body test]; cbn [condition_vars cond_needs]; [|done].
    by rewrite elem_of_app, !ast_vars_elem.
  - done.
Qed.
Lemma searcher_vars_provides (s : searcher (Op := Op)) v : v ∈ searcher_vars s <-> provides s v.
Proof.
  destruct s as [p|m]; cbn [searcher_vars provides].
  - rewrite elem_of_list_to_set. apply ast_vars_elem.
  - rewrite multi_vars_elem. split; intros (bv & p & Hin & [Hv|Hv]); exists bv, p; (split; [done|]); auto; right; by apply ast_vars_elem.
Qed.
Lemma rewrite_new_none name s (a : applier Op D) : rewrite_new name s a = None <-> exists v, needs a v /\ ~ provides s v.
Proof.
  unfold rewrite_new. destruct (forallb _ _) eqn:E; split; try done.
  - intros (v & Hn & Hp). rewrite forallb_forall in E. apply applier_vars_needs in Hn. apply elem_of_list_In in Hn.
    apply E, bool_decide_eq_true in Hn. by apply searcher_vars_provides in Hn.
  - intros _. apply Is_true_false_2 in E. assert (~ Forall (fun v => v ∈ searcher_vars s) (applier_vars a)) as Hn.
    { intros Hf. apply E, Is_true_true_2, forallb_forall. intros v Hv%elem_of_list_In. apply bool_decide_eq_true. rewrite Forall_forall in Hf. auto. }
    apply not_Forall_Exists in Hn; [|intros; apply _]. apply Exists_exists in Hn as (v & Hv & Hs). exists v.
    split; [by apply applier_vars_needs|]. intros Hp. by apply Hs, searcher_vars_provides.
Qed.
Lemma rewrite_new_some name s (a : applier Op D) rw : rewrite_new name s a = Some rw ->
  rw = Rewrite name s a /\ forall v, needs a v -> provides s v.
Proof.
  intros E. split; [unfold rewrite_new in E; destruct (forallb _ _); by inversion E|].
  intros v Hn. destruct (decide (v ∈ searcher_vars s)) as [?|Hv]; [by apply searcher_vars_provides|]. exfalso.
  assert (rewrite_new name s a = None) by (apply rewrite_new_none; exists v; split; [done|]; by rewrite <- searcher_vars_provides). congruence.
Qed.

(** ** Matches *)
Section found.
Context (Lo : lang_ok L) (it : gset nat -> list nat) (Hit : enumerates it)
  (ord : gmap (nat * nat) (node Op) -> list (nat * nat)) (Hord : enumerates_keys ord) (ex : bool) (g : egraph).
Context (R : reachable_np L A ex g) (Ec : eg_clean g = true).

Definition found_in g (s : searcher (Op := Op)) (c : nat) (st : subst) : Prop :=
  match s with
  | SPattern p => forall t, ExprTree (pt_ast p) t -> at_id g (subst_get st) t c
  | SMulti m => (exists v p ps, mp_asts m = (v, p) :: ps /\ subst_get st v = Some c) /\ Forall (holds_at g (subst_get st)) (mp_asts m)
  end.
Lemma found_grows g1 g2 s c st : grows g1 g2 -> found_in g1 s c st -> found_in g2 s c st.
Proof.
  intros G. destruct s as [p|m]; cbn.
  - intros Hf t Ht. eapply at_grows; [exact G|auto].
  - intros [Hv Hf]. split; [done|]. eapply Forall_impl; [exact Hf|]. intros cl. by apply holds_at_grows.
Qed.
Lemma found_facts s cycles k ms c st : searcher_built ord s -> searcher_search L it cycles s g k = Ok ms -> (c, st) ∈ pairs ms ->
  known g c /\ eg_find g c = c /\ (forall v i, subst_get st v = Some i -> known g i /\ eg_find g i = i) /\
  (forall v, is_Some (subst_get st v) <-> provides s v) /\ found_in g s c st.
Proof.
  intros Hb Es Hin. destruct s as [p|m]; cbn [searcher_built searcher_search found_in provides] in *.
  - destruct Hb as (fuel & ast & Hg & Hr & Hn). destruct Hg as (Hd & Hok & Hne).
    destruct (pattern_new_ast ord fuel ast p Hd Hok Hne Hn) as (Hd' & Hok' & Hne' & _ & _). pose proof (conj Hd (conj Hok Hne)) as Hg.
    destruct (good_ast_tree (pt_ast p) (conj Hd' (conj Hok' Hne'))) as [_ [t Ht]].
    destruct (search_at L A Lo it Hit ord Hord ex g R Ec fuel ast p t cycles k ms c st Hg Hn Ht Es Hin) as (H1 & H2 & H3 & H4 & H5).
    split_and!; auto.
    + intros v. rewrite H2. rewrite <- (pattern_new_vars ord fuel ast p t v Hg Hr Hn Ht). apply ast_vars_elem.
    + intros t' Ht'. by rewrite (ExprTree_fun _ _ _ Ht' Ht).
  - destruct Hb as (fuel & v1 & p1 & ps & Hg & Ho & Hn).
    assert (Hg' : Forall (fun cl => good_ast cl.2) ((v1, p1) :: ps)) by (eapply Forall_impl; [exact Hg|]; by intros ? [? _]).
    destruct (multi_search_main L A it ord ex g fuel v1 p1 ps m cycles Lo Hit Hord R Ec Hg' Ho Hn) as (all & Hk & _ & Hsound & _).
    destruct (Hk k) as (ms' & Es' & Hp & _). rewrite Es in Es'. injection Es' as <-.
    assert (Hin' : (c, st) ∈ all).
    { rewrite Hp in Hin. rewrite <- (take_drop k all). apply elem_of_app. by left. }
    destruct (Hsound c st Hin') as (H1 & H2 & H3 & H4).
    assert (Em : mp_asts m = (v1, p1) :: ps).
    { unfold multipattern_new in Hn. destruct (compile_from_multi_pat _ _ _); [|done|done]. cbn [mbind res_bind] in Hn. by injection Hn as <-. }
    destruct (np_facts L A ex g R Ec) as (I & Ls & _). destruct (H2 _ _ H3) as [Hkc Hfc].
    split_and!; auto.
    + intros v. rewrite H1, Em. rewrite Forall_forall in Hg. split.
      * intros ([bv p] & Hcl & [Hv|(t & Ht & Ho')]); exists bv, p; (split; [done|]); [by left|right].
        destruct (Hg _ Hcl) as [Hgp Hrp]. cbn in *. apply ast_vars_elem. by apply (rooted_vars p t v Hgp Hrp Ht).
      * intros (bv & p & Hcl & [->|Hv]); exists (bv, p); (split; [done|]); [by left|right]. destruct (Hg _ Hcl) as [Hgp Hrp]. cbn in *.
        destruct (good_ast_tree p Hgp) as [_ [t Ht]]. exists t. split; [done|]. apply (rooted_vars p t v Hgp Hrp Ht). by apply ast_vars_elem.
    + rewrite Em. eauto.
    + rewrite Em. eapply Forall_impl; [exact H4|]. intros cl (i & t & Hi & Ht & Hr). exists i, t. split_and!; auto. by apply NRep_PRep.
Qed.

(** *** Accepted rules do not panic *)
Lemma fine_safe (a : applier Op D) : applier_fine a -> applier_safe a.
Proof.
  assert (K : forall p, good_ast p -> shaped p) by (intros p (? & ? & ?); by split).
  assert (Hc : forall c : condition Op D, cond_fine c -> cond_safe c).
  { intros [p1 p2|vars body test]; cbn; [|done]. intros [? ?]. auto. }
  assert (H1 : one_fine a -> one_safe a).
  { induction a as [p|asts|c a IH|vars body ret]; cbn; auto. intros [? ?]. auto. }
  destruct a; cbn; auto. intros Hf. eapply Forall_impl; [exact Hf|]. intros; by apply K.
Qed.
Lemma built_sast s ast : searcher_built ord s -> searcher_ast s = Some ast -> good_ast ast.
Proof.
  destruct s as [p|m]; [|done]. intros (fuel & ast' & (Hd & Hok & Hne) & Hr & Hn) [= <-].
  by destruct (pattern_new_ast ord fuel ast' p Hd Hok Hne Hn) as (? & ? & ? & _).
Qed.
Lemma rule_no_panic name s a rw cycles k ms fuel here :
  (forall id N, id < N -> uses_known N (an_modify A id)) -> searcher_built ord s -> applier_fine a ->
  (ex = true -> forall m p, s = SMulti m -> a <> APattern p) ->
  rewrite_new name s a = Some rw -> searcher_search L it cycles s g k = Ok ms -> rewrite_apply L A fuel here rw ms g <> Panic.
Proof.
  intros Hhook Hb Ha Hx Hnew Es E. apply rewrite_new_some in Hnew as [-> Hsub]. unfold rewrite_apply in E. cbn [rw_applier rw_searcher rw_name] in E.
  pose proof (reachable_np_reachable _ _ _ _ R) as R'.
  pose proof (apply_matches_good L A Hhook fuel here a (searcher_ast s) name ms g) as Hok. rewrite E in Hok. apply Hok.
  - intros ast Hs. destruct (built_sast s ast Hb Hs) as (? & ? & ?). by split.
  - by apply fine_safe.
  - intros Hex p Hp. unfold explaining in Hex. rewrite (reach_explain L A ex g R') in Hex. destruct s as [q|m]; [by eexists|].
    by destruct (Hx Hex m p eq_refl).
  - by eapply reachable_good.
  - intros c st Hin. destruct (found_facts s cycles k ms c st Hb Es Hin) as (H1 & H2 & H3 & H4 & H5). split_and!; [exact H1|by intros; eapply H3|].
    intros v [Hv|Hv]%elem_of_app; apply H4.
    + apply Hsub. by apply applier_vars_needs.
    + apply searcher_vars_provides. unfold sast_vars in Hv. destruct s as [q|m]; cbn in *; [by apply elem_of_list_to_set|by apply elem_of_nil in Hv].
Qed.

(** *** Exactness *)
Lemma value_agree {V} (nu nu' : nat -> V) (st : subst) c : (forall k, known g k -> nu' k = nu k) -> known g c ->
  (forall v i, subst_get st v = Some i -> known g i) -> forall v, value_of nu' (subst_get st) v = value_of nu (subst_get st) v.
Proof.
  intros Hk Hc Hi v. unfold value_of. destruct (subst_get st v) as [i|] eqn:E; [apply Hk; by eapply Hi|]. apply Hk. unfold known in *. lia.
Qed.

Lemma peval_ext {V} (F : Op -> list V -> V) th th' t : (forall v, th v = th' v) -> peval F th t = peval F th' t.
Proof. intros Ht. apply peval_agree. intros v _. apply Ht. Qed.
Lemma pattern_rule_main fuel0 ast pl tl pr tr cycles k ms name fuel here g1 ids fuel' g2 n :
  good_ast ast -> pattern_new ord fuel0 ast = Ok pl -> ExprTree (pt_ast pl) tl -> good_ast pr -> ExprTree pr tr ->
  search_with_limit L it cycles pl g k = Ok ms ->
  rewrite_apply L A fuel here (Rewrite name (SPattern pl) (APattern pr)) ms g = Ok (g1, ids) ->
  rebuild L A fuel' (modify_n L A fuel') g1 = Ok (g2, n) ->
  reachable_np L A ex g2 /\ eg_clean g2 = true /\
  (forall m s, m ∈ ms -> s ∈ sm_substs m ->
     PRep g2 (subst_get s) tl (eg_find g2 (sm_class m)) /\ PRep g2 (subst_get s) tr (eg_find g2 (sm_class m))) /\
  (hook_free A -> forall a b, known g a -> known g b ->
     (eg_find g2 a = eg_find g2 b <-> forall (V : Type) (F : Op -> list V -> V) nu, obeys F nu g ms tr -> nu a = nu b)).
Proof.
  intros Hast Hn Htl Hpr Htr Es Ea Er. unfold rewrite_apply in Ea. cbn [rw_applier rw_searcher rw_name searcher_ast] in Ea.
  pose proof (reachable_np_reachable _ _ _ _ R) as R'. destruct R as [Hmod Rq].
  destruct Hast as (Hd & Hok & Hne). destruct (pattern_new_ast ord fuel0 ast pl Hd Hok Hne Hn) as (Hd' & Hok' & Hne' & _ & _).
  pose proof (conj Hd (conj Hok Hne)) as Hast. pose proof (conj Hd' (conj Hok' Hne')) as Hpl. fold (good_ast (pt_ast pl)) in Hpl. fold (good_ast ast) in Hast.
  assert (Hat : forall c s, (c, s) ∈ pairs ms -> at_id g (subst_get s) tl c /\ (forall v i, subst_get s v = Some i -> known g i) /\ known g c).
  { intros c s Hin. destruct (search_at L A Lo it Hit ord Hord ex g (conj Hmod Rq) Ec fuel0 ast pl tl cycles k ms c s Hast Hn Htl Es Hin) as (? & ? & H3 & ? & ?).
    split_and!; auto. intros v i Hi. by destruct (H3 v i Hi). }
  destruct (pattern_rule_rebuilt L A no_prune calls_np ex fuel here (pt_ast pl) tl pr tr name ms g g1 ids fuel' g2 n) as (R2 & G2 & Ec2 & HP); auto.
  { intros c s Hin. by apply Hat. }
  assert (R2' : reachable L A ex g2) by (by eapply reach_mono).
  pose proof (reachable_Inv _ _ _ _ R2') as I2. pose proof (reach_listed L A ex g2 (conj Hmod R2)) as Ls2. pose proof (reachable_clean L A ex g2 R2' Ec2) as Ep2.
  split_and!; [by split|done| |].
  - intros m s Hm Hs. destruct (HP (sm_class m) s) as [H1 H2]; [apply pairs_in; eauto|]. split; by apply NRep_PRep.
  - intros Hh a b Ka Kb. split.
    + intros Eab V F nu [M Hms].
      destruct (pattern_rule_step L A no_prune calls_np ex fuel here (pt_ast pl) tl pr tr name ms g g1 ids) as (R1 & G1 & _); auto.
      destruct (apply_matches_models L A Hh F no_prune calls_np ex fuel here (Some (pt_ast pl)) ltac:(by intros ? [= <-]) (APattern pr) (fun _ => True)
        (fun x th => x = peval F th tl /\ x = peval F th tr) name ms g g1 ids nu) as (nu1 & C1); auto.
      * intros ast' t x th [= <-] Ht [Hx _]. by rewrite (ExprTree_fun _ _ _ Ht Htl).
      * intros t x th Ht [_ Hx]. by rewrite (ExprTree_fun _ _ _ Ht Htr).
      * intros c s Hin. destruct (Hat c s Hin) as (H1 & H2 & H3). split; [|intros v i Hi; split; [done|by eapply H2]].
        intros g3 nu3 G3 R3 C3. destruct C3 as (M3 & K3 & _). split.
        -- eapply (at_id_eval L A F nu3 ex g3); [by eapply reach_mono|done|]. eapply at_grows; [exact G3|done].
        -- rewrite (K3 c H3). rewrite (peval_ext F _ (value_of nu (subst_get s))); [|by eapply value_agree].
           apply pairs_in in Hin as (m & Hm & <- & Hs). by apply Hms.
      * destruct C1 as (M1 & K1 & N1). assert (R1' : reachable L A ex g1) by (by eapply reach_mono).
        destruct (rebuild_models L A Hh F ex fuel' g1 g2 n nu1 R1' M1 Er) as (M2 & _ & _).
        rewrite <- (K1 a Ka), <- (K1 b Kb). by eapply (models_same L A F nu1 ex g2).
    + intros Hall. specialize (Hall (cval Op) (complete g2) (fun i => CId (eg_find g2 i))).
      pose proof (complete_models L A ex g2 R2' Ep2) as M2.
      assert (CId (eg_find g2 a) = CId (Op := Op) (eg_find g2 b)) as Eq; [|by injection Eq]. apply Hall. split.
      * destruct (gr_log _ _ G2) as [h El]. rewrite El in M2. split.
        -- intros f cs i Hi. apply M2, elem_of_app. by right.
        -- intros x y r Hr. eapply M2, elem_of_app. by right.
      * intros m s Hm Hs. destruct (HP (sm_class m) s) as [_ H2]; [apply pairs_in; eauto|].
        exact (at_id_eval L A (complete g2) (fun i => CId (eg_find g2 i)) ex g2 (subst_get s) tr (sm_class m) R2' M2 H2).
Qed.

Lemma multi_rule_main asts s ms name fuel here g1 ids fuel' g2 n :
  Forall (fun cl => good_ast cl.2) asts ->
  rewrite_apply L A fuel here (Rewrite name s (AMulti asts)) ms g = Ok (g1, ids) ->
  rebuild L A fuel' (modify_n L A fuel') g1 = Ok (g2, n) ->
  reachable_np L A ex g2 /\ eg_clean g2 = true /\
  forall m st, m ∈ ms -> st ∈ sm_substs m -> exists st' : subst,
    (forall v i, subst_get st v = Some i -> exists j, subst_get st' v = Some j /\ eg_find g2 i = eg_find g2 j) /\
    Forall (holds g2 (subst_get st')) asts.
Proof.
  intros Ha Ea Er. unfold rewrite_apply in Ea. cbn [rw_applier rw_searcher rw_name] in Ea. destruct R as [Hmod Rq].
  destruct (multi_rule_step L A no_prune calls_np ex fuel here asts (searcher_ast s) name ms g g1 ids) as (R1 & G1 & HP); auto.
  destruct (rebuild_step L A no_prune ex fuel' g1 g2 n) as (R2 & G2 & Ec2); auto; [apply calls_np|].
  assert (R2' : reachable L A ex g2) by (by eapply reach_mono).
  pose proof (reachable_Inv _ _ _ _ R2') as I2. pose proof (reach_listed L A ex g2 (conj Hmod R2)) as Ls2.
  split_and!; [by split|done|]. intros m st Hm Hs. destruct (HP (sm_class m) st) as (st' & S1 & F1); [apply pairs_in; eauto|].
  exists st'. split; [exact (same_up_grows _ _ _ _ G2 S1)|]. eapply Forall_impl; [exact F1|].
  intros cl Hcl. apply (holds_at_grows _ _ _ _ G2) in Hcl as (i & t & Hi & Ht & Hr). exists i, t. split_and!; auto. by apply NRep_PRep.
Qed.
End found.

(** ** Soundness in algebras *)
Section sound.
Context {V : Type} (F : Op -> list V -> V) (Hh : hook_free A).
Lemma found_premise ex g s c st nu : reachable L A ex g -> models F nu (eg_log g) -> found_in g s c st ->
  premise F s (nu c) (value_of nu (subst_get st)).
Proof.
  intros R M. destruct s as [p|m]; cbn [found_in premise].
  - intros Hf t Ht. eapply at_id_eval; eauto.
  - intros [(v & p & ps & E & Hv) Hf]. split.
    + exists v, p, ps. split; [done|]. symmetry. by apply vals_get.
    + eapply Forall_impl; [exact Hf|]. intros cl (i & t & Hi & Ht & Hr) t' Ht'. rewrite (ExprTree_fun _ _ _ Ht' Ht).
      rewrite (vals_get nu _ _ _ Hi). eapply at_id_eval; eauto.
Qed.
(** Matches found in [g0], applied later in [g]. *)
Lemma rule_sound Q ex rw ms g g' ids fuel here nu : calls Q -> rule_valid L A F ex rw -> applier_in Q (rw_applier rw) ->
  (forall ast, searcher_ast (rw_searcher rw) = Some ast -> good_ast ast) ->
  reach L A Q ex g -> models F nu (eg_log g) ->
  (forall c st, (c, st) ∈ pairs ms -> found_in g (rw_searcher rw) c st /\
     forall v i, subst_get st v = Some i -> provides (rw_searcher rw) v /\ known g i) ->
  rewrite_apply L A fuel here rw ms g = Ok (g', ids) -> exists nu', carries F nu g g' nu'.
Proof.
  intros HQ Hv Ha Hs R M Hms E. unfold rewrite_apply in E.
  eapply (apply_matches_models L A Hh F Q HQ ex fuel here _ Hs _ (fun v => v ∈ searcher_vars (rw_searcher rw)) (premise F (rw_searcher rw)));
    [exact Ha| |exact Hv|exact R|exact M| |exact E].
  - intros ast t x th Hast Ht. destruct (rw_searcher rw) as [p|m]; [|done]. cbn in Hast. injection Hast as <-. cbn. auto.
  - intros c st Hin. destruct (Hms c st Hin) as [Hf Hi]. split.
    + intros g1 nu1 G1 R1 C1. eapply found_premise; [by eapply reach_mono|apply C1|]. eapply found_grows; [exact G1|exact Hf].
    + intros v i Hvi. destruct (Hi v i Hvi). split; [by apply searcher_vars_provides|done].
Qed.
End sound.

(** Multi-pattern appliers add nothing else. *)
Lemma multi_rule_only it ord ex g asts s cycles k ms name fuel here g1 ids fuel' g2 n :
  lang_ok L -> enumerates it -> enumerates_keys ord -> reachable_np L A ex g -> eg_clean g = true -> hook_free A ->
  searcher_built ord s -> Forall (fun cl => good_ast cl.2) asts ->
  searcher_search L it cycles s g k = Ok ms ->
  rewrite_apply L A fuel here (Rewrite name s (AMulti asts)) ms g = Ok (g1, ids) ->
  rebuild L A fuel' (modify_n L A fuel') g1 = Ok (g2, n) ->
  forall a b, known g a -> known g b -> eg_find g2 a = eg_find g2 b ->
  forall (V : Type) (F : Op -> list V -> V) nu, models F nu (eg_log g) ->
    (forall m st, m ∈ ms -> st ∈ sm_substs m -> exists th, (forall v i, subst_get st v = Some i -> th v = nu i) /\ Forall (clause_true F th) asts) ->
    nu a = nu b.
Proof.
  intros Lo Hit Hord R Ec Hh Hb Ha Es Ea Er a b Ka Kb Eab V F nu M Hms.
  pose proof (fun c st => found_facts Lo it Hit ord Hord ex g R Ec s cycles k ms c st Hb Es) as Hf.
  destruct R as [Hmod Rq]. assert (R0 : reachable L A ex g) by (by eapply reach_mono).
  unfold rewrite_apply in Ea. cbn [rw_applier rw_searcher rw_name] in Ea.
  assert (Hsa : forall ast, searcher_ast s = Some ast -> good_ast ast) by (intros; by eapply built_sast).
  destruct (apply_matches_step L A no_prune ex fuel here (AMulti asts) (searcher_ast s) name ms g g1 ids) as [R1 G1]; auto; [apply calls_np|].
  destruct (apply_matches_models L A Hh F no_prune calls_np ex fuel here _ Hsa (AMulti asts) (provides s)
    (fun x th => premise F s x th /\ exists th', (forall v, provides s v -> th' v = th v) /\ Forall (clause_true F th') asts) name ms g g1 ids nu)
    as (nu1 & M1 & K1 & N1); auto.
  - intros ast t x th Hast Ht [Hp _]. destruct s as [p|m]; [|done]. cbn in Hast. injection Hast as <-. cbn in Hp. auto.
  - intros x th [_ He]. exact He.
  - intros c st Hin. destruct (Hf c st Hin) as (Hc & _ & Hi & Hv & Hfd). split.
    + intros g3 nu3 G3 R3 (M3 & K3 & _). split.
      * eapply found_premise; [by eapply reach_mono|exact M3|]. eapply found_grows; [exact G3|exact Hfd].
      * apply pairs_in in Hin as (m & Hm & <- & Hs). destruct (Hms m st Hm Hs) as (th & Hth & Hcl). exists th. split; [|exact Hcl].
        intros v Hpv. apply Hv in Hpv as [i Hi']. rewrite (Hth v i Hi'). unfold value_of. rewrite Hi'. symmetry. apply K3. by destruct (Hi v i Hi').
    + intros v i Hvi. split; [apply Hv; by eexists|by destruct (Hi v i Hvi)].
  - assert (R1' : reachable L A ex g1) by (by eapply reach_mono).
    destruct (rebuild_models L A Hh F ex fuel' g1 g2 n nu1 R1' M1 Er) as (M2 & _ & _).
    destruct (rebuild_step L A no_prune ex fuel' g1 g2 n) as (R2 & G2 & Ec2); auto; [apply calls_np|].
    rewrite <- (K1 a Ka), <- (K1 b Kb). eapply (models_same L A F nu1 ex g2); [by eapply reach_mono|done|done].
Qed.
End props.
