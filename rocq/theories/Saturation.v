(** Saturation: when an iteration applied nothing and added nothing, every match of every
    rule in the final e-graph is settled. *)
From Verif Require Import Base UnionFind EGraphModel EGraphSteps EGraphInv EGraphPres EGraphRuns Spec EGraphMain EGraphReach EGraphOps EGraphSafe
  EGraphNoPanic Terms RecExprModel RecExprProofs ExprModel PatSpec ExprProofs ExprSafe MachineModel MatchSpec MatchProofs MachineProofs CompileProofs
  CompileMain SearchProofs SearchMain MultiProofs MatchMain MatchProps RewriteModel RewriteProofs AlgSpec AlgProofs AlgRules RewriteMain RuleSpec
  Completion RuleSafe RuleProps CondProps RunnerModel RunnerSpec RunnerProofs RunnerSound RunnerLimits Still.

(** ** All matches *)
Section all.
Context {Op D : Type} `{Countable Op} (L : lang Op) (A : analysis Op D) (Lo : lang_ok L) (it : gset nat -> list nat) (Hit : enumerates it)
  (ord : gmap (nat * nat) (node Op) -> list (nat * nat)) (Hord : enumerates_keys ord) (ex : bool) (g : egraph Op D).
Context (R : reachable_np L A ex g) (Ec : eg_clean g = true).

Lemma search_all (s : searcher (Op := Op)) : searcher_built ord s ->
  exists all, (forall k, exists ms, searcher_search L it true s g k = Ok ms /\ pairs ms = take k all) /\
    forall sg c, (forall v i, sg v = Some i -> known g i) -> matched g s sg c ->
      exists sub, (c, sub) ∈ all /\ forall v, provides s v -> subst_get sub v = eg_find g <$> sg v.
Proof.
  intros Hb. destruct s as [p|m]; cbn [searcher_built searcher_search matched provides] in *.
  - destruct Hb as (fuel & ast & Hg & Hr & Hn). destruct Hg as (Hd & Hok & Hne).
    destruct (pattern_new_ast ord fuel ast p Hd Hok Hne Hn) as (Hd' & Hok' & Hne' & _ & _). pose proof (conj Hd (conj Hok Hne)) as Hg.
    destruct (good_ast_tree (pt_ast p) (conj Hd' (conj Hok' Hne'))) as [_ [t Ht]].
    destruct (search_limit L A Lo it Hit ord Hord ex g R Ec fuel ast Hg p Hn t Ht true) as (all & Hk).
    destruct (search_complete L A Lo it Hit ord Hord ex g R Ec fuel ast Hg p Hn t Ht true eq_refl) as (N & HN).
    exists all. split; [intros k; destruct (Hk k) as (ms & ? & ? & _); eauto|]. intros sg c Hs Hm.
    destruct (HN N) as (ms & E & Hc); [lia|]. destruct (Hc sg c Hs (Hm t Ht)) as (m & s & Hin & <- & Hin' & Hv).
    exists s. split.
    + destruct (Hk N) as (ms' & E' & Hp & _). rewrite E in E'. injection E' as <-.
      rewrite <- (take_drop N all). apply elem_of_app. left. rewrite <- Hp. apply elem_of_concat.
      exists ((fun s => (sm_class m, s)) <$> sm_substs m). split; apply elem_of_list_fmap; eauto.
    + intros v Hpv. apply Hv. apply (pattern_new_vars ord fuel ast p t v Hg Hr Hn Ht). by apply ast_vars_elem.
  - destruct Hb as (fuel & v1 & p1 & ps & Hg & Ho & Hn).
    assert (Hg' : Forall (fun cl => good_ast cl.2) ((v1, p1) :: ps)) by (eapply Forall_impl; [exact Hg|]; by intros ? [? _]).
    destruct (multi_search_main L A it ord ex g fuel v1 p1 ps m true Lo Hit Hord R Ec Hg' Ho Hn) as (all & Hk & _ & Hsound & Hcompl).
    assert (Em : mp_asts m = (v1, p1) :: ps).
    { unfold multipattern_new in Hn. destruct (compile_from_multi_pat _ _ _); [|done|done]. cbn [mbind res_bind] in Hn. by injection Hn as <-. }
    rewrite Em. exists all. split; [intros k; destruct (Hk k) as (ms & ? & ? & _); eauto|].
    intros sg c Hs [(v & p & ps' & i & [= <- <- <-] & Hi & ->) Hh].
    destruct (Hcompl eq_refl sg Hs Hh) as (c0 & s & Hin & Hw). destruct (Hsound c0 s Hin) as (_ & _ & Hc0 & _).
    rewrite (Hw v1 (v1, p1)), Hi in Hc0; [|left|by left]. injection Hc0 as <-. exists s. split; [done|].
    intros v (bv & p & Hcl & Hv). apply (Hw v (bv, p)); [done|]. destruct Hv as [->|Hv]; [by left|right].
    rewrite Forall_forall in Hg. destruct (Hg _ Hcl) as [Hgp Hrp]. cbn in *.
    destruct (good_ast_tree p Hgp) as [_ [t Ht]]. exists t. split; [done|]. apply (rooted_vars p t v Hgp Hrp Ht). by apply ast_vars_elem.
Qed.
Lemma pairs_length ms : length (pairs ms) = n_matches ms.
Proof.
  unfold pairs, n_matches. induction ms as [|m ms IH]; [done|]. cbn. rewrite app_length, fmap_length, IH. done.
Qed.
Lemma exhaustive_all w (rw : rewrite Op D) ms : searcher_built ord (rw_searcher rw) -> exhaustive L it true w g rw ms ->
  (forall c st, (c, st) ∈ pairs ms ->
    known g c /\ eg_find g c = c /\ (forall v i, subst_get st v = Some i -> known g i /\ eg_find g i = i) /\
    (forall v, is_Some (subst_get st v) <-> provides (rw_searcher rw) v) /\ found_in g (rw_searcher rw) c st) /\
  forall sg c, (forall v i, sg v = Some i -> known g i) -> matched g (rw_searcher rw) sg c ->
    exists sub, (c, sub) ∈ pairs ms /\ forall v, provides (rw_searcher rw) v -> subst_get sub v = eg_find g <$> sg v.
Proof.
  intros Hb (k & E & Hk). apply rewrite_search_inv in E as [E _]. split.
  - intros c st. by eapply (found_facts L A Lo it Hit ord Hord ex g R Ec).
  - intros sg c Hs Hm. destruct (search_all _ Hb) as (all & Ha & Hc). destruct (Hc sg c Hs Hm) as (sub & Hin & Hv).
    exists sub. split; [|done]. destruct (Ha k) as (ms' & E' & Hp). rewrite E in E'. injection E' as <-.
    rewrite Hp. rewrite take_ge; [done|]. rewrite <- pairs_length, Hp, take_length in Hk. lia.
Qed.
End all.

(** ** Nothing new in the final e-graph *)
Section down.
Context {Op D : Type} `{Countable Op} (L : lang Op) (A : analysis Op D) (Hh : hook_free A) (ex : bool).
Notation egraph := (egraph Op D).
Implicit Types (g : egraph).

Lemma frozen_known g h k : reachable L A ex g -> eg_pending g = [] -> reachable L A ex h -> frozen g h -> known h k -> known g (eg_find h k).
Proof.
  intros R Ep Rh (M & P & F) Hk. pose proof (reachable_Inv _ _ _ _ R) as I. pose proof (reachable_Inv _ _ _ _ Rh) as Ih.
  unfold known in *. rewrite <- (iv_len _ Ih) in Hk. apply lookup_lt_is_Some in Hk as [m Hm].
  assert (E : eg_lookup h m = Some (eg_find h k)) by (apply Inv_memo_clean; [done|congruence|eauto]).
  unfold eg_lookup, lookup_internal in E. apply fmap_Some in E as (e & He & ->). rewrite M in He.
  destruct (ci_memo _ _ _ _ _ _ _ (iv_c _ I) _ _ He) as (m' & Hm' & _). apply lookup_lt_Some in Hm'.
  rewrite F; [|unfold known; by rewrite <- (iv_len _ I)]. rewrite <- (iv_len _ I). by apply (ci_lt _ _ _ _ _ _ _ (iv_c _ I)).
Qed.
Lemma frozen_down g h sg t r : reachable L A ex g -> eg_pending g = [] -> reachable L A ex h -> frozen g h ->
  (forall v i, sg v = Some i -> known h i) -> NRep h sg t r -> NRep g (fun v => eg_find h <$> sg v) t r.
Proof.
  intros R Ep Rh Fz Hs. pose proof Fz as (M & P & F). pose proof (reachable_Inv _ _ _ _ R) as I. pose proof (reachable_Inv _ _ _ _ Rh) as Ih.
  assert (Fi : forall x, known h x -> eg_find g (eg_find h x) = eg_find h x).
  { intros x Hx. rewrite <- (F (eg_find h x)); [by apply Inv_find_idem|]. by eapply frozen_known. }
  revert r. induction t as [[f|v] ts IH] using term_sind; intros r Hr.
  - inversion Hr as [|? ? cs k Hk Hcs]; subst.
    assert (E : eg_lookup h (Node f cs) = Some (eg_find h k)) by (apply Inv_memo_clean; [done|congruence|eauto]).
    assert (Hck : forall c, c ∈ cs -> known h c).
    { intros c Hc. pose proof (ci_ch _ _ _ _ _ _ _ (iv_c _ Ih) _ _ _ Hk Hc) as Hlt. apply lookup_lt_Some in Hk.
      unfold known. rewrite <- (iv_len _ Ih). lia. }
    assert (E' : eg_lookup g (Node f (eg_find h <$> cs)) = Some (eg_find h k)).
    { unfold eg_lookup, lookup_internal in *. rewrite canon_canonf in *. apply fmap_Some in E as (e & He & ->). rewrite M in He.
      assert (canonf (eg_find g) (Node f (eg_find h <$> cs)) = canonf (eg_find h) (Node f cs)) as ->.
      { unfold canonf. cbn. f_equal. rewrite <- list_fmap_compose. apply fmap_agree. intros c Hc. cbn. auto. }
      rewrite He. cbn. f_equal. symmetry. apply F.
      destruct (ci_memo _ _ _ _ _ _ _ (iv_c _ I) _ _ He) as (m' & Hm' & _). apply lookup_lt_Some in Hm'. unfold known. by rewrite <- (iv_len _ I). }
    apply Inv_memo_clean in E' as (k' & [f' ds] & Hk' & Em & ->); [|done|done].
    assert (f' = f) as -> by (by apply canonf_eq_inv in Em as (? & _)).
    econstructor; [exact Hk'|]. eapply (Forall2_canon (NRep g _) (eg_find g) (Node f (eg_find h <$> cs)) (Node f ds)); [done|]. cbn.
    rewrite Forall2_fmap_r. clear -Hcs IH Fi Hck. revert IH Hck.
    induction Hcs as [|t c ts cs Ht _ IHcs]; intros IH Hck; [constructor|]. inversion IH as [|? ? IH1 IH2]; subst. constructor.
    + unfold compose. rewrite Fi by (apply Hck; left). auto.
    + apply IHcs; [done|]. intros c' ?. apply Hck. by right.
  - inversion Hr as [? ? i Hi|]; subst. rewrite <- Fi by eauto. constructor. by rewrite Hi.
Qed.

Lemma rebuilt_down fuel h g4 n sg t r : reachable L A ex h -> eg_pending h = [] -> rebuild L A fuel (modify_n L A fuel) h = Ok (g4, n) ->
  (forall i j, known h i -> known h j -> (eg_find g4 i = eg_find g4 j <-> eg_find h i = eg_find h j)) /\
  (forall i, known g4 i <-> known h i) /\
  ((forall v i, sg v = Some i -> known h i) -> NRep g4 sg t r -> exists k, known h k /\ eg_find g4 k = r /\ NRep h sg t (eg_find h k)).
Proof.
  intros R Ep E. pose proof (reachable_Inv _ _ _ _ R) as I.
  destruct (rebuild_step L A (fun _ => True) ex fuel h g4 n) as (R4 & G4 & _); [apply calls_any|done|done|].
  assert (Hu : forall i j, known h i -> known h j -> (eg_find g4 i = eg_find g4 j <-> eg_find h i = eg_find h j)).
  { eapply (unmerged L A Hh ex h h (fun i => CId (eg_find h i)) fuel g4 n); auto; [by eapply grows_refl|].
    apply carries_refl. by eapply complete_models. }
  destruct (rebuild_quiet L A Hh ex fuel h g4 n R E) as (_ & En & Eu).
  split_and!; [done|intros i; unfold known; by rewrite Eu|]. intros Hs.
  revert r. induction t as [[f|v] ts IH] using term_sind; intros r Hr.
  - inversion Hr as [|? ? cs k Hk Hcs]; subst. rewrite En in Hk. pose proof (lookup_lt_Some _ _ _ Hk) as Hlt.
    exists k. split_and!; [unfold known; by rewrite <- (iv_len _ I)|done|]. econstructor; [exact Hk|].
    assert (Hck : forall c, c ∈ cs -> known h c).
    { intros c Hc. pose proof (ci_ch _ _ _ _ _ _ _ (iv_c _ I) _ _ _ Hk Hc). unfold known. rewrite <- (iv_len _ I). lia. }
    clear -Hcs IH Hu Hck. revert IH Hck.
    induction Hcs as [|t c ts cs Ht _ IHcs]; intros IH Hck; [constructor|]. inversion IH as [|? ? IH1 IH2]; subst. constructor.
    + destruct (IH1 _ Ht) as (k' & Hk' & E' & Hn). apply Hu in E'; [|done|apply Hck; left]. by rewrite <- E'.
    + apply IHcs; [done|]. intros c' ?. apply Hck. by right.
  - inversion Hr as [? ? i Hi|]; subst. exists i. split_and!; [eauto|done|]. by constructor.
Qed.
End down.

Section one.
Context {Op D : Type} `{Countable Op} (L : lang Op) (A : analysis Op D) (Hh : hook_free A) (ex : bool) (fuel here : nat).
Notation egraph := (egraph Op D).
Implicit Types (g : egraph).
Lemma still_one (a : applier Op D) c s sast rule g g' : pattern_like a -> reachable L A ex g ->
  apply_one L A fuel here a c s sast rule g = Ok (g', []) -> still L A ex g g'.
Proof.
  revert g. induction a as [p|asts|[p1 p2|vars body test] a IH|vars body ret]; intros g Ha R E; cbn [pattern_like apply_one] in *; try done.
  - by eapply still_pattern_one.
  - destruct Ha as (Hg1 & Hr1 & Hg2 & Hr2 & Ha).
    destruct (check L A fuel (CEqual p1 p2) c s g) as [[h1 b]| |] eqn:E1; [|done|done]. cbn [mbind res_bind] in E.
    apply (still_check L A Hh ex) in E1; [|done]. destruct b; [|by injection E as <-].
    apply IH in E; [by eapply still_trans|done|apply E1].
Qed.
End one.

(** ** Settled *)
Section settle.
Context {Op D : Type} `{Countable Op} (L : lang Op) (A : analysis Op D) (Hh : hook_free A) (ex : bool) (fuel here : nat).
Notation egraph := (egraph Op D).
Implicit Types (g : egraph).
(** [g] was searched, [g3] resulted from applying the matches, [g4] from rebuilding. *)
Context (g g3 g4 : egraph) (n : nat) (R : reachable L A ex g) (Ep : eg_pending g = []) (T3 : still L A ex g g3).
Context (E4 : rebuild L A fuel (modify_n L A fuel) g3 = Ok (g4, n)) (Hd : dom (eg_memo g4) ⊆ dom (eg_memo g))
  (N4 : reachable_np L A ex g4).

Lemma NRep_agree (h : egraph) (s s' : nat -> option nat) t r : (forall v i, occurs v t -> s v = Some i -> s' v = Some i) -> NRep h s t r -> NRep h s' t r.
Proof.
  revert r. induction t as [[f|v] ts IH] using term_sind; intros r Hs Hr.
  - inversion Hr as [|? ? cs k Hk Hcs]; subst. econstructor; [exact Hk|].
    assert (Hs' : forall t, t ∈ ts -> forall v i, occurs v t -> s v = Some i -> s' v = Some i).
    { intros t Ht v i Ho. apply Hs. by econstructor. }
    clear -Hcs IH Hs'. revert IH Hs'.
    induction Hcs as [|t c ts cs Ht _ IHcs]; intros IH Hs'; [constructor|]. inversion IH as [|? ? IH1 IH2]; subst. constructor.
    + apply IH1; [|done]. apply Hs'. left.
    + apply IHcs; [done|]. intros t' ?. apply Hs'. by right.
  - inversion Hr as [? ? i Hi|]; subst. constructor. apply Hs; [constructor|done].
Qed.
Lemma NRep_bound (h : egraph) (s : nat -> option nat) t r v : NRep h s t r -> occurs v t -> is_Some (s v).
Proof.
  revert r. induction t as [[f|w] ts IH] using term_sind; intros r Hr Ho.
  - inversion Hr as [|? ? cs k Hk Hcs]; subst. inversion Ho as [|? ? t Ht Hot]; subst.
    rewrite Forall_forall in IH. destruct (elem_of_list_lookup_1 _ _ Ht) as [q Hq].
    destruct (Forall2_lookup_l _ _ _ _ _ Hcs Hq) as (c & _ & Hc). eapply IH; eauto.
  - inversion Hr as [? ? i Hi|]; subst. inversion Ho; subst; eauto.
Qed.
Lemma rebuilt_facts : reachable L A ex g4 /\ grows g3 g4 /\ eg_clean g4 = true.
Proof. destruct (rebuild_step L A (fun _ => True) ex fuel g3 g4 n) as (? & ? & ?); auto; [apply calls_any|apply T3]. Qed.
Lemma frozen_between h : still L A ex g h -> grows h g4 -> frozen g h.
Proof. intros (_ & _ & _ & F) G. apply F. pose proof (gr_memo _ _ G). set_solver. Qed.
Lemma frozen3 : frozen g g3.
Proof. apply frozen_between; [done|]. apply rebuilt_facts. Qed.
Lemma pending3 : eg_pending g3 = [].
Proof. destruct frozen3 as (_ & -> & _). done. Qed.
Lemma down sg t r : (forall v i, sg v = Some i -> known g4 i) -> NRep g4 sg t r -> NRep g (fun v => eg_find g3 <$> sg v) t (eg_find g3 r).
Proof.
  intros Hs Hr. destruct T3 as (R3 & G3 & K3 & _). pose proof rebuilt_facts as (R4 & G4 & _).
  destruct (rebuilt_down L A Hh ex fuel g3 g4 n sg t r R3 pending3 E4) as (Hu & Hk & Hd').
  destruct Hd' as (k & Hkk & <- & Hn); [intros; eapply Hk; eauto|exact Hr|].
  assert (eg_find g3 (eg_find g4 k) = eg_find g3 k) as ->.
  { apply Hu; [|done|by eapply Inv_find_idem, reachable_Inv]. apply Hk. apply Hk in Hkk. unfold known in *.
    apply uf_find_lt; [|done]. by eapply iv_wf, reachable_Inv. }
  eapply frozen_down; [done|done|exact R3|exact frozen3| |exact Hn]. intros; eapply Hk; eauto.
Qed.
Lemma find34 k : eg_find g4 (eg_find g3 k) = eg_find g4 k.
Proof. apply (gr_find _ _ (proj1 (proj2 rebuilt_facts))). Qed.

Lemma known_find k : known g4 k -> known g (eg_find g3 k).
Proof.
  intros Hk. eapply frozen_known; [exact R|done|apply T3|exact frozen3|].
  destruct (rebuilt_down L A Hh ex fuel g3 g4 n (fun _ => None) (TNode (PVar 0) []) 0 (proj1 T3) pending3 E4) as (_ & Hkk & _). by apply Hkk.
Qed.
Lemma find_g k : known g4 k -> eg_find g (eg_find g3 k) = eg_find g3 k.
Proof.
  intros Hk. pose proof frozen3 as (_ & _ & F). rewrite <- F by (by apply known_find). by eapply Inv_find_idem, reachable_Inv, T3.
Qed.

(** A match of the final e-graph and the corresponding match that was applied. *)
Context (s : searcher (Op := Op)) (sg : nat -> option nat) (c4 : nat) (sub : subst).
Context (Hsg : forall v i, sg v = Some i -> known g4 i) (Hc4 : eg_find g4 c4 = c4 /\ known g4 c4).
Context (Hsub : forall v i, subst_get sub v = Some i -> exists j, sg v = Some j /\ i = eg_find g3 j)
        (Hin : found_in g s (eg_find g3 c4) sub).

Lemma sub_same : same_up g4 (subst_get sub) sg.
Proof. intros v i Hv. destruct (Hsub v i Hv) as (j & Hj & ->). exists j. split; [done|]. apply find34. Qed.
Lemma settle_at h t : grows h g4 -> at_id h (subst_get sub) t (eg_find g3 c4) -> PRep g4 sg t c4.
Proof.
  intros G Ha. pose proof rebuilt_facts as (R4 & _). eapply at_grows in Ha; [|exact G]. unfold at_id in Ha. rewrite find34, (proj1 Hc4) in Ha.
  apply NRep_PRep; [by eapply reachable_Inv|by eapply reach_listed|]. eapply NRep_same_up; [exact sub_same|done].
Qed.
Lemma settle_joined h p tl t : grows h g4 -> s = SPattern p -> ExprTree (pt_ast p) tl -> joined h (subst_get sub) tl t -> PRep g4 sg t c4.
Proof.
  intros G -> Htl Hj. pose proof rebuilt_facts as (R4 & G4 & Ec4). eapply joined_grows in Hj; [|exact G]. destruct Hj as (i1 & i2 & H1 & H2 & E).
  cbn in Hin. specialize (Hin tl Htl). eapply at_grows in Hin; [|exact (proj1 (proj2 T3))]. eapply at_grows in Hin; [|exact G4].
  unfold at_id in *. rewrite find34, (proj1 Hc4) in Hin.
  assert (c4 = eg_find g4 i1) as Ei by (eapply NRep_fun_clean; [by eapply reachable_Inv|by eapply reachable_clean|done|done]).
  apply NRep_PRep; [by eapply reachable_Inv|by eapply reach_listed|]. rewrite Ei, E. eapply NRep_same_up; [exact sub_same|done].
Qed.

Lemma settle_one (a : applier Op D) sast rule h h' : pattern_like a -> still L A ex g h -> still L A ex h' g3 ->
  (forall ast, sast = Some ast -> exists p, s = SPattern p /\ ast = pt_ast p /\ good_ast ast) ->
  apply_one L A fuel here a (eg_find g3 c4) sub sast rule h = Ok (h', []) -> settled_for g4 sg c4 a.
Proof.
  intros Ha Th Th' Hs. revert h Th. induction a as [p|asts|[p1 p2|vars body test] a IH|vars body ret]; intros h Th E; cbn [pattern_like settled_for apply_one] in *; try done.
  - intros t Ht. pose proof rebuilt_facts as (R4 & G4 & Ec4). destruct (good_ast_tree p Ha) as [Hok _].
    destruct (pattern_one_step L A (fun _ => True) ex fuel here p sast rule (eg_find g3 c4) sub h h' [] t) as (R' & G' & Hp); auto; [apply calls_any|apply Th| |].
    { intros ast Hast. destruct (Hs ast Hast) as (_ & _ & _ & Hg). by apply good_ast_tree. }
    assert (Gf : grows h' g4) by (eapply grows_trans; [exact (proj1 (proj2 Th'))|exact G4]).
    destruct sast as [ast|]; [|by eapply settle_at].
    destruct (Hs ast eq_refl) as (p0 & Es & -> & Hg). destruct (good_ast_tree _ Hg) as [_ [tl Htl]]. eapply settle_joined; eauto.
  - destruct Ha as (Hg1 & Hr1 & Hg2 & Hr2 & Ha).
    destruct (check L A fuel (CEqual p1 p2) (eg_find g3 c4) sub h) as [[h1 b]| |] eqn:E1; [|done|done]. cbn [mbind res_bind] in E.
    destruct (good_ast_tree p1 Hg1) as [Hok1 [t1 Ht1]]. destruct (good_ast_tree p2 Hg2) as [Hok2 [t2 Ht2]].
    pose proof rebuilt_facts as (R4 & G4 & Ec4). pose proof (proj1 Th) as Rh.
    pose proof (still_check L A Hh ex fuel p1 p2 (eg_find g3 c4) sub h h1 b Rh E1) as T1.
    assert (Gf : grows h g4 /\ grows h1 g4).
    { assert (T2 : still L A ex h1 h'). { destruct b; [exact (still_one L A Hh ex fuel here a (eg_find g3 c4) sub sast rule h1 h' Ha (proj1 T1) E)|]. injection E as ->. apply still_refl, T1. }
      assert (grows h1 g4) by (eapply grows_trans; [exact (proj1 (proj2 T2))|]; eapply grows_trans; [exact (proj1 (proj2 Th'))|exact G4]).
      split; [|done]. by eapply grows_trans; [exact (proj1 (proj2 T1))|]. }
    destruct Gf as [Gf Gf1]. split.
    { intros t Ht. cbn [check] in E1. destruct (apply_pat _ _ p1 _ _) as [[g1 a1]| |] eqn:Ea1; [|done|done]. cbn [mbind res_bind] in E1.
      destruct (apply_pat _ _ p2 _ _) as [[g2 a2]| |] eqn:Ea2; [|done|done]. cbn [mbind res_bind] in E1. injection E1 as <- _.
      destruct (apply_pat_step L A (fun _ => True) ex fuel p1 sub h g1 a1 t1) as (Rg1 & _ & A1); auto; [apply calls_any|].
      destruct (apply_pat_step L A (fun _ => True) ex fuel p2 sub g1 g2 a2 t2) as (Rg2 & Gg2 & A2); auto; [apply calls_any|].
      assert (K : exists i, at_id g2 (subst_get sub) t i).
      { destruct Ht as [Ht|Ht]; [exists a1; rewrite (ExprTree_fun _ _ _ Ht Ht1); by eapply at_grows|].
        exists a2. by rewrite (ExprTree_fun _ _ _ Ht Ht2). }
      destruct K as [i Hi]. eapply at_grows in Hi; [|exact Gf1]. exists (eg_find g4 i).
      apply NRep_PRep; [by eapply reachable_Inv|by eapply reach_listed|]. eapply NRep_same_up; [exact sub_same|exact Hi]. }
    intros (r & Hr). destruct b.
    + apply (IH Ha h1); [|exact E]. by eapply still_trans.
    + exfalso. injection E as ->.
      pose proof (frozen_between h Th Gf) as (M & P & F).
      assert (Hcan : forall v i, subst_get sub v = Some i -> eg_find h i = i /\ known h i).
      { intros v i Hv. destruct (Hsub v i Hv) as (j & Hj & ->). pose proof (known_find j (Hsg v j Hj)) as Hk.
        split; [|by apply Th]. rewrite F by done. apply find_g. eauto. }
      cbn [check] in E1. destruct (apply_pat _ _ p1 _ _) as [[g1 a1]| |] eqn:Ea1; [|done|done]. cbn [mbind res_bind] in E1.
      destruct (apply_pat _ _ p2 _ _) as [[g2 a2]| |] eqn:Ea2; [|done|done]. cbn [mbind res_bind] in E1.
      destruct (apply_pat_step L A (fun _ => True) ex fuel p1 sub h g1 a1 t1) as (Rg1 & _ & A1); auto; [apply calls_any|].
      destruct (apply_pat_step L A (fun _ => True) ex fuel p2 sub g1 g2 a2 t2) as (Rg2 & _ & A2); auto; [apply calls_any|].
      assert (Hnr : forall t, (t = t1 \/ t = t2) -> NRep h (subst_get sub) t (eg_find g3 r)).
      { intros t Ht. assert (Hb : forall v, occurs v t -> is_Some (subst_get sub v)).
        { intros v Hv. destruct Ht as [->| ->]; eapply NRep_bound; [exact A1|exact Hv|exact A2|exact Hv]. }
        assert (Hp : PRep g4 sg t r) by (apply Hr; destruct Ht as [->| ->]; auto).
        apply NRep_PRep in Hp; [|by eapply reachable_Inv|by eapply reach_listed].
        assert (Hkr : known g4 r) by (eapply NRep_lt; [by eapply reachable_Inv|exact Hsg|exact Hp]).
        apply down in Hp; [|exact Hsg]. apply (NRep_grows g h) in Hp; [|apply Th]. rewrite F, find_g in Hp by (done || by apply known_find).
        eapply NRep_agree; [|exact Hp]. intros v i Hv. destruct (Hb v Hv) as [x Hx]. rewrite Hx.
        destruct (Hsub v x Hx) as (j & -> & ->). done. }
      assert (false = true); [|done].
      eapply (check_equal_complete L A ex fuel p1 p2 t1 t2 (eg_find g3 c4) sub h h' false (eg_find g3 r)); eauto; [congruence|].
      cbn [check]. rewrite Ea1. cbn [mbind res_bind]. rewrite Ea2. cbn [mbind res_bind]. exact E1.
Qed.
End settle.

(** ** Rules *)
Section rules.
Context {Op D : Type} `{Countable Op} (L : lang Op) (A : analysis Op D) (Hh : hook_free A) (ex : bool) (fuel here : nat).
Notation egraph := (egraph Op D).
Implicit Types (g : egraph).

Lemma each_split {X} (f : X -> egraph -> res (egraph * list nat)) xs h h' :
  (forall x g g', reachable L A ex g -> f x g = Ok (g', []) -> still L A ex g g') -> reachable L A ex h -> each f xs h = Ok (h', []) ->
  still L A ex h h' /\ forall x, x ∈ xs -> exists h1 h2, still L A ex h h1 /\ f x h1 = Ok (h2, []) /\ still L A ex h2 h'.
Proof.
  intros Hf. revert h. induction xs as [|x xs IH]; intros h R E; cbn [each] in E.
  - injection E as <-. split; [by apply still_refl|]. intros x Hx. by apply elem_of_nil in Hx.
  - destruct (f x h) as [[g1 l1]| |] eqn:E1; [|done|done]. cbn [mbind res_bind] in E.
    destruct (each f xs g1) as [[g2 l2]| |] eqn:E2; [|done|done]. cbn [mbind res_bind] in E. injection E as <- Enil.
    apply app_eq_nil in Enil as [-> ->]. pose proof (Hf x h g1 R E1) as T1. destruct (IH g1) as [T2 Hx]; [apply T1|done|].
    split; [by eapply still_trans|]. intros y [->|Hy]%elem_of_cons.
    + exists h, g1. split_and!; [by apply still_refl|done|done].
    + destruct (Hx y Hy) as (h1 & h2 & S1 & Ey & S2). exists h1, h2. split_and!; [by eapply still_trans|done|done].
Qed.
Lemma multi_idle asts ms g g' : asts <> [] -> for_matches (multi_apply L A fuel here asts) ms g = Ok (g', []) -> pairs ms = [] /\ g' = g.
Proof.
  intros Ha E. rewrite for_matches_pairs in E. destruct (pairs ms) as [|[c s] l]; [by injection E as <-|]. exfalso. cbn [each] in E.
  destruct (multi_apply L A fuel here asts c s g) as [[g1 l1]| |] eqn:E1; [|done|done]. cbn [mbind res_bind] in E.
  destruct (each _ l g1) as [[g2 l2]| |]; [|done|done]. cbn [mbind res_bind] in E. injection E as _ Enil. apply app_eq_nil in Enil as [-> _].
  unfold multi_apply in E1. destruct (multi_clauses L A fuel here asts s g) as [[g3 l3]| |] eqn:E2; [|done|done]. cbn [mbind res_bind] in E1.
  injection E1 as _ E1. destruct asts as [|[v p] asts]; [done|]. cbn [multi_clauses] in E2.
  destruct (apply_pat _ _ p s g) as [[g4 i]| |]; [|done|done]. cbn [mbind res_bind] in E2. destruct (subst_insert s v i) as [s' old].
  destruct (match old with Some _ => _ | None => _ end); [|done|done]. cbn [mbind res_bind] in E2.
  destruct (multi_clauses _ _ _ _ _ _ _) as [[g6 l6]| |]; [|done|done]. cbn [mbind res_bind] in E2. injection E2 as _ <-. done.
Qed.
Lemma still_rule (rw : rewrite Op D) ms g g' : standard_applier (rw_applier rw) -> reachable L A ex g ->
  rewrite_apply L A fuel here rw ms g = Ok (g', []) -> still L A ex g g'.
Proof.
  intros Ha R E. unfold rewrite_apply in E. destruct (rw_applier rw) as [p|asts|cnd a|vars body ret]; cbn [apply_matches standard_applier] in *; try done.
  - rewrite for_matches_pairs in E. eapply each_split; [|exact R|exact E]. intros [c s] h h' Rh Eh. by eapply still_pattern.
  - apply multi_idle in E as [_ ->]; [|apply Ha]. by apply still_refl.
  - unfold default_apply in E. rewrite for_matches_pairs in E. eapply each_split; [|exact R|exact E]. intros [c s] h h' Rh Eh. by eapply still_one.
Qed.

Context (Lo : lang_ok L) (it : gset nat -> list nat) (Hit : enumerates it)
  (ord : gmap (nat * nat) (node Op) -> list (nat * nat)) (Hord : enumerates_keys ord).
Lemma settle_rule (g g3 g4 : egraph) n (rw : rewrite Op D) w ms h h' sg c4 :
  reachable_np L A ex g -> eg_clean g = true -> still L A ex g g3 -> rebuild L A fuel (modify_n L A fuel) g3 = Ok (g4, n) ->
  dom (eg_memo g4) ⊆ dom (eg_memo g) -> reachable_np L A ex g4 ->
  searcher_built ord (rw_searcher rw) -> standard_applier (rw_applier rw) -> exhaustive L it true w g rw ms ->
  still L A ex g h -> rewrite_apply L A fuel here rw ms h = Ok (h', []) -> still L A ex h' g3 ->
  (forall v i, sg v = Some i -> known g4 i) -> matched g4 (rw_searcher rw) sg c4 -> settled_for g4 sg c4 (rw_applier rw).
Proof.
  intros R Ec T3 E4 Hd N4 Hb Ha Hx Th E Th' Hsg Hm.
  pose proof (reachable_np_reachable _ _ _ _ R) as R0. pose proof (reachable_clean _ _ _ _ R0 Ec) as Ep.
  pose proof (reachable_np_reachable _ _ _ _ N4) as R4. pose proof (reachable_Inv _ _ _ _ R4) as I4.
  pose proof (reachable_Inv _ _ _ _ R0) as I0.
  assert (Hkf : forall k, known g4 k -> known g (eg_find g3 k)) by (intros k; by eapply (known_find L A Hh ex fuel g g3 g4 n)).
  assert (Hfg : forall k, known g4 k -> eg_find g (eg_find g3 k) = eg_find g3 k) by (intros k; by eapply (find_g L A Hh ex fuel g g3 g4 n)).
  assert (H34 : forall k, eg_find g4 (eg_find g3 k) = eg_find g4 k) by (intros k; by eapply (find34 L A ex fuel g g3 g4 n)).
  assert (Hdown : forall t r, PRep g4 sg t r -> PRep g (fun v => eg_find g3 <$> sg v) t (eg_find g3 r)).
  { intros t r Hp. apply NRep_PRep in Hp; [|done|by eapply reach_listed]. apply NRep_PRep; [done|by eapply reach_listed|].
    by eapply (down L A Hh ex fuel g g3 g4 n). }
  (* the match was there already *)
  assert (Hroot : eg_find g4 c4 = c4 /\ known g4 c4).
  { destruct (rw_searcher rw) as [p|m]; cbn [matched] in Hm.
    - destruct Hb as (fuel0 & ast & (Hd0 & Hok & Hne) & Hr & Hn).
      destruct (pattern_new_ast ord fuel0 ast p Hd0 Hok Hne Hn) as (Hd' & Hok' & Hne' & _ & _).
      destruct (good_ast_tree (pt_ast p) (conj Hd' (conj Hok' Hne'))) as [_ [t Ht]]. specialize (Hm t Ht).
      split; [by eapply PRep_canon|]. apply NRep_PRep in Hm; [|done|by eapply reach_listed]. by eapply NRep_lt.
    - destruct Hm as [(v & p & ps & i & _ & Hi & ->) _]. split; [by apply Inv_find_idem|]. unfold known. apply uf_find_lt; [apply I4|]. by eapply Hsg. }
  assert (H3 : forall i, known g4 i -> eg_find g3 (eg_find g4 i) = eg_find g3 i).
  { intros i Hi. pose proof (rebuilt_down L A Hh ex fuel g3 g4 n (fun _ => None) (TNode (PVar 0) []) 0 (proj1 T3)) as Hrd.
    destruct Hrd as (Hu & Hk & _); [by eapply (pending3 L A Hh ex fuel g g3 g4 n)|done|].
    apply Hu; [|by apply Hk|by apply Inv_find_idem]. apply Hk. unfold known. apply uf_find_lt; [apply I4|done]. }
  assert (Hm0 : matched g (rw_searcher rw) (fun v => eg_find g3 <$> sg v) (eg_find g3 c4)).
  { destruct (rw_searcher rw) as [p|m]; cbn [matched] in *.
    - intros t Ht. by apply Hdown, Hm.
    - destruct Hm as [(v & p & ps & i & Em & Hi & ->) Hf]. split.
      + exists v, p, ps, (eg_find g3 i). rewrite Hi. split_and!; [done|done|]. rewrite H3, Hfg; eauto.
      + eapply Forall_impl; [exact Hf|]. intros cl (j & t & Hj & Ht & Hp). exists (eg_find g3 j), t. rewrite Hj. split_and!; [done|done|].
        apply Hdown in Hp. rewrite H3 in Hp by eauto. rewrite Hfg by eauto. done. }
  destruct (exhaustive_all L A Lo it Hit ord Hord ex g R Ec w rw ms Hb Hx) as [Hfacts Hall].
  destruct (Hall (fun v => eg_find g3 <$> sg v) (eg_find g3 c4)) as (sub & Hin & Hv); [|exact Hm0|].
  { intros v i Hi. apply fmap_Some in Hi as (j & Hj & ->). eauto. }
  destruct (Hfacts _ _ Hin) as (_ & _ & _ & Hdom & Hfound).
  assert (Hsub : forall v i, subst_get sub v = Some i -> exists j, sg v = Some j /\ i = eg_find g3 j).
  { intros v i Hi. rewrite Hv in Hi by (apply Hdom; eauto). apply fmap_Some in Hi as (k & Hk & ->). apply fmap_Some in Hk as (j & Hj & ->).
    exists j. split; [done|]. eauto. }
  assert (Hsast : forall ast, searcher_ast (rw_searcher rw) = Some ast -> exists p, rw_searcher rw = SPattern p /\ ast = pt_ast p /\ good_ast ast).
  { intros ast Hast. pose proof (built_sast ord _ _ Hb Hast) as Hg. destruct (rw_searcher rw) as [p|m]; [|done]. injection Hast as <-. eauto. }
  pose proof (rebuilt_facts L A ex fuel g g3 g4 n T3 E4) as (_ & G4 & _).
  assert (Lift : forall h2, still L A ex h2 h' -> still L A ex h2 g3) by (intros; by eapply still_trans).
  unfold rewrite_apply in E. destruct (rw_applier rw) as [p|asts|cnd a|vars body ret]; cbn [apply_matches standard_applier] in *; try done.
  - rewrite for_matches_pairs in E. apply each_split in E as [_ E]; [|intros [c s] ? ? ? ?; by eapply still_pattern|apply Th].
    destruct (E _ Hin) as (h1 & h2 & S1 & E1 & S2). intros t Ht. destruct (good_ast_tree p Ha) as [Hok _].
    destruct (pattern_apply_step L A (fun _ => True) ex fuel here p (searcher_ast (rw_searcher rw)) (rw_name rw) (eg_find g3 c4) sub h1 h2 [] t)
      as (_ & _ & Hp); auto; [apply calls_any|apply S1| |].
    { intros ast _ Hast. destruct (Hsast ast Hast) as (_ & _ & _ & Hg). by apply good_ast_tree. }
    assert (Gf : grows h2 g4) by (eapply grows_trans; [exact (proj1 (proj2 (Lift _ S2)))|exact G4]).
    destruct ex eqn:Eex.
    + destruct Hp as (ast & Hast & Hj). destruct (Hsast ast Hast) as (p0 & Es & -> & Hg). destruct (good_ast_tree _ Hg) as [_ [tl Htl]].
      eapply (settle_joined L A true fuel g g3 g4 n); eauto.
    + eapply (settle_at L A false fuel g g3 g4 n); eauto.
  - apply multi_idle in E as [En _]; [|apply Ha]. rewrite En in Hin. by apply elem_of_nil in Hin.
  - unfold default_apply in E. rewrite for_matches_pairs in E. apply each_split in E as [_ E]; [|intros [c s] ? ? ? ?; by eapply still_one|apply Th].
    destruct (E _ Hin) as (h1 & h2 & S1 & E1 & S2).
    eapply (settle_one L A Hh ex fuel here g g3 g4 n R0 Ep T3 E4 Hd N4 (rw_searcher rw) sg c4 sub Hsg Hroot Hsub Hfound (ACond cnd a)
      (if explaining h1 then searcher_ast (rw_searcher rw) else None) (rw_name rw) h1 h2 Ha); [by eapply still_trans|by apply Lift| |exact E1].
    intros ast Hast. apply Hsast. by destruct (explaining h1).
Qed.
End rules.
