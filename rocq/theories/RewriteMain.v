(** Rules on reachable e-graphs: effect of applying the matches of a search, exactness,
    conditions. *)
From Verif Require Import Base UnionFind EGraphModel EGraphSteps EGraphInv EGraphPres EGraphRuns Spec EGraphMain EGraphReach EGraphOps EGraphSafe
  EGraphNoPanic Terms RecExprModel RecExprProofs ExprModel PatSpec ExprProofs ExprSafe MachineModel MatchSpec MatchProofs MachineProofs CompileProofs
  CompileMain SearchProofs SearchMain MultiProofs MatchMain MatchProps RewriteModel RewriteProofs AlgSpec AlgProofs AlgRules.

Section main.
Context {Op D : Type} `{Countable Op} (L : lang Op) (A : analysis Op D).
Notation egraph := (egraph Op D).
Notation prog := (prog Op D).
Notation pnode := (EGraphModel.node (pop Op)).
Implicit Types (g : egraph) (p : list pnode).

(** ** Effect *)
Section effect.
Context (Q : prog -> Prop) (HQ : calls Q) (ex : bool) (fuel here : nat).
Notation reach := (reach L A Q ex).

Lemma pattern_rule_step pl tl pr tr rule ms g g1 ids : good_ast pl -> ExprTree pl tl -> good_ast pr -> ExprTree pr tr -> reach g ->
  apply_matches L A fuel here (APattern pr) (Some pl) rule ms g = Ok (g1, ids) ->
  reach g1 /\ grows g g1 /\
  forall c s, (c, s) ∈ pairs ms -> if ex then joined g1 (subst_get s) tl tr else at_id g1 (subst_get s) tr c.
Proof.
  intros Hl Htl Hr Htr R E. cbn [apply_matches] in E. rewrite for_matches_pairs in E.
  set (Post := fun (x : nat * subst) g => if ex then joined g (subst_get x.2) tl tr else at_id g (subst_get x.2) tr x.1).
  eapply (each_run _ reach Post) in E as (R1 & G1 & HP); auto.
  - split_and!; auto. intros c s Hin. exact (HP (c, s) Hin).
  - apply reach_Inv.
  - intros [c s] g0 g0' l _ R0 E0.
    destruct (pattern_apply_step L A Q ex fuel here pr (Some pl) rule c s g0 g0' l tr) as (R0' & G0 & HP0); auto.
    + apply good_ast_tree, Hr.
    + intros ast _ [= <-]. by apply good_ast_tree.
    + split_and!; auto. unfold Post. cbn. destruct ex; [|done]. destruct HP0 as (ast & [= <-] & HP0). auto.
  - intros [c s] g0 g0' _ _ G0. unfold Post. cbn. destruct ex; [by apply joined_grows|by apply at_grows].
Qed.
(** After rebuilding, both sides are in the matched class. *)
Lemma pattern_rule_rebuilt pl tl pr tr rule ms g g1 ids fuel' g2 n :
  good_ast pl -> ExprTree pl tl -> good_ast pr -> ExprTree pr tr -> reach g ->
  (forall c s, (c, s) ∈ pairs ms -> at_id g (subst_get s) tl c) ->
  apply_matches L A fuel here (APattern pr) (Some pl) rule ms g = Ok (g1, ids) ->
  rebuild L A fuel' (modify_n L A fuel') g1 = Ok (g2, n) ->
  reach g2 /\ grows g g2 /\ eg_clean g2 = true /\
  forall c s, (c, s) ∈ pairs ms -> at_id g2 (subst_get s) tl c /\ at_id g2 (subst_get s) tr c.
Proof.
  intros Hl Htl Hr Htr R Hms E Er.
  destruct (pattern_rule_step pl tl pr tr rule ms g g1 ids) as (R1 & G1 & HP); auto.
  destruct (rebuild_step L A Q ex fuel' g1 g2 n) as (R2 & G2 & Ec); auto.
  pose proof (grows_trans _ _ _ G1 G2) as G. split_and!; auto. intros c s Hin.
  assert (Hl2 : at_id g2 (subst_get s) tl c) by (eapply at_grows; [exact G|]; auto). split; [done|].
  specialize (HP c s Hin). destruct ex; [|eapply at_grows; [exact G2|exact HP]].
  apply (joined_grows _ _ _ _ _ G2) in HP as (i1 & i2 & H1 & H2 & Eq). eapply at_same; [|exact H2]. rewrite <- Eq.
  eapply NRep_fun_clean; [by eapply reach_Inv| |exact H1|exact Hl2].
  eapply (reachable_clean L A true); [by eapply reach_mono|done].
Qed.
Lemma multi_rule_step asts sast rule ms g g1 ids : Forall (fun cl => good_ast cl.2) asts -> reach g ->
  apply_matches L A fuel here (AMulti asts) sast rule ms g = Ok (g1, ids) ->
  reach g1 /\ grows g g1 /\
  forall c s, (c, s) ∈ pairs ms -> exists s', same_up g1 (subst_get s) (subst_get s') /\ Forall (holds_at g1 (subst_get s')) asts.
Proof.
  intros Ha R E. cbn [apply_matches] in E. rewrite for_matches_pairs in E.
  set (Post := fun (x : nat * subst) g => exists s', same_up g (subst_get x.2) (subst_get s') /\ Forall (holds_at g (subst_get s')) asts).
  eapply (each_run _ reach Post) in E as (R1 & G1 & HP); auto.
  - split_and!; auto. intros c s Hin. exact (HP (c, s) Hin).
  - apply reach_Inv.
  - intros [c s] g0 g0' l _ R0 E0. by eapply (multi_apply_step L A Q ex).
  - intros [c s] g0 g0' _ _ G0 (s' & S1 & F1). exists s'. split; [by eapply same_up_grows|].
    eapply Forall_impl; [exact F1|]. intros cl. by apply holds_at_grows.
Qed.
End effect.

(** ** Matches *)
Lemma pairs_in ms c s : (c, s) ∈ pairs ms <-> exists m, m ∈ ms /\ sm_class m = c /\ s ∈ sm_substs m.
Proof.
  unfold pairs. rewrite elem_of_concat. split.
  - intros (l & Hl & (m & -> & Hm)%elem_of_list_fmap). apply elem_of_list_fmap in Hl as (s' & [= -> ->] & Hs). eauto.
  - intros (m & Hm & <- & Hs). eexists. split; [|apply elem_of_list_fmap; by exists m]. apply elem_of_list_fmap. eauto.
Qed.

Section found.
Context (Lo : lang_ok L) (it : gset nat -> list nat) (Hit : enumerates it)
  (ord : gmap (nat * nat) (node Op) -> list (nat * nat)) (Hord : enumerates_keys ord) (ex : bool) (g : egraph).
Context (R : reachable_np L A ex g) (Ec : eg_clean g = true).
Lemma np_facts : Inv g /\ listed g /\ eg_pending g = [].
Proof.
  pose proof (reachable_np_reachable _ _ _ _ R) as R'. split_and!; [by eapply reachable_Inv|by eapply reach_listed|by eapply reachable_clean].
Qed.
Lemma search_at fuel ast pl tl cycles k ms c s : good_ast ast -> pattern_new ord fuel ast = Ok pl -> ExprTree (pt_ast pl) tl ->
  search_with_limit L it cycles pl g k = Ok ms -> (c, s) ∈ pairs ms ->
  at_id g (subst_get s) tl c /\ (forall v, is_Some (subst_get s v) <-> occurs v tl) /\
  (forall v i, subst_get s v = Some i -> known g i /\ eg_find g i = i) /\ known g c /\ eg_find g c = c.
Proof.
  intros Ha E Ht Es (m & Hm & <- & Hs)%pairs_in.
  destruct (search_sound L A Lo it Hit ord Hord ex g R Ec fuel ast Ha pl E tl Ht cycles k ms m s Es Hm Hs) as (Hk & Hc & Hb & Hi & Hp).
  destruct np_facts as (I & Ls & _). split_and!; auto. unfold at_id. rewrite Hc. by apply NRep_PRep.
Qed.
End found.

(** ** Conditions *)
(** Only adding: nothing old is merged. *)
Lemma apply_pat_finds ex fuel p s g g' i : hook_free A -> reachable L A ex g -> apply_pat A (modify_n L A fuel) p s g = Ok (g', i) ->
  reachable L A ex g' /\ (forall k, known g k -> known g' k /\ eg_find g' k = eg_find g k).
Proof.
  intros Hh R E. unfold apply_pat in E. destruct (apply_pat_loop _ _ _ _ _ _) as [[g1 ids]| |] eqn:E1; [|done|done].
  cbn [mbind res_bind] in E. destruct (last ids); [|done]. cbn in E. injection E as <- _.
  revert E1. generalize (@nil nat) as ids0. revert g R. induction p as [|[o cs] p IH]; intros g R ids0 E; cbn [apply_pat_loop] in E.
  - injection E as <- _. auto.
  - cbn [nop nch] in E. destruct o as [f|v].
    + destruct (map_children_o _ _) as [m| |]; [|done|done]. cbn [mbind res_bind] in E.
      destruct (api_add _ _ _ _) as [[g2 k]| |] eqn:Ea; [|done|done]. cbn [mbind res_bind] in E.
      destruct (api_add_step L A (fun _ => True) ex fuel m g g2 k ltac:(done) R Ea) as (R2 & _ & _).
      destruct (add_hook_free L A Hh ex fuel m g g2 k R Ea) as (_ & _ & Hf & Hk & _).
      apply IH in E as [R' Hf']; [|done]. split; [done|]. intros q Hq. destruct (Hf' q (Hk q Hq)) as [? E']. split; [done|]. rewrite E'. auto.
    + destruct (subst_index s v); [|done|done]. cbn [mbind res_bind] in E. by eapply IH.
Qed.
Lemma check_equal_finds ex fuel p1 p2 c s g g' b : hook_free A -> reachable L A ex g -> check L A fuel (CEqual p1 p2) c s g = Ok (g', b) ->
  reachable L A ex g' /\ (forall k, known g k -> known g' k /\ eg_find g' k = eg_find g k).
Proof.
  intros Hh R E. cbn [check] in E. destruct (apply_pat _ _ p1 _ _) as [[g1 a1]| |] eqn:E1; [|done|done]. cbn [mbind res_bind] in E.
  destruct (apply_pat _ _ p2 _ _) as [[g2 a2]| |] eqn:E2; [|done|done]. cbn [mbind res_bind] in E. injection E as <- _.
  apply (apply_pat_finds ex) in E1 as [R1 F1]; auto. apply (apply_pat_finds ex) in E2 as [R2 F2]; auto. split; [done|].
  intros k Hk. destruct (F1 k Hk) as [Hk1 <-]. auto.
Qed.

(** A represented instance is found again by adding. *)
Lemma add_hit ex fuel n g g' i k m : hook_free A -> reachable L A ex g -> eg_pending g = [] ->
  eg_nodes g !! k = Some m -> canonf (eg_find g) m = canonf (eg_find g) n ->
  api_add A (modify_n L A fuel) n g = Ok (g', i) -> eg_pending g' = [] /\ eg_find g' i = eg_find g k.
Proof.
  intros Hh R Ep Hk Em E. pose proof (reachable_Inv _ _ _ _ R) as I.
  assert (Hlk : eg_lookup g n = Some (eg_find g k)) by (apply Inv_memo_clean; eauto).
  unfold api_add in E. destruct (add_uncanonical A (modify_n L A fuel) n g) as [[g1 j]| |] eqn:Eu; [|done|done]. cbn [mbind res_bind] in E.
  injection E as <- <-. apply add_uncanonical_inv in Eu as (g4 & o & Ea & Hg).
  apply add_core_spec in Ea as [Hch Hsp]; [|apply I].
  unfold eg_lookup, lookup_internal in Hlk. apply fmap_Some in Hlk as (e0 & He0 & Ek).
  destruct Hsp as [e' id He' Hid|e' x x1 x2 u He' Hx Hxn Hxa Hxu Hu|u cls' ex' Hmn Hw Hl' Hf Hcls Hex].
  - destruct Hg as [[_ ->]|(h & g3 & [=] & _)]. split; [done|]. change (eg_find g id = eg_find g k).
    destruct Hid as [[_ ->]|(x & Hx & Hid)]; [congruence|].
    pose proof (iv_ex _ I) as Hio. rewrite Hx in Hio. destruct Hio as [_ Hio]. apply Hio in Hid.
    by eapply Inv_congruent.
  - destruct Hg as [[_ ->]|(h & g3 & [=] & _)]. split; [done|].
    assert (e' = e0) as -> by congruence. rewrite Ek. unfold eg_find at 1. cbn. subst u.
    destruct (ci_memo _ _ _ _ _ _ _ (iv_c _ I) _ _ He0) as (? & Hlt & _).
    apply lookup_lt_Some in Hlt. rewrite (iv_len _ I) in Hlt.
    pose proof (uf_find_lt _ _ (iv_wf _ I) Hlt) as Hlt'.
    rewrite union_find.
    + rewrite make_set_find by apply I. rewrite decide_True; [done|]. apply uf_find_oob. lia.
    + apply make_set_wf, I.
    + rewrite app_length. cbn. unfold eg_find. lia.
    + rewrite app_length. cbn. lia.
    + unfold eg_find. lia.
    + rewrite make_set_parent. apply uf_find_is_root, I.
    + rewrite make_set_parent. unfold uf_parent. by rewrite lookup_ge_None_2.
  - congruence.
Qed.
Lemma NRep_finds g g' (s : nat -> option nat) t r : Inv g -> Inv g' -> grows g g' -> NRep g s t r -> NRep g' s t (eg_find g' r).
Proof. intros I I' G. by apply NRep_grows. Qed.
Lemma NRep_idem g s t r : Inv g -> NRep g s t r -> eg_find g r = r.
Proof. intros I Hr. destruct Hr; by apply Inv_find_idem. Qed.
Lemma apply_pat_loop_hit ex fuel p0 p (s : subst) ids g g' ids' : hook_free A -> reachable L A ex g -> eg_pending g = [] -> pat_ok p0 -> dag p0 ->
  (forall v i, subst_get s v = Some i -> eg_find g i = i /\ known g i) ->
  (exists pre, p0 = pre ++ p /\ length pre = length ids) ->
  (forall j, j < length p0 -> exists u r, Tree p0 j u /\ NRep g (subst_get s) u r) ->
  (forall j i, ids !! j = Some i -> exists u, Tree p0 j u /\ NRep g (subst_get s) u i) ->
  apply_pat_loop A (modify_n L A fuel) p s ids g = Ok (g', ids') ->
  reachable L A ex g' /\ eg_pending g' = [] /\ grows g g' /\ length ids' = length p0 /\
  (forall k, known g k -> known g' k /\ eg_find g' k = eg_find g k) /\
  (forall j i, ids' !! j = Some i -> exists u, Tree p0 j u /\ NRep g' (subst_get s) u i).
Proof.
  intros Hh R Ep Hok Hd. revert ids g R Ep. induction p as [|[o cs] p IH]; intros ids g R Ep Hs (pre & Hpre & Hl) Hrep Hids E; cbn [apply_pat_loop] in E.
  - injection E as <- <-. split_and!; auto.
    + by eapply grows_refl, reachable_Inv.
    + subst. by rewrite app_nil_r.
  - assert (Hp : p0 !! length ids = Some (Node o cs)) by (rewrite Hpre, <- Hl; by apply list_lookup_middle).
    assert (Hpre' : forall i, exists pre0, p0 = pre0 ++ p /\ length pre0 = length (ids ++ [i])).
    { intros i. exists (pre ++ [Node o cs]). rewrite <- app_assoc, !app_length. cbn. split; [done|lia]. }
    pose proof (reachable_Inv _ _ _ _ R) as I.
    assert (Hsnoc : forall g1 i u, (forall j i, ids !! j = Some i -> exists u, Tree p0 j u /\ NRep g1 (subst_get s) u i) ->
      Tree p0 (length ids) u -> NRep g1 (subst_get s) u i ->
      forall j k, (ids ++ [i]) !! j = Some k -> exists u, Tree p0 j u /\ NRep g1 (subst_get s) u k).
    { intros g1 i u Hi Hu Hr j k Hj. apply lookup_app_Some in Hj as [Hj|[Hge Hj]]; [by apply Hi|].
      apply list_lookup_singleton_Some in Hj as [Ej <-]. assert (j = length ids) as -> by lia. eauto. }
    destruct (Hrep (length ids)) as (u & r & Hu & Hr); [by eapply lookup_lt_Some|].
    cbn [nop nch] in E. destruct o as [f|v].
    + destruct (map_children_o _ _) as [m| |] eqn:Em; [|done|done]. cbn [mbind res_bind] in E.
      destruct (api_add _ _ _ _) as [[g1 i]| |] eqn:Ea; [|done|done]. cbn [mbind res_bind] in E.
      apply map_children_o_inv in Em as [Eo Hcs]. destruct m as [f2 es]. cbn [nop nch] in Eo, Hcs. subst f2. set (m := Node f es) in *.
      inversion Hu as [? f' cs' ts Hg Hts]; subst. rewrite Hp in Hg. injection Hg as <- <-.
      inversion Hr as [|? ? ds k Hk Hds]; subst.
      assert (Hcan : canonf (eg_find g) (Node f ds) = canonf (eg_find g) m).
      { unfold m. apply canonf_eq_intro; cbn [nop nch]; [done| |].
        - by rewrite <- (Forall2_length _ _ _ Hds), <- (Forall2_length _ _ _ Hts), (Forall2_length _ _ _ Hcs).
        - intros q d e Hd' He.
          destruct (Forall2_lookup_r _ _ _ _ _ Hcs He) as (c & Hc & Hce).
          destruct (Forall2_lookup_l _ _ _ _ _ Hts Hc) as (t' & Ht' & HT).
          destruct (Forall2_lookup_l _ _ _ _ _ Hds Ht') as (d' & Hd'' & Hnr). rewrite Hd' in Hd''. injection Hd'' as <-.
          destruct (Hids _ _ Hce) as (t2 & HT2 & Hnr2). rewrite (TreeOf_fun _ _ _ _ HT2 HT) in Hnr2.
          rewrite (NRep_fun_clean g _ _ _ _ I Ep Hnr Hnr2). symmetry. by eapply NRep_idem. }
      destruct (api_add_step L A (fun _ => True) ex fuel m g g1 i ltac:(done) R Ea) as (R1 & G1 & _).
      destruct (add_hook_free L A Hh ex fuel m g g1 i R Ea) as (_ & _ & Hf1 & Hk1 & _).
      destruct (add_hit ex fuel m g g1 i k _ Hh R Ep Hk Hcan Ea) as [Ep1 Ei].
      pose proof (reachable_Inv _ _ _ _ R1) as I1.
      assert (Hold : forall u r, NRep g (subst_get s) u r -> NRep g1 (subst_get s) u r).
      { intros u0 r0 Hr0. pose proof (NRep_grows g g1 (subst_get s) u0 r0 G1 Hr0) as Hg1.
        rewrite Hf1 in Hg1; [by rewrite (NRep_idem g _ _ _ I Hr0) in Hg1|].
        eapply NRep_lt; [exact I| |exact Hr0]. intros v0 i0 Hi0. exact (proj2 (Hs v0 i0 Hi0)). }
      eapply IH in E as (R' & Ep' & G' & Hl' & Hf' & Hi'); [|exact R1|done| |apply Hpre'| |].
      * split_and!; auto; [by eapply grows_trans|]. intros q Hq. destruct (Hf' q (Hk1 q Hq)) as [? Eq]. split; [done|]. rewrite Eq. auto.
      * intros v0 i0 Hi0. destruct (Hs v0 i0 Hi0) as [Hfi Hki]. split; [by rewrite Hf1|auto].
      * intros j Hj. destruct (Hrep j Hj) as (u0 & r0 & Hu0 & Hr0). eauto.
      * eapply (Hsnoc g1 _ (TNode (POp f) ts)); [|done|].
        -- intros j i0 Hj. destruct (Hids j i0 Hj) as (u0 & ? & ?). eauto.
        -- rewrite Ei. by apply Hold.
    + destruct (subst_index s v) as [i| |] eqn:Ev; [|done|done]. cbn [mbind res_bind] in E. apply subst_fun in Ev.
      eapply IH in E as (R' & Ep' & G' & Hl' & Hf' & Hi'); [|exact R|done|done|apply Hpre'|done|].
      * split_and!; auto.
      * assert (cs = []) as ->.
        { pose proof (Forall_lookup_1 _ _ _ _ Hok Hp) as Hn. exact Hn. }
        eapply (Hsnoc g _ (TNode (PVar v) [])); [done|econstructor; [exact Hp|constructor]|].
        rewrite <- (proj1 (Hs v i Ev)). by constructor.
Qed.
Lemma rooted_rep g s p t r : good_ast p -> rooted p -> ExprTree p t -> NRep g s t r ->
  forall j, j < length p -> exists u r, Tree p j u /\ NRep g s u r.
Proof.
  intros (Hd & Hok & Hne) Hr Ht Hn j Hj. destruct (dag_Tree p j Hd Hj) as [u Hu].
  destruct (rooted_sub (fun u => (exists i, Tree p i u) /\ exists r, NRep g s u r) p t) with (i := j) (u := u) as [_ [r' Hr']]; eauto.
  - intros f ts [[i Hi] [r0 Hr0]]. inversion Hi as [? f' cs ts' Hg Hts]; subst. apply Forall_forall. intros w Hw.
    apply elem_of_list_lookup in Hw as [q Hq]. destruct (Forall2_lookup_r _ _ _ _ _ Hts Hq) as (c & Hc & HT). split; [eauto|].
    inversion Hr0 as [v ? ? ?|? ? ds k Hk Hds]; subst.
    + pose proof (Forall_lookup_1 _ _ _ _ Hok Hg) as Hn'. cbn in Hn'. by subst.
    + destruct (Forall2_lookup_l _ _ _ _ _ Hds Hq) as (d & _ & Hd'). eauto.
  - split; [|eauto]. destruct Ht as [_ Ht]. eauto.
Qed.
(** Instantiating a pattern whose instance is already there finds that class, adds no work
    and moves no class. *)
Lemma apply_pat_hit ex fuel p t (s : subst) g g' i r : hook_free A -> reachable L A ex g -> eg_pending g = [] ->
  good_ast p -> rooted p -> ExprTree p t -> (forall v i, subst_get s v = Some i -> eg_find g i = i /\ known g i) ->
  NRep g (subst_get s) t r -> apply_pat A (modify_n L A fuel) p s g = Ok (g', i) ->
  i = r /\ reachable L A ex g' /\ eg_pending g' = [] /\ grows g g' /\ (forall k, known g k -> known g' k /\ eg_find g' k = eg_find g k).
Proof.
  intros Hh R Ep Hp Hr Ht Hs Hn E. pose proof (rooted_rep _ _ _ _ _ Hp Hr Ht Hn) as Hrep. destruct Hp as (Hd & Hok & Hne).
  unfold apply_pat in E. destruct (apply_pat_loop _ _ _ _ _ _) as [[g1 ids]| |] eqn:E1; [|done|done].
  cbn [mbind res_bind] in E. destruct (last ids) as [k|] eqn:El; [|done]. cbn in E. injection E as <- <-.
  pose proof (reachable_Inv _ _ _ _ R) as I.
  eapply (apply_pat_loop_hit ex fuel p p) in E1 as (R' & Ep' & G' & Hl & Hf & Hi); auto; [|by exists []|done].
  split_and!; auto. rewrite last_lookup in El. destruct (Hi _ _ El) as (u & Hu & Hnu). rewrite Hl in Hu.
  destruct Ht as [_ Ht]. replace (pred (length p)) with (length p - 1) in Hu by lia. rewrite (TreeOf_fun _ _ _ _ Hu Ht) in Hnu.
  pose proof (reachable_Inv _ _ _ _ R') as I'.
  pose proof (NRep_grows g g1 (subst_get s) t r G' Hn) as Hn1.
  assert (known g r) as Hkr by (eapply NRep_lt; [exact I| |exact Hn]; intros v0 i0 Hi0; exact (proj2 (Hs v0 i0 Hi0))).
  rewrite (proj2 (Hf r Hkr)), (NRep_idem g _ _ _ I Hn) in Hn1. by eapply NRep_fun_clean.
Qed.
Lemma check_equal_complete ex fuel p1 p2 t1 t2 c (s : subst) g g' b r : hook_free A -> reachable L A ex g -> eg_pending g = [] ->
  good_ast p1 -> rooted p1 -> ExprTree p1 t1 -> good_ast p2 -> rooted p2 -> ExprTree p2 t2 ->
  (forall v i, subst_get s v = Some i -> eg_find g i = i /\ known g i) ->
  NRep g (subst_get s) t1 r -> NRep g (subst_get s) t2 r -> check L A fuel (CEqual p1 p2) c s g = Ok (g', b) -> b = true.
Proof.
  intros Hh R Ep Hp1 Hr1 Ht1 Hp2 Hr2 Ht2 Hs N1 N2 E. cbn [check] in E.
  destruct (apply_pat _ _ p1 _ _) as [[g1 a1]| |] eqn:E1; [|done|done]. cbn [mbind res_bind] in E.
  destruct (apply_pat _ _ p2 _ _) as [[g2 a2]| |] eqn:E2; [|done|done]. cbn [mbind res_bind] in E. injection E as _ <-.
  pose proof (reachable_Inv _ _ _ _ R) as I.
  apply (apply_pat_hit ex _ _ t1 _ _ _ _ r) in E1 as (-> & R1 & Ep1 & G1 & F1); auto.
  assert (known g r) as Hkr by (eapply NRep_lt; [exact I| |exact N1]; intros v0 i0 Hi0; exact (proj2 (Hs v0 i0 Hi0))).
  pose proof (NRep_grows g g1 (subst_get s) t2 r G1 N2) as N2'. rewrite (proj2 (F1 r Hkr)), (NRep_idem g _ _ _ I N1) in N2'.
  apply (apply_pat_hit ex _ _ t2 _ _ _ _ r) in E2 as (-> & _); auto.
  - apply Nat.eqb_refl.
  - intros v i Hi. destruct (Hs v i Hi) as [Hfi Hki]. destruct (F1 i Hki) as [? ->]. auto.
Qed.
End main.
