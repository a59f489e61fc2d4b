(** Saving and loading is not seen by programs that do not look at the skipped parts. *)
From Verif Require Import Base UnionFind EGraphModel EGraphSteps EGraphInv EGraphPres Spec EGraphMain EGraphReach MachineModel MatchSpec EGraphRuns EGraphNoPanic EGraphTerm EGraphSafe EGraphDirect RecExprProofs ExplainModel ExplainSpec ExplainProofs ExplainMain SerdeModel SerdeSpec.

Definition resR {X Y} (P : X -> Y -> Prop) (r : res X) (r' : res Y) : Prop :=
  match r, r' with Ok x, Ok y => P x y | Panic, Panic | OutOfFuel, OutOfFuel => True | _, _ => False end.
Lemma resR_bind {X Y X' Y'} (P : X -> Y -> Prop) (Q : X' -> Y' -> Prop) r r' f f' :
  resR P r r' -> (forall x y, P x y -> resR Q (f x) (f' y)) -> resR Q (r ≫= f) (r' ≫= f').
Proof. destruct r, r'; cbn; intros Hp Hf; try done. by apply Hf. Qed.
Lemma resR_eq {X} (r : res X) : resR eq r r.
Proof. by destruct r. Qed.

Section proofs.
Context {Op D : Type} `{Countable Op} (L : lang Op) (A : analysis Op D).
Notation egraph := (egraph Op D).
Notation node := (node Op).
Implicit Types (g : egraph).
Definition shade b c g : egraph := set_by_op b (set_clean c g).
Lemma twins_shade g g' : twins g g' <-> exists b c, g' = shade b c g.
Proof.
  split.
  - destruct g, g'. unfold twins. cbn. intros (-> & -> & -> & -> & -> & -> & -> & ->). eexists _, _. reflexivity.
  - intros (b & c & ->). done.
Qed.
Lemma twins_refl g : twins g g.
Proof. done. Qed.
Notation tw := (fun g g' => twins g g').
Notation tw2 := (fun x y => twins x.1 y.1 /\ x.2 = y.2).
Definition tws {X} (x y : egraph * X) : Prop := twins x.1 y.1 /\ x.2 = y.2.
Lemma ok_tws {X} g b c (x : X) : resR tws (Ok (g, x)) (Ok (shade b c g, x)).
Proof. split; [|done]. done. Qed.

(** ** Steps *)
Lemma push_parent_tw id g b c ch : resR twins (push_parent id g ch) (push_parent id (shade b c g) ch).
Proof.
  unfold push_parent. unfold eg_find_mut. cbn. destruct (uf_find_mut (eg_uf g) ch) as [u r]. cbn. destruct (eg_classes g !! r); cbn; done.
Qed.
Lemma push_parents_tw id cs : forall g g', twins g g' -> resR twins (push_parents id g cs) (push_parents id g' cs).
Proof.
  induction cs as [|ch cs IH]; intros g g' Hg; [done|]. cbn [push_parents]. apply twins_shade in Hg as (b & c & ->).
  apply (resR_bind twins _ _ _ _ _ (push_parent_tw id g b c ch)). exact IH.
Qed.
Context (Hb : blind_analysis A).
Lemma make_new_tw n orig g g' : twins g g' -> resR tws (make_new_eclass A n orig g) (make_new_eclass A n orig g').
Proof.
  intros Hg. unfold make_new_eclass. assert (Hu : eg_uf g' = eg_uf g) by apply Hg. rewrite Hu. destruct (uf_make_set (eg_uf g)) as [u id].
  apply twins_shade in Hg as (b & c & ->).
  rewrite <- (bl_make A Hb (set_uf u g) (set_uf u (shade b c g)) orig id) by done.
  eapply (resR_bind twins); [apply push_parents_tw; done|]. intros h h' Hh. apply twins_shade in Hh as (b' & c' & ->). cbn.
  unfold assert. destruct (bool_decide _); cbn; done.
Qed.
Lemma add_core_tw orig g g' : twins g g' -> resR (fun x y => twins x.1.1 y.1.1 /\ x.1.2 = y.1.2 /\ x.2 = y.2) (add_core A orig g) (add_core A orig g').
Proof.
  intros Hg. unfold add_core. pose proof Hg as Hg'. apply twins_shade in Hg' as (b & c & Eg).
  assert (E1 : forallb (valid_id g') (nch orig) = forallb (valid_id g) (nch orig)) by (by rewrite Eg).
  assert (E2 : canon g' orig = canon g orig) by (by rewrite Eg).
  assert (E3 : eg_memo g' = eg_memo g) by apply Hg. assert (E4 : eg_explain g' = eg_explain g) by apply Hg. rewrite E1, E2, E3, E4.
  assert (E5 : forall i, eg_find g' i = eg_find g i) by (by rewrite Eg).
  destruct (negb _); [done|]. destruct (eg_memo g !! canon g orig) as [existing|].
  - rewrite E5. destruct (eg_explain g) as [x|]; [|done]. destruct (ex_memo x !! orig); [done|]. assert (E6 : eg_uf g' = eg_uf g) by apply Hg. rewrite E6.
    destruct (uf_make_set (eg_uf g)) as [u new_id]. destruct (ex_add x orig new_id) as [x1| |]; [|done|done]. cbn [mbind res_bind].
    destruct (uf_union u (eg_find g existing) new_id) as [u2 ?]. destruct (ex_union x1 existing new_id JCong); [|done|done]. cbn. by rewrite Eg.
  - eapply (resR_bind tws); [by apply make_new_tw|]. intros [h i] [h' i'] [Hh Ei]. cbn in Hh, Ei. subst i'. apply twins_shade in Hh as (b' & c' & ->).
    change (eg_explain (shade b' c' h)) with (eg_explain h). destruct (eg_explain h) as [x|]; [|done]. destruct (ex_add x orig i); done.
Qed.
Lemma perform_core_tw e1 e2 rule g g' : twins g g' -> resR tws (perform_union_core A e1 e2 rule g) (perform_union_core A e1 e2 rule g').
Proof.
  intros (b & c & ->)%twins_shade. unfold perform_union_core.
  change (valid_id (shade b c g)) with (valid_id g). destruct (negb _); [done|].
  unfold eg_find_mut. cbn. destruct (uf_find_mut (eg_uf g) e1) as [u1 id1]. cbn. destruct (uf_find_mut u1 e2) as [u2 id2]. cbn.
  destruct (decide (id1 = id2)).
  - destruct rule as [[r|]|]; [|done|done]. destruct (eg_explain g) as [x|]; [|done]. destruct (alternate_rewrite x e1 e2 (JRule r)); done.
  - destruct (eg_classes g !! id1) as [k1|]; [|done]. cbn. destruct (eg_classes g !! id2) as [k2|]; [|done]. cbn.
    destruct (if length (c_parents k1) <? length (c_parents k2) then _ else _) as [j1 j2].
    apply (resR_bind twins).
    + destruct (eg_explain g) as [x|]; [|done]. destruct rule as [j|]; [|done]. cbn [expect mbind res_bind].
      apply (resR_bind eq); [apply resR_eq|]. intros ? ? ->. done.
    + intros h h' (b' & c' & ->)%twins_shade. cbn. destruct (eg_classes h !! j2) as [c2|]; [|done]. cbn.
      destruct (delete j2 (eg_classes h) !! j1) as [c1|]; [|done]. cbn.
      unfold assert. destruct (j1 =? c_id c1); [|done]. cbn. destruct (an_merge A (c_data c1) (c_data c2)) as [d [did1 did2]]. done.
Qed.
Lemma set_data_tw i d g g' : twins g g' -> resR tws (set_data_core i d g) (set_data_core i d g').
Proof.
  intros (b & c & ->)%twins_shade. unfold set_data_core. change (valid_id (shade b c g)) with (valid_id g). destruct (negb _); [done|].
  unfold eg_find_mut. cbn. destruct (uf_find_mut (eg_uf g) i) as [u r]. cbn. destruct (eg_classes g !! r); done.
Qed.
Lemma poke_tw i d g g' : twins g g' -> resR twins (poke_data i d g) (poke_data i d g').
Proof.
  intros (b & c & ->)%twins_shade. unfold poke_data. change (valid_id (shade b c g)) with (valid_id g). destruct (negb _); [done|].
  unfold eg_find_mut. cbn. destruct (uf_find_mut (eg_uf g) i) as [u r]. cbn. destruct (eg_classes g !! r); done.
Qed.
Lemma retain_tw i f g g' : twins g g' -> resR twins (retain_nodes i f g) (retain_nodes i f g').
Proof.
  intros (b & c & ->)%twins_shade. unfold retain_nodes. change (valid_id (shade b c g)) with (valid_id g). destruct (negb _); [done|].
  unfold eg_find_mut. cbn. destruct (uf_find_mut (eg_uf g) i) as [u r]. cbn. destruct (eg_classes g !! r); done.
Qed.
Lemma pending_core_tw k g g' : twins g g' -> resR tws (pending_core A k g) (pending_core A k g').
Proof.
  intros (b & c & ->)%twins_shade. unfold pending_core. cbn. destruct (eg_nodes g !! k) as [orig|]; [|done]. cbn.
  destruct (canon_mut (eg_uf g) orig) as [u nd]. cbn. destruct (eg_memo g !! nd) as [mc|]; [|done]. by apply perform_core_tw.
Qed.
Lemma analysis_core_tw k g g' : twins g g' -> resR tws (analysis_core A k g) (analysis_core A k g').
Proof.
  intros (b & c & ->)%twins_shade. unfold analysis_core. cbn. destruct (eg_nodes g !! k) as [nd|]; [|done]. cbn. unfold eg_find_mut. cbn.
  destruct (uf_find_mut (eg_uf g) k) as [u r]. cbn. destruct (eg_classes g !! r) as [cl|]; [|done]. cbn.
  rewrite <- (bl_remake A Hb (set_uf u g) (set_uf u (shade b c g)) nd r) by done.
  destruct (an_merge A (c_data cl) (an_remake A (set_uf u g) nd r)) as [d [[] did2]]; done.
Qed.

(** ** Loops *)
Definition hook_tw (md : nat -> egraph -> res egraph) : Prop := forall i g g', twins g g' -> resR twins (md i g) (md i g').
Lemma run_hook_tw md o g g' : hook_tw md -> twins g g' -> resR twins (run_hook md o g) (run_hook md o g').
Proof. intros Hm Hg. destruct o; cbn; [by apply Hm|done]. Qed.
Lemma add_tw md n g g' : hook_tw md -> twins g g' -> resR tws (add_uncanonical A md n g) (add_uncanonical A md n g').
Proof.
  intros Hm Hg. unfold add_uncanonical. eapply resR_bind; [by apply add_core_tw|]. intros [[h i] o] [[h' i'] o']. cbn. intros (Hh & -> & ->).
  destruct o' as [k|]; [|done]. eapply resR_bind; [by apply Hm|]. intros x y Hx. apply twins_shade in Hx as (b & c & ->). done.
Qed.
Lemma perform_tw md e1 e2 rule g g' : hook_tw md -> twins g g' -> resR tws (perform_union A md e1 e2 rule g) (perform_union A md e1 e2 rule g').
Proof.
  intros Hm Hg. unfold perform_union. eapply resR_bind; [by apply perform_core_tw|]. intros [h o] [h' o']. cbn. intros (Hh & Eo). cbn in Eo. subst o'.
  eapply resR_bind; [by apply run_hook_tw|]. intros x y Hx. done.
Qed.
Lemma drain_pending_tw md : hook_tw md -> forall fuel n g g', twins g g' -> resR tws (drain_pending A fuel md n g) (drain_pending A fuel md n g').
Proof.
  intros Hm. induction fuel as [|fuel IH]; intros n g g' Hg; cbn [drain_pending]; (assert (E : eg_pending g' = eg_pending g) by apply Hg); rewrite E;
    (destruct (eg_pending g) as [|k rest]; [done|]); [done|].
  eapply resR_bind; [apply pending_core_tw; apply twins_shade in Hg as (b & c & ->); done|]. intros [h o] [h' o'] [Hh Eo]. cbn in Hh, Eo. subst o'.
  eapply resR_bind; [by apply run_hook_tw|]. intros x y Hx. by apply IH.
Qed.
Lemma drain_analysis_tw md : hook_tw md -> forall fuel g g', twins g g' -> resR twins (drain_analysis A fuel md g) (drain_analysis A fuel md g').
Proof.
  intros Hm. induction fuel as [|fuel IH]; intros g g' Hg; cbn [drain_analysis]; (assert (E : eg_apending g' = eg_apending g) by apply Hg); rewrite E;
    (destruct (uq_pop (eg_apending g)) as [[k q]|]; [|done]); [done|].
  eapply resR_bind; [apply analysis_core_tw; apply twins_shade in Hg as (b & c & ->); done|]. intros [h o] [h' o'] [Hh Eo]. cbn in Hh, Eo. subst o'.
  eapply resR_bind; [by apply run_hook_tw|]. intros x y Hx. by apply IH.
Qed.
Lemma process_tw md inner : hook_tw md -> forall fuel n g g', twins g g' -> resR tws (process_unions A fuel inner md n g) (process_unions A fuel inner md n g').
Proof.
  intros Hm. induction fuel as [|fuel IH]; intros n g g' Hg; cbn [process_unions]; (assert (E : eg_apending g' = eg_apending g) by apply Hg);
    (assert (E' : eg_pending g' = eg_pending g) by apply Hg); rewrite E, E'; destruct (_ && _); try done.
  eapply resR_bind; [by apply drain_pending_tw|]. intros [h k] [h' k'] [Hh Ek]. cbn in Hh, Ek. subst k'.
  eapply resR_bind; [by apply drain_analysis_tw|]. intros x y Hx. by apply IH.
Qed.
(** the index by operators, up to operators listed without classes *)
Definition like (m m' : gmap nat (gset nat)) : Prop := forall op, default ∅ (m' !! op) = default ∅ (m !! op).
Lemma by_op_add_like id m m' (n : node) : like m m' -> like (by_op_add L id m n) (by_op_add L id m' n).
Proof.
  intros Hm op. unfold by_op_add. destruct (decide (op = l_disc L (nop n))) as [->|Hne].
  - rewrite !lookup_insert. cbn. by rewrite (Hm (l_disc L (nop n))).
  - rewrite !lookup_insert_ne by done. apply Hm.
Qed.
Lemma by_op_scan_like id (ns : list node) : forall prev m m', like m m' -> like (by_op_scan L id prev ns m) (by_op_scan L id prev ns m').
Proof. induction ns as [|n ns IH]; intros prev m m' Hm; [done|]. cbn. destruct (node_matches prev n); apply IH; [done|by apply by_op_add_like]. Qed.
Lemma by_op_class_like id (ns : list node) m m' : like m m' -> like (by_op_class L id ns m) (by_op_class L id ns m').
Proof. intros Hm. destruct ns; [done|]. by apply by_op_scan_like, by_op_add_like. Qed.
Lemma rebuild_fold_like l : forall u (cs : gmap nat (eclass Op D)) m m', like m m' ->
  exists u' cs' k k', foldl (rebuild_class L) (u, cs, m) l = (u', cs', k) /\ foldl (rebuild_class L) (u, cs, m') l = (u', cs', k') /\ like k k'.
Proof.
  induction l as [|[k c] l IH]; intros u cs m m' Hm; [by eexists _, _, _, _|]. cbn [foldl rebuild_class].
  destruct (canon_nodes_mut u (c_nodes c)) as [u1 ns]. apply IH. by apply by_op_class_like.
Qed.
Definition whole (x y : egraph * nat) : Prop := twins x.1 y.1 /\ same_listing x.1 y.1 /\ eg_clean x.1 = true /\ eg_clean y.1 = true /\ x.2 = y.2.
Lemma rebuild_tw fuel md g g' : hook_tw md -> twins g g' -> resR whole (rebuild L A fuel md g) (rebuild L A fuel md g').
Proof.
  intros Hm Hg. unfold rebuild. eapply resR_bind; [by apply process_tw|]. intros [h k] [h' k'] [Hh Ek]. cbn in Hh, Ek. subst k'.
  apply twins_shade in Hh as (b & c & ->). unfold rebuild_classes. cbn.
  destruct (rebuild_fold_like (map_to_list (eg_classes h)) (eg_uf h) (eg_classes h) ((fun _ => ∅) <$> eg_by_op h) ((fun _ => ∅) <$> b)) as (u' & cs' & m & m' & E1 & E2 & Hl).
  { intros op. rewrite !lookup_fmap. by destruct (b !! op), (eg_by_op h !! op). }
  rewrite E1, E2. cbn. split; [done|]. split; [exact Hl|]. done.
Qed.
Lemma run_prog_tw fuel md p : hook_tw md -> blind p -> forall g g', twins g g' -> resR twins (run_prog L A fuel md p g) (run_prog L A fuel md p g').
Proof.
  intros Hm. induction p as [|k IH|n k IH|x y r k IH|x y r k IH|i d k IH|i d k IH|i f k IH|k IH]; cbn [blind run_prog]; intros Hp g g' Hg; [done|..].
  - rewrite (proj1 Hp g g' Hg). apply IH; [apply Hp|done].
  - unfold api_add. eapply (resR_bind tws).
    { eapply resR_bind; [by apply add_tw|]. intros [h i] [h' i'] [Hh Ei]. cbn in Hh, Ei. subst i'. apply twins_shade in Hh as (b & c & ->). done. }
    intros [h i] [h' i'] [Hh Ei]. cbn in Hh, Ei. subst i'. by apply IH.
  - unfold api_union, union. assert (Ee : eg_explain (add_log (EUnion x y r) g') = eg_explain (add_log (EUnion x y r) g)) by apply Hg. rewrite Ee.
    assert (Hl : twins (add_log (EUnion x y r) g) (add_log (EUnion x y r) g')) by (apply twins_shade in Hg as (b & c & ->); done).
    eapply (resR_bind tws).
    { destruct (eg_explain (add_log (EUnion x y r) g)); [unfold union_trusted|]; by apply perform_tw. }
    intros [h i] [h' i'] [Hh Ei]. cbn in Hh, Ei. subst i'. by apply IH.
  - unfold api_union_trusted, union_trusted.
    assert (Hl : twins (add_log (EUnion x y r) g) (add_log (EUnion x y r) g')) by (apply twins_shade in Hg as (b & c & ->); done).
    eapply (resR_bind tws); [by apply perform_tw|]. intros [h i] [h' i'] [Hh Ei]. cbn in Hh, Ei. subst i'. by apply IH.
  - unfold set_analysis_data. eapply (resR_bind twins).
    { eapply resR_bind; [by apply set_data_tw|]. intros [h j] [h' j'] [Hh Ei]. cbn in Hh, Ei. subst j'. by apply Hm. }
    intros h h' Hh. by apply IH.
  - eapply resR_bind; [by apply poke_tw|]. intros h h' Hh. by apply IH.
  - eapply resR_bind; [by apply retain_tw|]. intros h h' Hh. by apply IH.
  - eapply resR_bind; [by apply rebuild_tw|]. intros [h n] [h' n'] (Hh & _ & _ & _ & Ei). cbn in Hh, Ei. subst n'. by apply IH.
Qed.
Lemma modify_tw fuel : hook_tw (modify_n L A fuel).
Proof. induction fuel as [|fuel IH]; intros i g g' Hg; [done|]. cbn [modify_n]. apply run_prog_tw; [done|apply Hb|done]. Qed.

(** ** Searching *)
Lemma run_shade it b c g {S} (y : list nat -> S -> res (S * bool)) code reg s : MachineModel.run L it (shade b c g) y code reg s = MachineModel.run L it g y code reg s.
Proof. reflexivity. Qed.
Lemma search_tw it cycles p g g' limit : enumerates it -> twins g g' -> same_listing g g' -> eg_clean g = true -> eg_clean g' = true ->
  search_with_limit L it cycles p g' limit = search_with_limit L it cycles p g limit.
Proof.
  intros Hi Hg Hs Ec Ec'. apply twins_shade in Hg as (b & c & ->). cbn in Ec'. subst c.
  assert (Es : forall e l, search_eclass_with_limit L it cycles p (shade b true g) e l = search_eclass_with_limit L it cycles p g e l).
  { intros e l. unfold search_eclass_with_limit, search_eclass_program, run_with_limit. cbn [eg_clean shade set_by_op set_clean]. rewrite Ec. reflexivity. }
  assert (Ea : forall cs l, search_eclasses (search_eclass_with_limit L it cycles p (shade b true g)) cs l = search_eclasses (search_eclass_with_limit L it cycles p g) cs l).
  { induction cs as [|x cs IH]; intros l; [done|]. cbn [search_eclasses]. destruct (l =? 0); [done|]. rewrite Es. destruct (search_eclass_with_limit L it cycles p g x l) as [[m|]| |]; [|by rewrite IH|done|done].
    cbn. destruct (assert _); [|done|done]. cbn. by rewrite IH. }
  unfold search_with_limit. destruct (expect (last (pt_ast p))) as [n| |]; [|done|done]. cbn [mbind res_bind]. destruct (pview n) as [n'|v]; [|rewrite Ea; reflexivity].
  specialize (Hs (l_disc L (nop n'))). cbn [eg_by_op shade set_by_op] in Hs |- *.
  assert (Hemp : it ∅ = []).
  { apply Permutation_nil. pose proof (Hi ∅) as Hp. by rewrite elements_empty in Hp. }
  destruct (b !! l_disc L (nop n')) as [s|], (eg_by_op g !! l_disc L (nop n')) as [s'|]; cbn in Hs; [|subst s; by rewrite Hemp| |done].
  - subst s'. apply Ea.
  - subst s'. by rewrite Hemp.
Qed.
Lemma multi_search_tw it cycles p g g' limit : twins g g' -> eg_clean g = true -> eg_clean g' = true ->
  multi_search L it cycles p g' limit = multi_search L it cycles p g limit.
Proof.
  intros (b & c & ->)%twins_shade Ec Ec'. cbn in Ec'. subst c.
  assert (Es : forall e l, multi_search_eclass L it cycles p (shade b true g) e l = multi_search_eclass L it cycles p g e l).
  { intros e l. unfold multi_search_eclass, search_eclass_program, run_with_limit. cbn [eg_clean shade set_by_op set_clean]. rewrite Ec. reflexivity. }
  assert (Ea : forall cs l, search_eclasses (multi_search_eclass L it cycles p (shade b true g)) cs l = search_eclasses (multi_search_eclass L it cycles p g) cs l).
  { induction cs as [|x cs IH]; intros l; [done|]. cbn [search_eclasses]. destruct (l =? 0); [done|]. rewrite Es. destruct (multi_search_eclass L it cycles p g x l) as [[m|]| |]; [|by rewrite IH|done|done].
    cbn. destruct (assert _); [|done|done]. cbn. by rewrite IH. }
  unfold multi_search. rewrite Ea. reflexivity.
Qed.

(** ** Loading *)
Lemma load_save g : eg_explain g = None -> twins g (load (save g)).
Proof. intros E. unfold twins, load, save. cbn. rewrite E, list_to_map_to_list. done. Qed.
Lemma load_run g p fuel : blind p -> eg_explain g = None ->
  alike twins ((., tt) <$> run_prog L A fuel (modify_n L A fuel) p g) ((., tt) <$> run_prog L A fuel (modify_n L A fuel) p (load (save g))).
Proof.
  intros Hp E. pose proof (run_prog_tw fuel _ p (modify_tw fuel) Hp g _ (load_save g E)) as Hr. revert Hr.
  destruct (run_prog L A fuel _ p g), (run_prog L A fuel _ p (load (save g))); cbn; intros Hr; try done. 
Qed.
Lemma load_rebuild g fuel : eg_explain g = None ->
  alike (fun h h' => twins h h' /\ same_listing h h' /\ eg_clean h = true /\ eg_clean h' = true)
    (rebuild L A fuel (modify_n L A fuel) g) (rebuild L A fuel (modify_n L A fuel) (load (save g))).
Proof.
  intros E. pose proof (rebuild_tw fuel _ g _ (modify_tw fuel) (load_save g E)) as Hr. revert Hr.
  destruct (rebuild L A fuel _ g) as [[h n]| |], (rebuild L A fuel _ (load (save g))) as [[h' n']| |]; cbn; intros Hr; try done.
  destruct Hr as (H1 & H2 & H3 & H4 & H5). done.
Qed.
(** the rebuilt e-graph *)
Lemma load_search g fuel h n : eg_explain g = None -> rebuild L A fuel (modify_n L A fuel) g = Ok (h, n) ->
  exists h', rebuild L A fuel (modify_n L A fuel) (load (save g)) = Ok (h', n) /\ twins h h' /\ eg_clean h' = true /\
    forall it cycles limit, enumerates it ->
      (forall p, search_with_limit L it cycles p h' limit = search_with_limit L it cycles p h limit) /\
      (forall p, multi_search L it cycles p h' limit = multi_search L it cycles p h limit).
Proof.
  intros E Er. pose proof (load_rebuild g fuel E) as Hr. rewrite Er in Hr. cbn [alike] in Hr.
  destruct (rebuild L A fuel _ (load (save g))) as [[h' n']| |]; [|done|done]. destruct Hr as ((H1 & H2 & H3 & H4) & <-).
  exists h'. split; [done|]. split; [done|]. split; [done|]. intros it cycles limit Hi. split; intros p; [by apply search_tw|by apply multi_search_tw].
Qed.
Lemma listing_elem g g' : same_listing g g' -> forall d r, (exists s, eg_by_op g' !! d = Some s /\ r ∈ s) <-> (exists s, eg_by_op g !! d = Some s /\ r ∈ s).
Proof.
  intros Hs d r. specialize (Hs d). assert (Hm : forall (m : gmap nat (gset nat)), (exists s, m !! d = Some s /\ r ∈ s) <-> r ∈ default ∅ (m !! d)).
  { intros m. destruct (m !! d) as [s|]; cbn; [|set_solver]. split; [by intros (s' & [= <-] & Hr)|by exists s]. }
  by rewrite !Hm, Hs.
Qed.
Lemma load_rebuilt g fuel g1 n fuel' : lang_ok L -> reachable L A false g -> rebuild L A fuel (modify_n L A fuel) g = Ok (g1, n) ->
  exists g2, rebuild L A fuel' (modify_n L A fuel') (load (save g1)) = Ok (g2, 0) /\
    eg_classes g2 = eg_classes g1 /\ (forall i, eg_find g2 i = eg_find g1 i) /\ eg_nodes g2 = eg_nodes g1 /\ eg_memo g2 = eg_memo g1 /\
    (forall d r, (exists s, eg_by_op g2 !! d = Some s /\ r ∈ s) <-> (exists s, eg_by_op g1 !! d = Some s /\ r ∈ s)).
Proof.
  intros Lo R Er.
  destruct (rebuild_again L A fuel (modify_n L A fuel) fuel' (modify_n L A fuel') g g1 n Lo
    (modify_n_runs L A any fuel (fun id => prog_in_any (an_modify A id))) (reachable_good L A false g R) Er) as (g1' & Er' & C1 & C2 & C3 & C4 & C5 & C6).
  assert (Ee : eg_explain g1 = None).
  { assert (R1 : reachable L A false g1) by (apply (reach_run _ _ _ _ fuel (PRebuild (fun _ => PRet)) g); [exact R|done|]; cbn [run_prog]; rewrite Er; reflexivity).
    pose proof (reach_explain _ _ _ _ R1) as Hx. apply bool_decide_eq_false in Hx. by apply eq_None_not_Some. }
  pose proof (load_rebuild g1 fuel' Ee) as Hr. rewrite Er' in Hr. cbn [alike] in Hr.
  destruct (rebuild L A fuel' _ (load (save g1))) as [[g2 n']| |]; [|done|done]. destruct Hr as (((T1 & T2 & T3 & T4 & T5 & T6 & T7 & T8) & H2 & _ & _) & <-).
  exists g2. split; [done|]. split; [congruence|]. split; [intros i; unfold eg_find; rewrite T2; apply C2|]. split; [congruence|]. split; [congruence|].
  intros d r. rewrite (listing_elem _ _ H2 d r). apply C6.
Qed.
Lemma load_explain g l r t u : reachable L A true g -> AddedAs (eg_log g) l t -> AddedAs (eg_log g) r u -> eg_find g l = eg_find g r ->
  exists bound, forall fuel, bound <= fuel -> exists p, explain_id_equivalence fuel l r (load (save g)) = Ok p /\ proves (asserted (eg_log g)) p t u.
Proof.
  intros R Ht Hu Hf. destruct (reachable_good _ _ _ _ R) as [I X]. pose proof (reach_explain _ _ _ _ R) as Hx.
  apply bool_decide_eq_true in Hx as [x Hx]. destruct (X x Hx) as [es Hes]. pose proof Hes as (X1 & X2 & X3 & X4 & X5).
  set (x' := Explain (ex_find x) (ex_memo x) ∅).
  assert (Eg : forall fuel, explain_id_equivalence fuel l r (load (save g)) = explain_id_equivalence fuel l r (set_explain (Some x') g)).
  { intros fuel. unfold explain_id_equivalence, load, save. cbn. rewrite Hx. cbn. rewrite list_to_map_to_list. reflexivity. }
  pose proof (proj1 (known_nodes _ _ _ _ _ R) (added_known _ _ _ _ _ _ R Ht)) as Hl. pose proof (proj1 (known_nodes _ _ _ _ _ R) (added_known _ _ _ _ _ _ R Hu)) as Hr.
  exists (S (length es)). intros fuel Hb'. rewrite Eg.
  assert (Ho : exists p, explain_id_equivalence fuel l r (set_explain (Some x') g) = Ok p).
  { unfold explain_id_equivalence. rewrite bool_decide_eq_true_2 by done. cbn [eg_explain set_explain expect mbind res_bind eg_nodes].
    assert (Hes' : xforest (eg_nodes g) (eg_log g) (eg_find g) x' es) by exact Hes.
    assert (Hdir : direct x') by (intros a b c n Hs; cbn in Hs; by rewrite lookup_empty in Hs).
    destruct (explain_total _ _ _ _ (reach_dag _ _ _ _ R) _ Hes' Hdir es [] eq_refl fuel l r ∅) as [[p ca] Ep]; auto.
    - by apply X4.
    - intros a b q Hq. by rewrite lookup_empty in Hq.
    - rewrite Ep. by exists p. }
  destruct Ho as [p Ho]. exists p. split; [done|]. exact (explain_sound L A g x x' fuel l r p t u R Hx eq_refl Ho Ht Hu).
Qed.
End proofs.
