(** Termination of [rebuild] and the number it returns. *)
From Verif Require Import Base UnionFind EGraphModel EGraphSteps EGraphInv EGraphPres EGraphRuns Spec EGraphMain
  EGraphReach EGraphSafe EGraphNoPanic.

(** ** A vector of data, one entry moving at a time *)
Definition vstep {B} (R : B -> B -> Prop) (l' l : list B) : Prop :=
  exists i x y, l !! i = Some x /\ l' = <[i := y]> l /\ R y x.
Lemma vstep_wf {B} (R : B -> B -> Prop) : well_founded R -> well_founded (vstep R).
Proof.
  intros HR l. induction l as [|x l IHl].
  { constructor. intros l' (i & x & y & Hi & _). done. }
  specialize (HR x). revert l IHl. induction HR as [x _ IHx]. intros l IHl.
  induction IHl as [l Hl IHl]. constructor. intros l' (i & a & b & Hi & -> & HR).
  destruct i as [|i]; cbn in *.
  - injection Hi as <-. apply IHx; [done|]. by constructor.
  - apply IHl. by exists i, a, b.
Qed.
Definition oabove {B} (R : B -> B -> Prop) (x y : option B) : Prop :=
  match x, y with Some a, Some b => R a b | _, _ => False end.
Lemma oabove_wf {B} (R : B -> B -> Prop) : well_founded R -> well_founded (oabove R).
Proof.
  intros HR [x|]; [|constructor; by intros []]. induction (HR x) as [x _ IH].
  constructor. intros [y|] Hy; [by apply IH|done].
Qed.

Section term.
Context {Op D : Type} `{Countable Op}.
Notation node := (node Op).
Notation egraph := (egraph Op D).
Notation eclass := (eclass Op D).
Context (L : lang Op) (A : analysis Op D).

Definition idle (md : nat -> egraph -> res egraph) : Prop := forall id g, md id g = Ok g.
Lemma idle_hook md o (g : egraph) : idle md -> run_hook md o g = Ok g.
Proof. intros Hi. destruct o; cbn; auto. Qed.
Lemma hook_free_idle fuel : hook_free A -> idle (modify_n L A (S fuel)).
Proof. intros Hh id g. cbn [modify_n]. by rewrite Hh. Qed.
Lemma idle_good md : idle md -> md_good L A md.
Proof. intros Hi id g G _. rewrite Hi. cbn. by apply next_refl. Qed.

Lemma union_core_shape a b rule (g g' : egraph) o :
  uf_wf (eg_uf g) -> perform_union_core A a b rule g = Ok (g', o) ->
  (o = None /\ eg_classes g' = eg_classes g /\ eg_pending g' = eg_pending g /\ eg_apending g' = eg_apending g) \/
  (is_Some o /\ base.size (eg_classes g) = S (base.size (eg_classes g'))).
Proof.
  intros Hw E. apply perform_union_core_spec in E as (_ & _ & Hs); [|done].
  destruct Hs as [u ex' Hsame He Hex|id1 id2 k1 k2 dd did1 did2 u ex' Hids Hne E1 E2 Hlen Htie Hcid Hm Hw' Hl Hf Hex].
  - by left.
  - right. split; [by eexists|]. cbn.
    rewrite map_size_insert_Some by (rewrite lookup_delete_ne by done; eauto).
    rewrite map_size_delete. rewrite E2. cbn.
    assert (base.size (eg_classes g) <> 0); [|lia]. intros Hz%map_size_empty_inv. by rewrite Hz, lookup_empty in E2.
Qed.

Lemma pending_core_shape c rest (g g1 : egraph) o :
  Inv g -> eg_pending g = c :: rest -> pending_core A c (set_pending rest g) = Ok (g1, o) ->
  (o = None /\ eg_classes g1 = eg_classes g /\ eg_pending g1 = rest) \/
  (is_Some o /\ base.size (eg_classes g) = S (base.size (eg_classes g1))).
Proof.
  intros I Ep E. unfold pending_core in E. inv_res. cbn in H0.
  destruct (canon_mut_spec (eg_uf g) x (iv_wf _ I)) as (u & Eu & He).
  { apply Forall_forall. intros k Hk. pose proof (ci_ch _ _ _ _ _ _ _ (iv_c _ I) _ _ _ H0 Hk).
    pose proof (lookup_lt_Some _ _ _ H0). rewrite <- (iv_len _ I). lia. }
  cbn [eg_uf set_pending] in E. rewrite Eu in E. cbn [eg_memo set_uf set_pending] in E.
  destruct (eg_memo g !! _) as [mc|]; inv_res; [|by left].
  apply union_core_shape in E; [|by apply He]. cbn in E. naive_solver.
Qed.

Lemma drain_pending_term md (g : egraph) :
  idle md -> good g ->
  exists fuel0 g' k, (forall fuel n, fuel0 <= fuel -> drain_pending A fuel md n g = Ok (g', n + k)) /\
    eg_pending g' = [] /\ next L A g g' /\ base.size (eg_classes g) = base.size (eg_classes g') + k.
Proof.
  intros Hi. remember (base.size (eg_classes g)) as N eqn:EN. revert g EN.
  induction (lt_wf N) as [N _ IHN]. intros g EN.
  remember (length (eg_pending g)) as M eqn:EM. revert g EN EM. induction (lt_wf M) as [M _ IHM]. intros g EN EM G.
  destruct (eg_pending g) as [|c rest] eqn:Ep.
  { exists 0, g, 0. split_and!; [|done|by apply next_refl|lia]. intros fuel n _.
    destruct fuel; cbn [drain_pending]; rewrite Ep, Nat.add_0_r; done. }
  destruct (pending_core_safe A c rest g) as (g1 & o & E & X1); [apply G..|done|].
  assert (N1 : next L A g g1).
  { apply next_good; [done|]. eapply (brun_prim1 L A LPend); [done|]; econstructor; eauto. }
  destruct (pending_core_shape _ _ _ _ _ (go_inv _ G) Ep E) as [(-> & Ec & Er)|[Ho Hsz]].
  - destruct (IHM (length rest)) with (g := g1) as (f0 & g' & k & Hf & Hp & Hn & Hs).
    + subst M. cbn. lia.
    + by rewrite Ec.
    + by rewrite Er.
    + apply N1.
    + exists (S f0), g', k. split_and!; [|done|by eapply next_trans|done]. intros fuel n Hfu.
      destruct fuel as [|fuel]; [lia|]. cbn [drain_pending]. rewrite Ep, E. cbn [mbind res_bind run_hook].
      rewrite Nat.add_0_r. apply Hf. lia.
  - destruct (IHN (base.size (eg_classes g1))) with (g := g1) as (f0 & g' & k & Hf & Hp & Hn & Hs).
    + lia.
    + done.
    + apply N1.
    + exists (S f0), g', (S k). split_and!; [|done|by eapply next_trans|lia]. intros fuel n Hfu.
      destruct fuel as [|fuel]; [lia|]. cbn [drain_pending]. rewrite Ep, E. cbn [mbind res_bind].
      rewrite idle_hook by done. cbn [mbind res_bind]. destruct Ho as [h ->]. rewrite Hf by lia. f_equal. f_equal. lia.
Qed.

(** The data of the classes as a vector. *)
Definition dvec (g : egraph) : list (option D) :=
  (fun i => c_data <$> eg_classes g !! i) <$> seq 0 (length (eg_nodes g)).

Lemma analysis_core_shape R id q (g g1 : egraph) o :
  merge_climbs A R -> Inv g -> uq_pop (eg_apending g) = Some (id, q) ->
  analysis_core A id (set_apending q g) = Ok (g1, o) ->
  eg_pending g1 = eg_pending g /\ base.size (eg_classes g1) = base.size (eg_classes g) /\
  (vstep (oabove R) (dvec g1) (dvec g) \/ (dvec g1 = dvec g /\ eg_apending g1 = q)).
Proof.
  intros [Hwf Hcl] I Eq E. destruct (uq_pop_ok _ _ _ _ (iv_q _ I) Eq) as [_ Hid].
  unfold analysis_core in E. inv_res.
  destruct (eg_find_mut_spec (set_apending q g) id) as (u & Ef & He); [apply I|cbn; rewrite <- (iv_len _ I); done|].
  rewrite Ef in E. inv_res. cbn in H1. change (eg_find (set_apending q g) id) with (eg_find g id) in *.
  destruct (an_merge A _ _) as [d [f1 f2]] eqn:Em. apply Hcl in Em.
  assert (Hr : eg_find g id < length (eg_nodes g)) by (by apply (ci_lt _ _ _ _ _ _ _ (iv_c _ I))).
  assert (Hg : eg_nodes g1 = eg_nodes g /\ eg_pending g1 = eg_pending g /\
    eg_classes g1 = <[eg_find g id := c_set_data d x0]> (eg_classes g) /\ (f1 = false -> eg_apending g1 = q)).
  { destruct f1; inv_res; done. }
  destruct Hg as (En & Ep & Ec & Ea). split_and!; [done| |].
  - rewrite Ec. apply map_size_insert_Some. eauto.
  - assert (Hv : dvec g1 = <[eg_find g id := Some d]> (dvec g)).
    { unfold dvec. rewrite En, Ec. apply list_eq. intros i.
      destruct (decide (i = eg_find g id)) as [->|Hne].
      - rewrite list_lookup_insert by (by rewrite fmap_length, seq_length).
        rewrite list_lookup_fmap, lookup_seq_lt by done. cbn. by rewrite lookup_insert.
      - rewrite list_lookup_insert_ne by done. rewrite !list_lookup_fmap.
        destruct (seq 0 (length (eg_nodes g)) !! i) as [j|] eqn:Ej; [|done]. cbn.
        apply lookup_seq in Ej as [-> ?]. by rewrite lookup_insert_ne by done. }
    assert (Hl : dvec g !! eg_find g id = Some (Some (c_data x0))).
    { unfold dvec. rewrite list_lookup_fmap, lookup_seq_lt by done. cbn. by rewrite H1. }
    destruct Em as [Hab|[-> ->]].
    + left. exists (eg_find g id), (Some (c_data x0)), (Some d). done.
    + right. split; [|auto]. rewrite Hv. by apply list_insert_id.
Qed.

Lemma drain_analysis_term R md (g : egraph) :
  idle md -> merge_climbs A R -> good g ->
  exists fuel0 g', (forall fuel, fuel0 <= fuel -> drain_analysis A fuel md g = Ok g') /\
    uq_queue (eg_apending g') = [] /\ eg_pending g' = eg_pending g /\ next L A g g' /\
    base.size (eg_classes g') = base.size (eg_classes g).
Proof.
  intros Hi Hc. pose proof (vstep_wf _ (oabove_wf _ (proj1 Hc))) as Hwf.
  remember (dvec g) as V eqn:EV. revert g EV. induction (Hwf V) as [V _ IHV]. intros g EV.
  remember (length (uq_queue (eg_apending g))) as M eqn:EM. revert g EV EM.
  induction (lt_wf M) as [M _ IHM]. intros g EV EM G.
  destruct (uq_pop (eg_apending g)) as [[id q]|] eqn:Ep.
  2:{ exists 0, g. split_and!; [|unfold uq_pop in Ep; by destruct (uq_queue _)|done|by apply next_refl|done]. intros fuel _.
      destruct fuel; cbn [drain_analysis]; rewrite Ep; done. }
  destruct (analysis_core_safe A id q g) as (g1 & o & E & X1); [apply G..|done|].
  assert (N1 : next L A g g1).
  { apply next_good; [done|]. eapply (brun_prim1 L A LAna); [done|]; econstructor; eauto. }
  destruct (analysis_core_shape _ _ _ _ _ _ Hc (go_inv _ G) Ep E) as (Epp & Esz & Hv).
  assert (HIH : exists fuel0 g', (forall fuel, fuel0 <= fuel -> drain_analysis A fuel md g1 = Ok g') /\
    uq_queue (eg_apending g') = [] /\ eg_pending g' = eg_pending g1 /\ next L A g1 g' /\
    base.size (eg_classes g') = base.size (eg_classes g1)).
  { destruct Hv as [Hv|[Hv Hq]].
    - apply (IHV (dvec g1)); [by rewrite EV|done|apply N1].
    - apply (IHM (length (uq_queue q))); [|congruence|by rewrite Hq|apply N1].
      subst M. unfold uq_pop in Ep. destruct (uq_queue (eg_apending g)); [done|]. injection Ep as _ <-. cbn. lia. }
  destruct HIH as (f0 & g' & Hf & Hq & Hp & Hn & Hs).
  exists (S f0), g'. split_and!; [|done|congruence|by eapply next_trans|congruence]. intros fuel Hfu.
  destruct fuel as [|fuel]; [lia|]. cbn [drain_analysis]. rewrite Ep, E. cbn [mbind res_bind].
  rewrite idle_hook by done. cbn [mbind res_bind]. apply Hf. lia.
Qed.

Lemma rebuild_classes_size (g : egraph) : Inv g -> base.size (eg_classes (rebuild_classes L g)) = base.size (eg_classes g).
Proof.
  intros I. destruct (rebuild_classes_spec L g) as (u & cls' & ops' & -> & He & Hcls & _).
  { apply I. }
  { intros. rewrite <- (iv_len _ I). by eapply class_children_lt. }
  cbn. unfold base.size, map_size. 
  assert (cls' = (fun c => c_set_nodes (norm_nodes L (eg_find g) (c_nodes c)) c) <$> eg_classes g) as ->.
  { apply map_eq. intros i. by rewrite lookup_fmap. }
  by rewrite map_to_list_fmap, fmap_length.
Qed.

Lemma rebuild_term R (g : egraph) :
  hook_free A -> merge_climbs A R -> good g ->
  exists fuel0 g' k, (forall fuel, fuel0 <= fuel -> rebuild L A fuel (modify_n L A fuel) g = Ok (g', k)) /\
    base.size (eg_classes g) = base.size (eg_classes g') + k.
Proof.
  intros Hh Hc G.
  destruct (drain_pending_term (modify_n L A 1) g (hook_free_idle 0 Hh) G) as (f1 & g1 & k & Hf1 & Hp1 & N1 & Hs1).
  destruct (drain_analysis_term R (modify_n L A 1) g1 (hook_free_idle 0 Hh) Hc (proj1 N1)) as (f2 & g2 & Hf2 & Hq2 & Hp2 & N2 & Hs2).
  assert (Hdp : forall fuel fuel' n, drain_pending A fuel (modify_n L A (S fuel')) n g = drain_pending A fuel (modify_n L A 1) n g).
  { intros fuel fuel'. generalize g. induction fuel as [|fuel IH]; intros g0 n; cbn [drain_pending]; [done|].
    destruct (eg_pending g0); [done|]. destruct (pending_core _ _ _) as [[g3 o]| |]; cbn [mbind res_bind]; [|done..].
    rewrite !idle_hook by (by apply hook_free_idle). cbn [mbind res_bind]. apply IH. }
  assert (Hda : forall fuel fuel' g0, drain_analysis A fuel (modify_n L A (S fuel')) g0 = drain_analysis A fuel (modify_n L A 1) g0).
  { intros fuel fuel'. induction fuel as [|fuel IH]; intros g0; cbn [drain_analysis]; [done|].
    destruct (uq_pop _) as [[]|]; [|done]. destruct (analysis_core _ _ _) as [[g3 o]| |]; cbn [mbind res_bind]; [|done..].
    rewrite !idle_hook by (by apply hook_free_idle). cbn [mbind res_bind]. apply IH. }
  destruct (decide (eg_pending g = [] /\ uq_queue (eg_apending g) = [])) as [[Ep Eq]|Hne].
  - exists 0, (set_clean true (rebuild_classes L g)), 0. split.
    + intros fuel _. unfold rebuild. destruct fuel; cbn [process_unions]; unfold uq_is_empty; rewrite Ep, Eq; done.
    + change (eg_classes (set_clean true (rebuild_classes L g))) with (eg_classes (rebuild_classes L g)).
      rewrite rebuild_classes_size by apply G. lia.
  - exists (2 + f1 + f2), (set_clean true (rebuild_classes L g2)), k. split.
    + intros fuel Hfu. destruct fuel as [|[|fuel]]; [lia|lia|]. unfold rebuild. cbn [process_unions].
      replace ((match eg_pending g with [] => true | _ => false end) && uq_is_empty (eg_apending g)) with false.
      2:{ unfold uq_is_empty. destruct (eg_pending g), (uq_queue (eg_apending g)); try done. exfalso. by apply Hne. }
      rewrite Hdp, Hf1 by lia. cbn [mbind res_bind]. rewrite Hda, Hf2 by lia. cbn [mbind res_bind].
      unfold uq_is_empty. rewrite Hp2, Hp1, Hq2. done.
    + change (eg_classes (set_clean true (rebuild_classes L g2))) with (eg_classes (rebuild_classes L g2)).
      rewrite rebuild_classes_size by apply N2. lia.
Qed.

(** ** The count, for any hook-free analysis *)
Lemma drain_pending_count fuel md n (g g' : egraph) n' :
  idle md -> good g -> drain_pending A fuel md n g = Ok (g', n') ->
  good g' /\ n + base.size (eg_classes g) = n' + base.size (eg_classes g').
Proof.
  intros Hi. revert n g. induction fuel as [|fuel IH]; intros n g G; cbn [drain_pending];
    destruct (eg_pending g) as [|c rest] eqn:Ep; intros E; inv_res; try (by split).
  destruct x as [g1 o]. rewrite idle_hook in E by done. cbn [mbind res_bind] in E.
  assert (N1 : next L A g g1).
  { apply next_good; [done|]. eapply (brun_prim1 L A LPend); [done|]; econstructor; eauto. }
  apply IH in E as [G' E']; [|apply N1]. split; [done|].
  destruct (pending_core_shape _ _ _ _ _ (go_inv _ G) Ep H0) as [(-> & Ec & Er)|[[h ->] Hsz]].
  - rewrite <- Ec. lia.
  - lia.
Qed.
Lemma drain_analysis_count fuel md (g g' : egraph) :
  idle md -> good g -> drain_analysis A fuel md g = Ok g' ->
  good g' /\ base.size (eg_classes g') = base.size (eg_classes g).
Proof.
  intros Hi. revert g. induction fuel as [|fuel IH]; intros g G; cbn [drain_analysis];
    destruct (uq_pop (eg_apending g)) as [[id q]|] eqn:Ep; intros E; inv_res; try (by split).
  destruct x as [g1 o]. rewrite idle_hook in E by done. cbn [mbind res_bind] in E.
  assert (N1 : next L A g g1).
  { apply next_good; [done|]. eapply (brun_prim1 L A LAna); [done|]; econstructor; eauto. }
  apply IH in E as [G' E']; [|apply N1]. split; [done|]. rewrite E'.
  unfold analysis_core, eg_find_mut in H0. inv_res. cbn in H0. destruct (uf_find_mut _ _). inv_res. cbn in *.
  destruct (an_merge A _ _) as [d [[] ?]]; inv_res; cbn; apply map_size_insert_Some; eauto.
Qed.
Lemma rebuild_count fuel (g g' : egraph) k :
  hook_free A -> good g -> rebuild L A fuel (modify_n L A fuel) g = Ok (g', k) ->
  base.size (eg_classes g) = k + base.size (eg_classes g').
Proof.
  intros Hh G E. unfold rebuild in E. inv_res. destruct x as [g1 n]. inv_res.
  change (eg_classes (set_clean true (rebuild_classes L g1))) with (eg_classes (rebuild_classes L g1)).
  cut (good g1 /\ 0 + base.size (eg_classes g) = k + base.size (eg_classes g1)).
  { intros [G1 Hc]. rewrite rebuild_classes_size by apply G1. lia. }
  assert (Hf : forall md, (idle md \/ fuel = 0) -> forall inner n g, good g -> process_unions A fuel inner md n g = Ok (g1, k) ->
     good g1 /\ n + base.size (eg_classes g) = k + base.size (eg_classes g1)).
  { clear -L. intros md Hi inner. induction fuel as [|fuel IH]; intros n g G; cbn [process_unions].
    - destruct (_ && _); [|done]. intros E. inv_res. done.
    - destruct (_ && _); intros E; inv_res; [done|]. destruct x as [g2 n2]. inv_res.
      destruct Hi as [Hi|Hi]; [|done].
      apply drain_pending_count in H0 as [G2 E2]; [|done|done].
      apply drain_analysis_count in H1 as [G3 E3]; [|done|done].
      apply IH in E as [G4 E4]; [|auto|done]. split; [done|]. lia. }
  eapply Hf; [|exact G|exact H0]. destruct fuel; [by right|]. left. by apply hook_free_idle.
Qed.

(** ** Idempotence *)
Lemma norm_nodes_idem f (ns : list node) :
  lang_ok L -> (forall i, f (f i) = f i) -> norm_nodes L f (norm_nodes L f ns) = norm_nodes L f ns.
Proof.
  intros Lo Hf. set (l := norm_nodes L f ns).
  assert (Hc : canonf f <$> l = l).
  { rewrite <- (list_fmap_id l) at 2. apply list_fmap_ext. intros i x Hx.
    apply elem_of_list_lookup_2 in Hx. unfold l in Hx. apply elem_of_norm_nodes in Hx as (m & -> & _).
    cbn. by apply canonf_canonf. }
  destruct (norm_nodes_sorted L f ns Lo) as [Hs Hn]. fold l in Hs, Hn.
  unfold norm_nodes at 1. rewrite Hc.
  assert (Hsort : sort_nodes L l = l).
  { destruct (node_le_preorder L Lo) as [Ht Htot]. unfold sort_nodes.
    assert (AntiSymm eq (node_le L)) by (intros x y; apply (lo_antisym _ Lo)).
    eapply (StronglySorted_unique (node_le L)); [|done|apply merge_sort_Permutation].
    apply StronglySorted_merge_sort; [exact Ht|exact Htot]. }
  rewrite Hsort. destruct l as [|n l]; [done|]. cbn [dedup]. f_equal.
  clear -Hn. revert n Hn. induction l as [|m l IH]; intros n Hn; cbn [dedup_from]; [done|].
  inversion_clear Hn as [|? ? Hn1 Hn2]. rewrite decide_False; [|set_solver]. f_equal. by apply IH.
Qed.

Lemma rebuild_again fuel md fuel' md' (g g1 : egraph) n :
  lang_ok L -> md_runs L A any md -> good g -> rebuild L A fuel md g = Ok (g1, n) ->
  exists g2, rebuild L A fuel' md' g1 = Ok (g2, 0) /\
    eg_classes g2 = eg_classes g1 /\ (forall i, eg_find g2 i = eg_find g1 i) /\
    eg_nodes g2 = eg_nodes g1 /\ eg_memo g2 = eg_memo g1 /\ eg_explain g2 = eg_explain g1 /\
    (forall d r, (exists s, eg_by_op g2 !! d = Some s /\ r ∈ s) <-> (exists s, eg_by_op g1 !! d = Some s /\ r ∈ s)).
Proof.
  intros Lo Hmd G E. unfold rebuild in E. inv_res. destruct x as [g0 n0]. inv_res.
  apply process_unions_runs with (L := L) (P := any) in H0 as (R & Ep & Eq); [|done|done|done].
  pose proof (proj1 (next_good _ _ _ _ G R)) as G0.
  destruct (rebuild_classes_spec L g0) as (u & cls' & ops' & E0 & He & Hcls & Hops).
  { apply G0. }
  { intros. rewrite <- (iv_len _ (go_inv _ G0)). by eapply class_children_lt; [apply G0|..]. }
  assert (N1 : next L A g0 (set_clean true (rebuild_classes L g0))).
  { apply next_good; [done|]. eapply (brun_prim1 L A LRebuild); [done|]. by constructor. }
  rewrite E0 in *. set (g1 := set_clean true _) in *.
  assert (I1 : Inv g1) by apply N1.
  destruct (rebuild_classes_spec L g1) as (u2 & cls2 & ops2 & E2 & He2 & Hcls2 & Hops2).
  { apply I1. }
  { intros. rewrite <- (iv_len _ I1). by eapply class_children_lt; [apply I1|..]. }
  exists (set_clean true (rebuild_classes L g1)).
  assert (Hf1 : forall i, eg_find g1 i = eg_find g0 i) by (apply He).
  assert (Hn : forall c : eclass, norm_nodes L (eg_find g1) (norm_nodes L (eg_find g0) (c_nodes c)) = norm_nodes L (eg_find g0) (c_nodes c)).
  { intros c. rewrite (norm_nodes_ext L (eg_find g1) (eg_find g0)) by done. apply norm_nodes_idem; [done|].
    intros i. apply (Inv_find_idem g0 i), G0. }
  rewrite E2. split_and!; try done.
  - unfold rebuild. destruct fuel'; cbn [process_unions]; unfold uq_is_empty; cbn; rewrite Ep, Eq; cbn; by rewrite E2.
  - cbn [eg_classes set_clean set_by_op set_classes]. apply map_eq. intros i. rewrite Hcls2. cbn [g1 eg_classes set_clean set_by_op set_classes].
    rewrite Hcls. destruct (eg_classes g0 !! i) as [c|]; [|done]. cbn. by rewrite Hn.
  - apply He2.
  - intros d r. cbn [eg_by_op set_clean set_by_op g1]. fold (by_op_mem ops2 d r) (by_op_mem ops' d r). rewrite Hops, Hops2.
    split.
    + intros (k & c & m & Hc & Hid & Hm & Hd). cbn in Hc. rewrite Hcls in Hc.
      destruct (eg_classes g0 !! k) as [c0|] eqn:Ec0; [|done]. injection Hc as <-. cbn in Hm, Hid. rewrite Hn in Hm. eauto 10.
    + intros (k & c & m & Hc & Hid & Hm & Hd). eexists k, _, m. split_and!; [cbn; rewrite Hcls, Hc; done|done| |done].
      cbn. by rewrite Hn.
Qed.
End term.
