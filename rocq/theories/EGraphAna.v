(** Analysis data: upper bounds and least fixpoints. *)
From Verif Require Import Base UnionFind EGraphModel EGraphSteps EGraphInv EGraphPres EGraphRuns Spec EGraphMain
  EGraphReach.

Section ana.
Context {Op D : Type} `{Countable Op}.
Notation node := (node Op).
Notation egraph := (egraph Op D).
Notation eclass := (eclass Op D).
Context (L : lang Op) (A : analysis Op D) (le : D -> D -> Prop) (mk : Op -> list D -> D).
Notation dat := (class_data (Op := Op) (D := D)).

Definition datk (l : lbl) : Prop := l <> LSetData /\ l <> LPoke.
Lemma keeps_data_in p : keeps_data p -> prog_in (D := D) (Op := Op) datk p.
Proof. induction p; cbn; unfold datk; try done; intros; repeat split; auto; naive_solver. Qed.
Lemma reachable_kd_brun ex g : reachable_kd L A ex g -> brun L A datk (eg_new ex) g.
Proof. intros [Hm R]. eapply reach_brun; [| |exact R]; intros; by apply keeps_data_in. Qed.
Lemma reachable_kd_reachable ex g : reachable_kd L A ex g -> reachable L A ex g.
Proof. intros [_ R]. by eapply reach_mono. Qed.

Lemma dat_Some (g : egraph) i : Inv g -> i < length (eg_nodes g) -> is_Some (dat g i).
Proof.
  intros I Hi. unfold class_data. apply fmap_is_Some. apply (ci_cls _ _ _ _ _ _ _ (iv_c _ I)).
  rewrite (Inv_find_idem g i I). split; [|done]. by apply (ci_lt _ _ _ _ _ _ _ (iv_c _ I)).
Qed.
Lemma dats_Some (g : egraph) cs : Inv g -> Forall (fun c => c < length (eg_nodes g)) cs ->
  exists ds, dat g <$> cs = Some <$> ds.
Proof.
  intros I. induction 1 as [|c cs Hc _ [ds IH]]; [by exists []|].
  destruct (dat_Some g c I Hc) as [d Hd]. exists (d :: ds). cbn. by rewrite Hd, IH.
Qed.
Lemma node_ch_lt (g : egraph) k n : Inv g -> eg_nodes g !! k = Some n -> Forall (fun c => c < length (eg_nodes g)) (nch n).
Proof.
  intros I Hk. apply Forall_forall. intros c Hc. pose proof (ci_ch _ _ _ _ _ _ _ (iv_c _ I) _ _ _ Hk Hc).
  apply lookup_lt_Some in Hk. lia.
Qed.
Lemma dats_canon (g : egraph) (n m : node) :
  canonf (eg_find g) n = canonf (eg_find g) m -> dat g <$> nch n = dat g <$> nch m.
Proof.
  intros E. assert (E2 : eg_find g <$> nch n = eg_find g <$> nch m) by (unfold canonf in E; congruence).
  unfold class_data. change (fun i => c_data <$> eg_classes g !! eg_find g i) with
    ((fun r => c_data <$> eg_classes g !! r) ∘ eg_find g). by rewrite !list_fmap_compose, E2.
Qed.
Lemma Some_fmap_inj {B} (l l' : list B) : Some <$> l = Some <$> l' -> l = l'.
Proof. revert l'. induction l as [|x l IH]; intros [|y l']; cbn; intros E; try done. injection E as -> E. f_equal. auto. Qed.

(** The e-node of id [q] is accounted for in its class's data. *)
Definition held (g : egraph) (q : nat) (m : node) : Prop :=
  exists ds d, dat g <$> nch m = Some <$> ds /\ dat g q = Some d /\ le (mk (nop m) ds) d.
Definition cov (g : egraph) (k : nat) : Prop :=
  exists q m, eg_nodes g !! q = Some m /\ sim (eg_find g) (eg_nodes g) q k /\
    (q ∈ uq_queue (eg_apending g) \/ held g q m).
Definition AI (g : egraph) : Prop := forall k n, eg_nodes g !! k = Some n -> cov g k.

Hypothesis LA : lattice_analysis A le mk.

Lemma held_sim (g : egraph) q m k n :
  eg_nodes g !! q = Some m -> eg_nodes g !! k = Some n -> sim (eg_find g) (eg_nodes g) q k -> held g q m -> held g k n.
Proof.
  intros Hq Hk (Ef & n1 & n2 & E1 & E2 & Ec) (ds & d & Hds & Hd & Hle).
  rewrite Hq in E1. rewrite Hk in E2. injection E1 as <-. injection E2 as <-.
  exists ds, d. split_and!.
  - by rewrite <- (dats_canon g m n Ec).
  - unfold class_data in *. by rewrite <- Ef.
  - apply canonf_eq_inv in Ec as (<- & _). done.
Qed.

(** A step that may change data of some classes and requeue parents. *)
Lemma AI_step (g g' : egraph) (ch : nat -> Prop) `{forall c, Decision (ch c)} :
  Inv g -> coarser (eg_find g) (eg_find g') -> eg_nodes g' = eg_nodes g ->
  (forall i d, dat g i = Some d -> exists d', dat g' i = Some d' /\ le d d') ->
  (forall q m, eg_nodes g !! q = Some m -> q ∈ uq_queue (eg_apending g) ->
     q ∈ uq_queue (eg_apending g') \/
     exists ds d', dat g <$> nch m = Some <$> ds /\ dat g' q = Some d' /\ le (mk (nop m) ds) d') ->
  (forall c cl q, ch c -> eg_classes g !! eg_find g c = Some cl -> q ∈ c_parents cl -> q ∈ uq_queue (eg_apending g')) ->
  (forall c, ~ ch c -> dat g' c = dat g c) ->
  AI g -> AI g'.
Proof.
  intros I Hco En Hle Hq Hch Hnc HA k n Hk. rewrite En in Hk.
  destruct (HA k n Hk) as (q & m & Hqm & Hs & Hcov).
  assert (Hs' : sim (eg_find g') (eg_nodes g') q k) by (rewrite En; by eapply sim_coarser).
  assert (Hor : q ∈ uq_queue (eg_apending g') \/
     exists ds d', dat g <$> nch m = Some <$> ds /\ dat g' q = Some d' /\ le (mk (nop m) ds) d').
  { destruct Hcov as [Hin|(ds & d & Hds & Hd & Hl)]; [by apply Hq|]. right.
    destruct (Hle _ _ Hd) as (d' & Hd' & Hl'). exists ds, d'. split_and!; auto. by eapply (la_trans _ _ _ LA). }
  destruct Hor as [Hin|(ds & d' & Hds & Hd' & Hl)].
  { exists q, m. rewrite En at 1. auto. }
  destruct (decide (Exists ch (nch m))) as [Hex|Hne].
  - apply Exists_exists in Hex as (c & Hc & Hcc).
    destruct (ci_par _ _ _ _ _ _ _ (iv_c _ I) _ _ _ Hqm Hc) as (cl & p & Hcl & Hp & Hsp).
    pose proof Hsp as (_ & pm & _ & Hpm & _).
    exists p, pm. rewrite En. split_and!; [done| |left; by eapply Hch].
    eapply sim_trans; [by eapply sim_coarser|]. by rewrite En in Hs'.
  - exists q, m. rewrite En. split_and!; [done|by rewrite <- En|]. right. exists ds, d'. split_and!; auto.
    rewrite <- Hds. apply list_fmap_ext. intros i c Hc. apply Hnc. intros Hcc. apply Hne.
    apply Exists_exists. exists c. split; [by eapply elem_of_list_lookup_2|done].
Qed.

Lemma AI_same (g g' : egraph) :
  Inv g -> (forall i, eg_find g' i = eg_find g i) -> eg_nodes g' = eg_nodes g ->
  (forall r, c_data <$> eg_classes g' !! r = c_data <$> eg_classes g !! r) ->
  (forall q, q ∈ uq_queue (eg_apending g) -> q ∈ uq_queue (eg_apending g')) -> AI g -> AI g'.
Proof.
  intros I Hf En Hd Hq HA.
  assert (Hdat : forall i, dat g' i = dat g i) by (intros i; unfold class_data; by rewrite Hf, Hd).
  apply (AI_step g g' (fun _ => False)); auto.
  - intros i. rewrite !Hf. by apply Inv_find_idem.
  - intros i d Hi. exists d. rewrite Hdat. split; [done|apply LA].
  - done.
Qed.

Lemma uq_extend_mem' (q : uqueue) n ts t : uq_ok q n -> t ∈ uq_queue (uq_extend q ts) <-> t ∈ uq_queue q \/ t ∈ ts.
Proof.
  intros Hq. apply uq_extend_mem. destruct Hq as (H1 & H2 & H3). unfold uq_ok. split_and!; auto.
  apply Forall_forall. intros x Hx. pose proof (max_list_elem_of_le x (t :: uq_queue q ++ ts)) as Hm.
  rewrite elem_of_cons, elem_of_app in Hm. specialize (Hm ltac:(auto)). lia.
Qed.

Lemma union_queue_mem (q : uqueue) n d1 d2 p1 p2 t : uq_ok q n -> Forall (fun t => t < n) p1 ->
  t ∈ uq_queue (union_queue q d1 d2 p1 p2) <-> t ∈ uq_queue q \/ (d1 = true /\ t ∈ p1) \/ (d2 = true /\ t ∈ p2).
Proof.
  intros Hq Hp. assert (Hq' : uq_ok (uq_extend q p1) n) by (by apply uq_extend_ok).
  unfold union_queue. destruct d1, d2; rewrite ?(uq_extend_mem' _ n), ?(uq_extend_mem' _ n) by done; naive_solver.
Qed.
Lemma AI_union l (g g' : egraph) : Inv g -> pview L A g g' l -> l = LUnion \/ l = LPend -> AI g -> AI g'.
Proof.
  intros I Hv Hl HA. destruct Hv as [l Hl' He En Ec Eb Ea Hcl
    |l id1 id2 k1 k2 d did1 did2 Hl' Hne Hf1 Hf2 E1 E2 Hf Hlen En Hm Ec Eb Ea Hcl|l r c d Hl'|l r c f Hl'|Hl']; try naive_solver.
  - apply (AI_same g); auto; [apply He|by rewrite Ec|by rewrite Ea].
  - pose proof (la_merge _ _ _ LA _ _ _ _ _ Hm) as (L1 & L2 & T1 & T2).
    assert (Hdat : forall i, dat g' i = if decide (eg_find g i = id1 \/ eg_find g i = id2) then Some d else dat g i).
    { intros i. unfold class_data. rewrite Hf, Ec. case_decide as Hd2.
      - rewrite lookup_insert. case_decide; [done|tauto].
      - case_decide as Hd1.
        + destruct Hd1 as [->|?]; [|done]. by rewrite lookup_insert.
        + rewrite lookup_insert_ne by (intros E; apply Hd1; auto). by rewrite lookup_delete_ne. }
    pose proof (iv_q _ I) as Hqk.
    assert (P1 : Forall (fun t => t < length (eg_nodes g)) (c_parents k1)).
    { apply Forall_forall. intros x Hx. exact (ci_par_lt _ _ _ _ _ _ _ (iv_c _ I) _ _ _ E1 Hx). }
    apply (AI_step g g' (fun c => (eg_find g c = id1 /\ did1 = true) \/ (eg_find g c = id2 /\ did2 = true))); auto.
    + eapply merged_coarser; [|exact Hf]. intros. by apply Inv_find_idem.
    + intros i d0 Hd0. rewrite Hdat. case_decide as Hd; [|exists d0; split; [done|apply LA]].
      exists d. split; [done|]. unfold class_data in Hd0. destruct Hd as [Hd|Hd]; rewrite Hd in Hd0;
        [rewrite E1 in Hd0|rewrite E2 in Hd0]; cbn in Hd0; by injection Hd0 as <-.
    + intros q m Hqm Hin. left. rewrite Ea, (union_queue_mem _ (length (eg_nodes g))); auto.
    + intros c cl q Hc Hcl' Hq. rewrite Ea, (union_queue_mem _ (length (eg_nodes g))) by auto.
      destruct Hc as [[Hc ->]|[Hc ->]]; rewrite Hc in Hcl'; [assert (cl = k1) as -> by congruence|
        assert (cl = k2) as -> by congruence]; auto.
    + intros c Hc. rewrite Hdat. case_decide as Hd; [|done]. unfold class_data. destruct Hd as [Hd|Hd]; rewrite Hd.
      * rewrite E1. cbn. f_equal. apply T1. destruct did1; [|done]. exfalso. apply Hc. auto.
      * rewrite E2. cbn. f_equal. apply T2. destruct did2; [|done]. exfalso. apply Hc. auto.
Qed.

Lemma dat_set_uf (g : egraph) u i : (forall j, uf_find u j = eg_find g j) -> dat (set_uf u g) i = dat g i.
Proof. intros Hu. unfold class_data, eg_find. cbn. by rewrite Hu. Qed.

Lemma AI_ana (g g' : egraph) id q o :
  Inv g -> uq_pop (eg_apending g) = Some (id, q) -> analysis_core A id (set_apending q g) = Ok (g', o) -> AI g -> AI g'.
Proof.
  intros I Eq E HA. unfold analysis_core in E.
  destruct (uq_pop_ok _ _ _ _ (iv_q _ I) Eq) as [Hq Hid].
  inv_res. cbn in H0. rename x into n, H0 into Hn.
  destruct (eg_find_mut_spec (set_apending q g) id) as (u & Eu & He); [apply I|by cbn; rewrite <- (iv_len _ I)|].
  rewrite Eu in E. inv_res. rename x into c, H0 into Hc. cbn in Hc.
  change (eg_find (set_apending q g) id) with (eg_find g id) in *.
  destruct (dats_Some g (nch n) I (node_ch_lt g id n I Hn)) as [ds Hds].
  assert (Hre : an_remake A (set_uf u (set_apending q g)) n (eg_find g id) = mk (nop n) ds).
  { apply (la_remake _ _ _ LA). rewrite <- Hds. apply list_fmap_ext. intros. apply (dat_set_uf (set_apending q g)). apply He. }
  rewrite Hre in E. destruct (an_merge A _ _) as [d [did1 did2]] eqn:Hm.
  pose proof (la_merge _ _ _ LA _ _ _ _ _ Hm) as (L1 & L2 & T1 & T2).
  assert (Hg : (forall i, eg_find g' i = eg_find g i) /\ eg_nodes g' = eg_nodes g /\
     eg_classes g' = <[eg_find g id := c_set_data d c]> (eg_classes g) /\
     eg_apending g' = if did1 then uq_extend q (c_parents c) else q).
  { destruct did1; inv_res; split_and!; try done; apply He. }
  clear E. destruct Hg as (Hf & En & Ec & Ea).
  assert (Hdat : forall i, dat g' i = if decide (eg_find g i = eg_find g id) then Some d else dat g i).
  { intros i. unfold class_data. rewrite Hf, Ec. case_decide as Hd.
    - by rewrite Hd, lookup_insert.
    - by rewrite lookup_insert_ne. }
  assert (Hqx : forall t, t ∈ uq_queue (eg_apending g) -> t = id \/ t ∈ uq_queue q).
  { intros t. unfold uq_pop in Eq. destruct (uq_queue (eg_apending g)); [done|]. injection Eq as -> <-. cbn.
    rewrite elem_of_cons. tauto. }
  apply (AI_step g g' (fun x => eg_find g x = eg_find g id /\ did1 = true)); auto.
  - intros i. rewrite !Hf. by apply Inv_find_idem.
  - intros i d0 Hd0. rewrite Hdat. case_decide as Hd; [|exists d0; split; [done|apply LA]].
    exists d. split; [done|]. unfold class_data in Hd0. rewrite Hd, Hc in Hd0. cbn in Hd0. by injection Hd0 as <-.
  - intros t m Hm' Hin. destruct (Hqx t Hin) as [->|Hin'].
    + right. assert (m = n) as -> by congruence. exists ds, d. split_and!; auto. rewrite Hdat. by rewrite decide_True.
    + left. rewrite Ea. destruct did1; [|done]. rewrite (uq_extend_mem' _ (length (eg_nodes g))); auto.
  - intros x cl p [Hx ->] Hcl Hp. rewrite Ea, (uq_extend_mem' _ (length (eg_nodes g))); auto.
    rewrite Hx in Hcl. assert (cl = c) as -> by congruence. auto.
  - intros x Hx. rewrite Hdat. case_decide as Hd; [|done]. unfold class_data. rewrite Hd, Hc. cbn. f_equal.
    apply T1. destruct did1; [|done]. exfalso. by apply Hx.
Qed.

Lemma AI_prim l g g' : plain l -> datk l -> prim L A l g g' -> Inv g -> AI g -> AI g'.
Proof.
  intros Hpl [HP1 HP2] Hp I HA. pose proof (prim_view L A l g g' Hpl Hp I) as Hv.
  destruct Hp as [n g g' id o E|g|n i g|a b r rule g g' o Hr E|c rest g g' o Ep E|id q g g' o Eq E
    |i d g g' r E|i d g g' E|i f g g' E|g Ep Eq]; try done.
  - eapply AI_union; eauto.
  - eapply AI_union; eauto.
  - eapply AI_ana; eauto.
  - unfold retain_nodes in E. destruct (valid_id g i) eqn:Hv'; cbn [negb] in E; [|done].
    apply valid_id_lt in Hv'. destruct (eg_find_mut_spec g i (iv_wf _ I) Hv') as (u & Eu & He).
    rewrite Eu in E. inv_res. apply (AI_same g); auto; [apply He|]. intros r. cbn in *.
    destruct (decide (r = eg_find g i)) as [->|Hne]; [rewrite lookup_insert, H0; done|by rewrite lookup_insert_ne].
  - destruct (rebuild_classes_spec L g) as (u & cls' & ops' & -> & He & Hcls & _).
    { apply I. }
    { intros. rewrite <- (iv_len _ I). by eapply class_children_lt. }
    apply (AI_same g); auto; [apply He|]. intros r. cbn. rewrite Hcls. by destruct (eg_classes g !! r).
Qed.

Lemma sim_more f f' ns l a b :
  (forall i, i < length ns -> f' i = f i) -> (forall k n, ns !! k = Some n -> Forall (fun c => c < length ns) (nch n)) ->
  sim f ns a b -> sim (Op := Op) f' (ns ++ l) a b.
Proof.
  intros Hf Hc (E & n & m & Ha & Hb & En). split.
  - rewrite !Hf by (by eapply lookup_lt_Some). done.
  - exists n, m. split_and!; [by apply lookup_app_l_Some..|].
    assert (Hx : forall k x, ns !! k = Some x -> canonf f' x = canonf f x).
    { intros k x Hk. unfold canonf. f_equal. apply list_fmap_ext. intros j c Hj. apply Hf.
      specialize (Hc _ _ Hk). rewrite Forall_forall in Hc. apply Hc. by eapply elem_of_list_lookup_2. }
    rewrite (Hx a), (Hx b); done.
Qed.

Lemma alias_find (g : egraph) e i : Inv g -> e < length (eg_nodes g) ->
  uf_find (<[length (eg_uf g) := eg_find g e]> (eg_uf g ++ [length (eg_uf g)])) i =
    if decide (eg_find g i = length (eg_uf g)) then eg_find g e else eg_find g i.
Proof.
  intros I He. pose proof (proj2 (ci_lt _ _ _ _ _ _ _ (iv_c _ I) e) He) as Hfe. rewrite (iv_len _ I) in *.
  rewrite union_find.
  - by rewrite make_set_find by apply I.
  - apply make_set_wf, I.
  - rewrite app_length. lia.
  - rewrite app_length. cbn. lia.
  - lia.
  - rewrite make_set_parent. apply uf_find_is_root, I.
  - rewrite make_set_parent. unfold uf_parent. by rewrite lookup_ge_None_2.
Qed.
Lemma AI_add n (g g' : egraph) id o : Inv g -> add_core A n g = Ok (g', id, o) -> AI g -> AI g'.
Proof.
  intros I E HA. pose proof (Inv_add _ _ _ _ _ _ I E) as I'. apply add_core_spec in E as [Hch Hs]; [|apply I].
  destruct Hs as [e id He Hid|e x x1 x2 u He Hx Hxn Hxa Hxu Hu|u cls' ex' Hm Hw Hl Hf Hcls Hex].
  - done.
  - rewrite <- (iv_len _ I) in *. set (g' := set_explain _ _) in *.
    destruct (ci_memo _ _ _ _ _ _ _ (iv_c _ I) _ _ He) as (m & Hm & Em).
    pose proof (lookup_lt_Some _ _ _ Hm) as Hel.
    rewrite canon_canonf, canonf_canonf in Em by apply (iv_c _ I).
    assert (Hfo : forall i, i < length (eg_nodes g) -> eg_find g' i = eg_find g i).
    { intros i Hi. unfold eg_find at 1. cbn. subst u. rewrite (iv_len _ I), alias_find by done.
      rewrite decide_False; [done|].
      pose proof (proj2 (ci_lt _ _ _ _ _ _ _ (iv_c _ I) i) Hi). rewrite <- (iv_len _ I). lia. }
    assert (Hfn : eg_find g' (length (eg_nodes g)) = eg_find g e).
    { unfold eg_find at 1. cbn. subst u. rewrite (iv_len _ I), alias_find by done.
      rewrite decide_True; [done|]. by apply uf_find_oob. }
    assert (Hdo : forall i, i < length (eg_nodes g) -> dat g' i = dat g i) by (intros i Hi; unfold class_data; by rewrite Hfo).
    assert (Hold : forall k n0, eg_nodes g !! k = Some n0 -> cov g' k).
    { intros k n0 Hk. destruct (HA k n0 Hk) as (q & mq & Hq & Hsq & Hcov). exists q, mq.
      change (eg_nodes g') with (eg_nodes g ++ [n]). split_and!.
      - by apply lookup_app_l_Some.
      - eapply sim_more; [done| |done]. intros. by eapply node_ch_lt.
      - destruct Hcov as [Hin|(ds & d & Hds & Hd & Hle)]; [by left|right]. exists ds, d. split_and!; auto.
        + rewrite <- Hds. apply list_fmap_ext. intros j c Hj. apply Hdo.
          pose proof (node_ch_lt g q mq I Hq) as Hcl. rewrite Forall_forall in Hcl. apply Hcl. by eapply elem_of_list_lookup_2.
        + rewrite Hdo; [done|]. by eapply lookup_lt_Some. }
    intros k n0 Hk. change (eg_nodes g') with (eg_nodes g ++ [n]) in Hk.
    apply lookup_app_Some in Hk as [Hk|[Hge Hk]]; [by eapply Hold|].
    assert (k = length (eg_nodes g)) as -> by (apply list_lookup_singleton_Some in Hk as [? _]; lia).
    destruct (Hold e m Hm) as (q & mq & Hq & Hsq & Hcov). exists q, mq. split_and!; auto.
    eapply sim_trans; [exact Hsq|]. split.
    + rewrite Hfn. by apply Hfo.
    + exists m, n. change (eg_nodes g') with (eg_nodes g ++ [n]). split_and!; [by apply lookup_app_l_Some|by apply list_lookup_middle|].
      assert (Hc1 : canonf (eg_find g') m = canonf (eg_find g) m).
      { unfold canonf. f_equal. apply list_fmap_ext. intros j c Hj. apply Hfo.
        pose proof (node_ch_lt g e m I Hm) as Hcl. rewrite Forall_forall in Hcl. apply Hcl. by eapply elem_of_list_lookup_2. }
      assert (Hc2 : canonf (eg_find g') n = canonf (eg_find g) n).
      { unfold canonf. f_equal. apply list_fmap_ext. intros j c Hj. apply Hfo.
        rewrite Forall_forall in Hch. apply Hch. by eapply elem_of_list_lookup_2. }
      by rewrite Hc1, Hc2.
  - set (g' := set_explain _ _) in *. rewrite <- (iv_len _ I) in *.
    assert (Hf' : forall i, eg_find g' i = eg_find g i) by (intros; apply Hf).
    assert (Hdo : forall i, i < length (eg_nodes g) -> dat g' i = dat g i).
    { intros i Hi. unfold class_data. rewrite Hf'. cbn [g' eg_classes set_explain set_memo set_classes]. rewrite Hcls.
      rewrite decide_False. { by destruct (eg_classes g !! _). }
      pose proof (proj2 (ci_lt _ _ _ _ _ _ _ (iv_c _ I) i) Hi). lia. }
    intros k n0 Hk. change (eg_nodes g') with (eg_nodes g ++ [n]) in Hk.
    apply lookup_app_Some in Hk as [Hk|[Hge Hk]].
    + destruct (HA k n0 Hk) as (q & mq & Hq & Hsq & Hcov). exists q, mq.
      change (eg_nodes g') with (eg_nodes g ++ [n]). split_and!.
      * by apply lookup_app_l_Some.
      * apply (sim_more (eg_find g)); [auto| |done]. intros. by eapply node_ch_lt.
      * destruct Hcov as [Hin|(ds & d & Hds & Hd & Hle)]; [by left|right]. exists ds, d. split_and!; auto.
        -- rewrite <- Hds. apply list_fmap_ext. intros j c Hj. apply Hdo.
          pose proof (node_ch_lt g q mq I Hq) as Hcl. rewrite Forall_forall in Hcl. apply Hcl. by eapply elem_of_list_lookup_2.
        -- rewrite Hdo; [done|]. by eapply lookup_lt_Some.
    + assert (k = length (eg_nodes g) /\ n0 = n) as [-> ->].
      { apply list_lookup_singleton_Some in Hk as [? <-]. split; [lia|done]. }
      exists (length (eg_nodes g)), n. change (eg_nodes g') with (eg_nodes g ++ [n]).
      assert (Hln : (eg_nodes g ++ [n]) !! length (eg_nodes g) = Some n) by (by apply list_lookup_middle).
      split_and!; [done|by eapply sim_refl|]. right.
      destruct (dats_Some g (nch n) I Hch) as [ds Hds].
      exists ds, (mk (nop n) ds). split_and!; [| |apply LA].
      * rewrite <- Hds. apply list_fmap_ext. intros j c Hj. apply Hdo.
        rewrite Forall_forall in Hch. apply Hch. by eapply elem_of_list_lookup_2.
      * unfold class_data. rewrite Hf'. cbn [g' eg_classes set_explain set_memo set_classes]. rewrite Hcls.
        assert (eg_find g (length (eg_nodes g)) = length (eg_nodes g)) as ->.
        { apply uf_find_oob. by rewrite (iv_len _ I). }
        rewrite decide_True by done. cbn. f_equal. apply (la_make _ _ _ LA). rewrite <- Hds.
        apply list_fmap_ext. intros. apply dat_set_uf. intros. rewrite (iv_len _ I). apply make_set_find, I.
Qed.

Lemma AI_brun g g' : brun L A datk g g' -> Inv g -> AI g -> AI g'.
Proof.
  induction 1 as [g|l g g1 Hpl HP Hp|g g1 g2 R1 IH1 R2 IH2|n g g1 id HP E|n g g1 id h g2 HP E R IH]; intros I X.
  - done.
  - by eapply AI_prim.
  - apply IH2; [by eapply brun_Inv|]. by apply IH1.
  - by eapply (AI_add _ _ _ _ _ I E).
  - apply IH; [by eapply Inv_add|]. by eapply AI_add.
Qed.

(** ** Nothing is queued in a clean e-graph *)
Definition clean_q (g : egraph) : Prop := eg_clean g = true -> uq_queue (eg_apending g) = [].
Lemma clean_q_brun g g' : brun L A datk g g' -> Inv g -> clean_q g -> clean_q g'.
Proof.
  induction 1 as [g|l g g1 Hpl HP Hp|g g1 g2 R1 IH1 R2 IH2|n g g1 id HP E|n g g1 id h g2 HP E R IH]; intros I Hc.
  - done.
  - pose proof (prim_view L A l g g1 Hpl Hp I) as Hv.
    destruct Hp as [n g g' id o E|g|n i g|a b r rule g g' o Hr E|c rest g g' o Ep E|id q g g' o Eq E
      |i d g g' r E|i d g g' E|i f g g' E|g Ep Eq]; try done; try (by destruct HP).
    + inversion Hv; subst; try naive_solver; unfold clean_q in *; naive_solver congruence.
    + inversion Hv; subst; try naive_solver; unfold clean_q in *; naive_solver congruence.
    + unfold clean_q in *. intros Hcl. exfalso.
      assert (eg_clean g = true) as Hg.
      { unfold analysis_core, eg_find_mut in E. inv_res. cbn in *. destruct (uf_find_mut _ _). inv_res.
        destruct (an_merge A _ _) as [? [[] ?]]; inv_res; done. }
      apply Hc in Hg. unfold uq_pop in Eq. by rewrite Hg in Eq.
    + unfold retain_nodes, eg_find_mut in E. destruct (negb _); [done|]. destruct (uf_find_mut _ _). inv_res. done.
    + unfold rebuild_classes. destruct (foldl _ _ _) as [[? ?] ?]. intros _. exact Eq.
  - apply IH2; [by eapply brun_Inv|]. by apply IH1.
  - apply add_core_spec in E as [_ Hs]; [|apply I]. unfold clean_q in *. cbn.
    inversion Hs; subst; done.
  - done.
Qed.

Lemma ana_upper ex g n i :
  reachable_kd L A ex g -> eg_clean g = true -> EAdd n i ∈ eg_log g ->
  exists ds d, class_data g <$> nch n = Some <$> ds /\ class_data g i = Some d /\ le (mk (nop n) ds) d.
Proof.
  intros R Ec Hin. pose proof (reachable_kd_reachable _ _ R) as R'.
  destruct (reachable_hist _ _ _ _ R') as [_ Hl]. destruct (Hl n i Hin) as (m & Hm & Em).
  pose proof (reachable_Inv _ _ _ _ R') as I. apply reachable_kd_brun in R.
  assert (HA : AI g).
  { eapply AI_brun; [exact R|apply Inv_new|]. intros k x Hk. done. }
  assert (Hq : uq_queue (eg_apending g) = []).
  { eapply clean_q_brun; [exact R|apply Inv_new| |done]. done. }
  destruct (HA i m Hm) as (q & mq & Hqm & Hs & Hcov). rewrite Hq in Hcov.
  destruct Hcov as [Hn%elem_of_nil|Hh]; [done|].
  destruct (held_sim g q mq i m Hqm Hm Hs Hh) as (ds & d & Hds & Hd & Hle).
  exists ds, d. split_and!; auto.
  - by rewrite (dats_canon g n m Em).
  - apply canonf_eq_inv in Em as (-> & _). done.
Qed.
Lemma ana_upper_listed ex g r c n :
  reachable_kd L A ex g -> eg_clean g = true -> eg_classes g !! r = Some c -> n ∈ c_nodes c ->
  exists ds, class_data g <$> nch n = Some <$> ds /\ le (mk (nop n) ds) (c_data c).
Proof.
  intros R Ec Hr Hn. pose proof (reachable_kd_reachable _ _ R) as R'.
  destruct (reach_contents_sound _ _ _ _ _ _ _ R' Hr Hn) as (cs & i & Hin & Hsc & Hi).
  destruct (ana_upper ex g _ i R Ec Hin) as (ds & d & Hds & Hd & Hle). cbn in Hds, Hle.
  exists ds. unfold class_data in Hd. rewrite Hi, Hr in Hd. injection Hd as ->. split; [|done].
  rewrite <- Hds. unfold same_children in Hsc. unfold class_data. clear -Hsc. induction Hsc as [|a b l l' Hab _ IH]; cbn; [done|].
  by rewrite Hab, IH.
Qed.

(** ** Least *)
Hypothesis MA : monotone_analysis A le mk.
Definition below (g : egraph) (v : nat -> D) : Prop := forall i d, i < length (eg_nodes g) -> dat g i = Some d -> le d (v i).
Definition closed (g : egraph) (v : nat -> D) : Prop :=
  (forall i j, eg_find g i = eg_find g j -> v i = v j) /\
  (forall k n, eg_nodes g !! k = Some n -> le (mk (nop n) (v <$> nch n)) (v k)).
Lemma closed_grows g g' v : grows g g' -> closed g' v -> closed g v.
Proof.
  intros [G1 [l G2] _] [C1 C2]. split.
  - intros i j Hij. apply C1. by eapply coarser_eq.
  - intros k n Hk. apply C2. rewrite G2. by apply lookup_app_l_Some.
Qed.
Lemma below_same (g g' : egraph) v :
  (forall i, eg_find g' i = eg_find g i) -> length (eg_nodes g') = length (eg_nodes g) ->
  (forall r, c_data <$> eg_classes g' !! r = c_data <$> eg_classes g !! r) -> below g v -> below g' v.
Proof. intros Hf En Hd Hb i d Hi Hdi. rewrite En in Hi. apply Hb; [done|]. unfold class_data in *. by rewrite Hf, Hd in Hdi. Qed.

Lemma mk_below (g : egraph) v n ds :
  below g v -> Forall (fun c => c < length (eg_nodes g)) (nch n) -> dat g <$> nch n = Some <$> ds ->
  le (mk (nop n) ds) (mk (nop n) (v <$> nch n)).
Proof.
  intros Hb Hc Hds. apply (ma_mono _ _ _ MA). revert ds Hds. induction Hc as [|c cs Hc _ IH]; intros [|d ds] Hds; cbn in *; try done.
  injection Hds as Hd Hds. constructor; [by apply Hb|]. by apply IH.
Qed.

Lemma below_prim l g g' v : plain l -> datk l -> prim L A l g g' -> Inv g -> closed g' v -> below g v -> below g' v.
Proof.
  intros Hpl [HP1 HP2] Hp I Hcl Hb. pose proof (prim_view L A l g g' Hpl Hp I) as Hv.
  assert (Hun : (l = LUnion \/ l = LPend) -> below g' v).
  { intros Hl. clear Hp. destruct Hv as [l Hl' He En Ec Eb Ea Hcl'
      |l id1 id2 k1 k2 d did1 did2 Hl' Hne Hf1 Hf2 E1 E2 Hf Hlen En Hm Ec Eb Ea Hcl'|l r c d Hl'|l r c f Hl'|Hl']; try naive_solver.
    - eapply below_same; [apply He|by rewrite En|by rewrite Ec|done].
    - intros i di Hi Hdi. rewrite En in Hi. unfold class_data in Hdi. rewrite Hf, Ec in Hdi.
      assert (Hk : forall k kk, eg_find g k = k -> eg_classes g !! k = Some kk -> k < length (eg_nodes g) /\ le (c_data kk) (v k)).
      { intros k kk Hfk Hkk. assert (k < length (eg_nodes g)) by (apply (ci_cls _ _ _ _ _ _ _ (iv_c _ I)); eauto).
        split; [done|]. apply Hb; [done|]. unfold class_data. by rewrite Hfk, Hkk. }
      assert (Hv12 : v id1 = v id2).
      { apply Hcl. rewrite !Hf, Hf1, Hf2. rewrite decide_False by done. by rewrite decide_True. }
      assert (Hld : le d (v id1)).
      { eapply (ma_lub _ _ _ MA); [exact Hm|by apply Hk|]. rewrite Hv12. by apply Hk. }
      case_decide as Hd2.
      + rewrite lookup_insert in Hdi. injection Hdi as <-. replace (v i) with (v id1); [done|].
        apply Hcl. rewrite !Hf, Hf1. rewrite decide_False by done. by rewrite decide_True.
      + destruct (decide (eg_find g i = id1)) as [Hd1|Hd1].
        * rewrite Hd1, lookup_insert in Hdi. injection Hdi as <-. replace (v i) with (v id1); [done|].
          apply Hcl. rewrite !Hf, Hf1, Hd1. done.
        * rewrite lookup_insert_ne, lookup_delete_ne in Hdi by congruence. by apply Hb. }
  destruct Hp as [n g g' id o E|g|n i g|a b r rule g g' o Hr E|c rest g g' o Ep E|id q g g' o Eq E
    |i d g g' r E|i d g g' E|i f g g' E|g Ep Eq]; try done; auto.
  - unfold analysis_core in E.
    destruct (uq_pop_ok _ _ _ _ (iv_q _ I) Eq) as [Hq Hid].
    inv_res. cbn in H0. rename x into n, H0 into Hn.
    destruct (eg_find_mut_spec (set_apending q g) id) as (u & Eu & He); [apply I|by cbn; rewrite <- (iv_len _ I)|].
    rewrite Eu in E. inv_res. rename x into c, H0 into Hc. cbn in Hc.
    change (eg_find (set_apending q g) id) with (eg_find g id) in *.
    destruct (dats_Some g (nch n) I (node_ch_lt g id n I Hn)) as [ds Hds].
    assert (Hre : an_remake A (set_uf u (set_apending q g)) n (eg_find g id) = mk (nop n) ds).
    { apply (la_remake _ _ _ LA). rewrite <- Hds. apply list_fmap_ext. intros. apply (dat_set_uf (set_apending q g)). apply He. }
    rewrite Hre in E. destruct (an_merge A _ _) as [d [did1 did2]] eqn:Hm.
    assert (Hg : (forall i, eg_find g' i = eg_find g i) /\ eg_nodes g' = eg_nodes g /\
       eg_classes g' = <[eg_find g id := c_set_data d c]> (eg_classes g)).
    { destruct did1; inv_res; split_and!; try done; apply He. }
    clear E. destruct Hg as (Hf & En & Ec).
    intros i di Hi Hdi. rewrite En in Hi. unfold class_data in Hdi. rewrite Hf, Ec in Hdi.
    destruct (decide (eg_find g i = eg_find g id)) as [Hd|Hd].
    + rewrite Hd, lookup_insert in Hdi. injection Hdi as <-. cbn.
      assert (v i = v id) as -> by (apply Hcl; by rewrite !Hf).
      eapply (ma_lub _ _ _ MA); [exact Hm| |].
      * apply Hb; [done|]. unfold class_data. by rewrite Hc.
      * eapply (la_trans _ _ _ LA); [eapply mk_below; [done|by eapply node_ch_lt|done]|].
        apply Hcl. by rewrite En.
    + rewrite lookup_insert_ne in Hdi by done. by apply Hb.
  - unfold retain_nodes in E. destruct (valid_id g i) eqn:Hv'; cbn [negb] in E; [|done].
    apply valid_id_lt in Hv'. destruct (eg_find_mut_spec g i (iv_wf _ I) Hv') as (u & Eu & He).
    rewrite Eu in E. inv_res. eapply below_same; [..|exact Hb]; auto; [apply He|]. intros r. cbn in *.
    destruct (decide (r = eg_find g i)) as [->|Hne]; [rewrite lookup_insert, H0; done|by rewrite lookup_insert_ne].
  - destruct (rebuild_classes_spec L g) as (u & cls' & ops' & -> & He & Hcls & _).
    { apply I. }
    { intros. rewrite <- (iv_len _ I). by eapply class_children_lt. }
    eapply below_same; [..|exact Hb]; auto; [apply He|]. intros r. cbn. rewrite Hcls. by destruct (eg_classes g !! r).
Qed.

Lemma below_add n (g g' : egraph) id o v : Inv g -> add_core A n g = Ok (g', id, o) -> closed g' v -> below g v -> below g' v.
Proof.
  intros I E Hcl Hb. apply add_core_spec in E as [Hch Hs]; [|apply I].
  destruct Hs as [e id He Hid|e x x1 x2 u He Hx Hxn Hxa Hxu Hu|u cls' ex' Hm Hw Hl Hf Hcls Hex].
  - done.
  - set (g' := set_explain _ _) in *.
    destruct (ci_memo _ _ _ _ _ _ _ (iv_c _ I) _ _ He) as (m & Hm & Em).
    pose proof (lookup_lt_Some _ _ _ Hm) as Hel.
    assert (Hfg : forall i, eg_find g' i = if decide (eg_find g i = length (eg_uf g)) then eg_find g e else eg_find g i).
    { intros i. unfold eg_find at 1. cbn. subst u. by apply alias_find. }
    intros i d Hi Hd. change (eg_nodes g') with (eg_nodes g ++ [n]) in Hi. rewrite app_length in Hi. cbn in Hi.
    unfold class_data in Hd. change (eg_classes g') with (eg_classes g) in Hd. rewrite Hfg in Hd.
    case_decide as Hd1.
    + replace (v i) with (v e). { by apply Hb. }
      apply Hcl. rewrite !Hfg. rewrite decide_False. { by rewrite decide_True. }
      pose proof (proj2 (ci_lt _ _ _ _ _ _ _ (iv_c _ I) e) Hel). rewrite <- (iv_len _ I). lia.
    + apply Hb; [|done]. destruct (decide (i = length (eg_nodes g))) as [->|]; [|lia]. exfalso. apply Hd1.
      rewrite (iv_len _ I). by apply uf_find_oob.
  - set (g' := set_explain _ _) in *. rewrite <- (iv_len _ I) in *.
    intros i d Hi Hd. change (eg_nodes g') with (eg_nodes g ++ [n]) in Hi. rewrite app_length in Hi. cbn in Hi.
    unfold class_data in Hd. assert (Hf' : forall i, eg_find g' i = eg_find g i) by (intros; apply Hf). rewrite Hf' in Hd.
    cbn [g' eg_classes set_explain set_memo set_classes] in Hd. rewrite Hcls in Hd.
    assert (Hfi : eg_find g (length (eg_nodes g)) = length (eg_nodes g)).
    { apply uf_find_oob. by rewrite (iv_len _ I). }
    case_decide as Hdd.
    + cbn in Hd. injection Hd as <-.
      assert (i = length (eg_nodes g)) as ->.
      { destruct (decide (i < length (eg_nodes g))) as [Hlt|]; [|lia].
        pose proof (proj2 (ci_lt _ _ _ _ _ _ _ (iv_c _ I) i) Hlt). lia. }
      destruct (dats_Some g (nch n) I Hch) as [ds Hds].
      assert (an_make A (set_uf (eg_uf g ++ [length (eg_nodes g)]) g) n (length (eg_nodes g)) = mk (nop n) ds) as ->.
      { apply (la_make _ _ _ LA). rewrite <- Hds.
        apply list_fmap_ext. intros. apply dat_set_uf. intros. rewrite (iv_len _ I). apply make_set_find, I. }
      eapply (la_trans _ _ _ LA); [by eapply mk_below|]. apply Hcl. by apply list_lookup_middle.
    + apply Hb.
      * destruct (decide (i = length (eg_nodes g))) as [->|]; [done|lia].
      * unfold class_data. by destruct (eg_classes g !! eg_find g i).
Qed.

Lemma below_brun g g' v : brun L A datk g g' -> Inv g -> closed g' v -> below g v -> below g' v.
Proof.
  intros R. revert v.
  induction R as [g|l g g1 Hpl HP Hp|g g1 g2 R1 IH1 R2 IH2|n g g1 id HP E|n g g1 id h g2 HP E R IH]; intros v I C B.
  - done.
  - by eapply below_prim.
  - pose proof (brun_Inv _ _ _ _ _ R1 I) as I1. apply IH2; auto. apply IH1; auto.
    eapply closed_grows; [|exact C]. by eapply grows_brun.
  - eapply (below_same g1); auto. eapply below_add; eauto.
  - pose proof (Inv_add _ _ _ _ _ _ I E) as I1. eapply (below_same g2); auto. apply IH; auto.
    eapply below_add; [exact I|exact E| |done]. eapply closed_grows; [|exact C].
    eapply grows_trans; [by eapply grows_brun|]. split; cbn.
    + intros i. pose proof (brun_Inv _ _ _ _ _ R I1) as I2. exact (Inv_find_idem g2 i I2).
    + exists []. by rewrite app_nil_r.
    + by exists [EAdd n id].
    + done.
Qed.

Lemma ana_least ex g v i d :
  reachable_kd L A ex g ->
  (forall a b, eg_find g a = eg_find g b -> v a = v b) ->
  (forall n k, EAdd n k ∈ eg_log g -> le (mk (nop n) (v <$> nch n)) (v k)) ->
  known g i -> class_data g i = Some d -> le d (v i).
Proof.
  intros R Hv Hc Hi Hd. pose proof (reachable_kd_reachable _ _ R) as R'. pose proof (reachable_Inv _ _ _ _ R') as I.
  destruct (reachable_hist _ _ _ _ R') as [Hh _]. apply reachable_kd_brun in R.
  eapply (below_brun _ _ v R); [apply Inv_new| | | |exact Hd].
  - split; [done|]. intros k n Hk. by apply Hc, Hh.
  - intros j dj Hj. cbn in Hj. lia.
  - unfold known in Hi. by rewrite (iv_len _ I).
Qed.

Lemma ana_order_independent ex1 ex2 g1 g2 i d1 d2 :
  (forall a b, le a b -> le b a -> a = b) ->
  reachable_kd L A ex1 g1 -> reachable_kd L A ex2 g2 -> eg_clean g1 = true -> eg_clean g2 = true ->
  (forall e, e ∈ eg_log g1 <-> e ∈ eg_log g2) -> known g1 i ->
  class_data g1 i = Some d1 -> class_data g2 i = Some d2 -> d1 = d2.
Proof.
  intros Has. assert (Hone : forall ex1 ex2 g1 g2 d1 d2, reachable_kd L A ex1 g1 -> reachable_kd L A ex2 g2 -> eg_clean g1 = true ->
    eg_clean g2 = true -> (forall e, e ∈ eg_log g1 <-> e ∈ eg_log g2) -> known g1 i ->
    class_data g1 i = Some d1 -> class_data g2 i = Some d2 -> le d1 d2).
  { clear -LA MA. intros ex1 ex2 g1 g2 d1 d2 R1 R2 C1 C2 Hl Ki H1 H2.
    pose proof (reachable_kd_reachable _ _ R1) as R1'. pose proof (reachable_kd_reachable _ _ R2) as R2'.
    pose proof (reachable_Inv _ _ _ _ R1') as I1. pose proof (reachable_Inv _ _ _ _ R2') as I2.
    assert (Hcm : forall h h' : list (event Op), (forall e, e ∈ h <-> e ∈ h') -> forall a b, Cong h a b -> Cong h' a b).
    { intros h h' Hh a b Hc. induction Hc as [| | |a b r Hr|f cs ds a b Ha Hb Hlen _ IH].
      - constructor. - by apply Cong_sym. - by eapply Cong_trans.
      - eapply Cong_union. by apply Hh.
      - eapply Cong_cong; [by apply Hh|by apply Hh|done|]. auto. }
    assert (Hk2 : forall j, known g1 j -> known g2 j).
    { intros j Hj. unfold known in *. rewrite <- (iv_len _ I1) in Hj. destruct (lookup_lt_is_Some_2 _ _ Hj) as [m Hm].
      destruct (reachable_hist _ _ _ _ R1') as [Hh _]. apply Hh, Hl in Hm.
      destruct (reachable_hist _ _ _ _ R2') as [_ Hh2]. apply Hh2 in Hm as (m' & Hm' & _).
      rewrite <- (iv_len _ I2). by eapply lookup_lt_Some. }
    assert (Kd : forall j, Decision (known g1 j)) by (intros; unfold known; apply _).
    set (v := fun j => default d2 (class_data g2 (if decide (known g1 j) then j else i))).
    assert (Hvv : forall j, known g1 j -> class_data g2 j = Some (v j)).
    { intros j Hj. unfold v. rewrite decide_True by done. destruct (dat_Some g2 j I2) as [dj Hdj].
      { rewrite (iv_len _ I2). by apply Hk2. } by rewrite Hdj. }
    assert (Hvi : v i = d2) by (pose proof (Hvv i Ki); congruence).
    rewrite <- Hvi.
    eapply (ana_least ex1 g1 v i d1 R1); [| |done|done].
    - intros a b Hab. destruct (decide (known g1 a)) as [Ka|Ka].
      + assert (Kb : known g1 b).
        { unfold known in *. rewrite <- (iv_len _ I1) in *. apply (ci_lt _ _ _ _ _ _ _ (iv_c _ I1)). rewrite <- Hab.
          by apply (ci_lt _ _ _ _ _ _ _ (iv_c _ I1)). }
        pose proof (reach_sound _ _ _ _ _ _ R1' Ka Kb Hab) as Hc. apply (Hcm _ _ Hl) in Hc.
        apply (reach_complete _ _ _ _ _ _ R2' C2) in Hc. pose proof (Hvv a Ka). pose proof (Hvv b Kb).
        unfold class_data in *. rewrite Hc in *. congruence.
      + assert (Kb : ~ known g1 b).
        { intros Kb. apply Ka. unfold known in *. rewrite <- (iv_len _ I1) in *. apply (ci_lt _ _ _ _ _ _ _ (iv_c _ I1)). rewrite Hab.
          by apply (ci_lt _ _ _ _ _ _ _ (iv_c _ I1)). }
        unfold v. by rewrite !decide_False.
    - intros n k Hk. pose proof Hk as Hk0. apply Hl in Hk. destruct (ana_upper ex2 g2 n k R2 C2 Hk) as (ds & d & Hds & Hd & Hle).
      destruct (reachable_hist _ _ _ _ R1') as [Hh Hh2]. destruct (Hh2 _ _ Hk0) as (m & Hm & Em).
      assert (Hkk : known g1 k). { unfold known. rewrite <- (iv_len _ I1). by eapply lookup_lt_Some. }
      assert (Hck : forall c, c ∈ nch n -> known g1 c).
      { intros c Hc. apply elem_of_list_lookup in Hc as [q Hq]. apply canonf_eq_inv in Em as (_ & Elen & Em).
        destruct (lookup_lt_is_Some_2 (nch m) q) as [c' Hc']; [rewrite <- Elen; by eapply lookup_lt_Some|].
        pose proof (Em _ _ _ Hq Hc') as Ec. unfold known. rewrite <- (iv_len _ I1).
        apply (ci_lt _ _ _ _ _ _ _ (iv_c _ I1)). rewrite Ec. apply (ci_lt _ _ _ _ _ _ _ (iv_c _ I1)).
        pose proof (node_ch_lt g1 k m I1 Hm) as Hf. rewrite Forall_forall in Hf. apply Hf. by eapply elem_of_list_lookup_2. }
      assert (v <$> nch n = ds) as ->.
      { apply Some_fmap_inj. rewrite <- Hds, <- list_fmap_compose. apply list_fmap_ext. intros q c Hq. cbn.
        symmetry. apply Hvv, Hck. by eapply elem_of_list_lookup_2. }
      pose proof (Hvv k Hkk). assert (v k = d) as -> by congruence. done. }
  intros R1 R2 C1 C2 Hl Ki H1 H2. apply Has; [by eapply (Hone ex1 ex2)|].
  assert (Hk2 : known g2 i).
  { pose proof (reachable_kd_reachable _ _ R1) as R1'. pose proof (reachable_kd_reachable _ _ R2) as R2'.
    pose proof (reachable_Inv _ _ _ _ R1') as I1. pose proof (reachable_Inv _ _ _ _ R2') as I2.
    unfold known in *. rewrite <- (iv_len _ I1) in Ki. destruct (lookup_lt_is_Some_2 _ _ Ki) as [m Hm].
    destruct (reachable_hist _ _ _ _ R1') as [Hh _]. apply Hh, Hl in Hm.
    destruct (reachable_hist _ _ _ _ R2') as [_ Hh2]. apply Hh2 in Hm as (m' & Hm' & _).
    rewrite <- (iv_len _ I2). by eapply lookup_lt_Some. }
  eapply (Hone ex2 ex1); eauto. intros e. by rewrite Hl.
Qed.
End ana.
