(** Effects of single API calls on reachable e-graphs. *)
From Verif Require Import Base UnionFind EGraphModel EGraphSteps EGraphInv EGraphPres EGraphRuns Spec EGraphMain EGraphReach.

Section ops.
Context {Op D : Type} `{Countable Op}.
Notation node := (node Op).
Notation egraph := (egraph Op D).
Notation eclass := (eclass Op D).
Context (L : lang Op) (A : analysis Op D).

Definition merged (g : egraph) (a b i j : nat) : Prop :=
  eg_find g i = eg_find g j \/
  (eg_find g i = eg_find g a /\ eg_find g j = eg_find g b) \/
  (eg_find g i = eg_find g b /\ eg_find g j = eg_find g a).

Lemma union_core_effect a b rule (g g' : egraph) o :
  uf_wf (eg_uf g) -> (forall i, eg_find g (eg_find g i) = eg_find g i) ->
  perform_union_core A a b rule g = Ok (g', o) ->
  (forall i j, eg_find g' i = eg_find g' j <-> merged g a b i j) /\
  (is_Some o <-> eg_find g a <> eg_find g b).
Proof.
  intros Hwf Hid E. apply perform_union_core_spec in E as (Ha & Hb & Hs); [|done]. unfold merged.
  destruct Hs as [u ex' Hsame He Hex|id1 id2 k1 k2 d did1 did2 u ex' Hids Hne E1 E2 Hlen Htie Hcid Hm Hw Hl Hf Hex].
  - split.
    + intros i j. change (eg_find (set_explain ex' (set_clean false (set_uf u g)))) with (uf_find u).
      destruct He as (_ & _ & He). rewrite !He. fold (eg_find g i) (eg_find g j). rewrite Hsame.
      split; [tauto|]. intros [?|[[? ?]|[? ?]]]; congruence.
    + split; [intros [? ?]; done|done].
  - split.
    + intros i j. unfold eg_find at 1 2. cbn [eg_uf]. rewrite !Hf.
      destruct Hids as [[-> ->]|[-> ->]]; repeat case_decide; naive_solver congruence.
    + split; [|intros _; by eexists]. intros _. destruct Hids as [[-> ->]|[-> ->]]; congruence.
Qed.

Lemma hook_free_md fuel id g g' : hook_free A -> modify_n L A fuel id g = Ok g' -> g' = g.
Proof. intros Hh. destruct fuel; cbn [modify_n]; [done|]. rewrite Hh. cbn. intros E. by inv_res. Qed.
Lemma hook_free_run_hook fuel o g g' : hook_free A -> run_hook (modify_n L A fuel) o g = Ok g' -> g' = g.
Proof. intros Hh. destruct o; cbn; [by apply hook_free_md|]. intros E. by inv_res. Qed.

Lemma hook_brun fuel o g g' : run_hook (modify_n L A fuel) o g = Ok g' -> brun L A any g g'.
Proof.
  intros E. eapply run_hook_runs; [|exact E]. apply modify_n_runs. intros. apply prog_in_any.
Qed.

Lemma api_union_inv md a b r (g g' : egraph) v :
  api_union A md a b r g = Ok (g', v) ->
  exists rule g1 o, ((rule = None /\ eg_explain g = None) \/ rule = Some (JRule r)) /\
    perform_union_core A a b rule (add_log (EUnion a b r) g) = Ok (g1, o) /\
    run_hook md o g1 = Ok g' /\ v = bool_decide (is_Some o).
Proof.
  unfold api_union, union, union_trusted. cbn [eg_explain add_log].
  intros E. destruct (eg_explain g) as [y|] eqn:Ex; unfold perform_union in E; inv_res; destruct x as [g1 o]; inv_res; eauto 10.
Qed.

Lemma api_union_effect ex g a b r g' v fuel :
  reachable L A ex g -> api_union A (modify_n L A fuel) a b r g = Ok (g', v) ->
  eg_find g' a = eg_find g' b /\ (v = true <-> eg_find g a <> eg_find g b) /\
  (hook_free A -> forall i j, eg_find g' i = eg_find g' j <-> merged g a b i j).
Proof.
  intros R E. pose proof (reachable_Inv _ _ _ _ R) as I.
  apply api_union_inv in E as (rule & g1 & o & Hrule & E1 & E2 & ->).
  pose proof (Inv_union _ _ _ _ _ _ _ _ I E1) as I1.
  apply union_core_effect in E1 as [H1 H2]; [|apply I|intros; exact (Inv_find_idem g i I)].
  change (merged (add_log (EUnion a b r) g)) with (merged g) in H1.
  change (eg_find (add_log (EUnion a b r) g)) with (eg_find g) in H2.
  split_and!.
  - eapply coarser_eq; [apply (grows_brun _ _ _ _ _ (hook_brun _ _ _ _ E2) I1)|].
    apply H1. right. left. done.
  - by rewrite bool_decide_eq_true.
  - intros Hh. apply hook_free_run_hook in E2 as ->; done.
Qed.

Lemma canonf_congr (f f' : nat -> nat) (n : node) : (forall c, c ∈ nch n -> f c = f' c) -> canonf f n = canonf f' n.
Proof.
  intros Hc. unfold canonf. f_equal. apply list_eq. intros q. rewrite !list_lookup_fmap.
  destruct (nch n !! q) as [c|] eqn:Ec; [|done]. cbn. f_equal. apply Hc. by eapply elem_of_list_lookup_2.
Qed.

(** ** Adding *)
Lemma add_uncanonical_inv fuel n (g g' : egraph) i :
  add_uncanonical A (modify_n L A fuel) n g = Ok (g', i) ->
  exists g1 o, add_core A n g = Ok (g1, i, o) /\
    ((o = None /\ g' = g1) \/ (exists h g2, o = Some h /\ modify_n L A fuel h g1 = Ok g2 /\ g' = set_clean false g2)).
Proof.
  unfold add_uncanonical. intros E. inv_res. destruct x as [[g1 id] [h|]]; inv_res; eauto 10.
Qed.

Lemma alias_old (g : egraph) n e q :
  Inv g -> eg_memo g !! n = Some e -> known g q ->
  uf_find (<[length (eg_uf g) := eg_find g e]> (eg_uf g ++ [length (eg_uf g)])) q = eg_find g q.
Proof.
  unfold known. intros I He Hq.
  destruct (ci_memo _ _ _ _ _ _ _ (iv_c _ I) _ _ He) as (? & Hlt & _).
  apply lookup_lt_Some in Hlt. rewrite (iv_len _ I) in Hlt.
  pose proof (uf_find_lt _ _ (iv_wf _ I) Hlt) as Hlt'.
  rewrite union_find.
  - rewrite make_set_find by apply I. case_decide as Hd; [|done].
    pose proof (uf_find_lt _ _ (iv_wf _ I) Hq). lia.
  - apply make_set_wf, I.
  - rewrite app_length. cbn. unfold eg_find. lia.
  - rewrite app_length. cbn. lia.
  - unfold eg_find. lia.
  - rewrite make_set_parent. apply uf_find_is_root, I.
  - rewrite make_set_parent. unfold uf_parent. by rewrite lookup_ge_None_2.
Qed.

Lemma add_clean_hit ex g n n' i fuel g' j :
  reachable L A ex g -> eg_clean g = true -> EAdd n i ∈ eg_log g ->
  nop n' = nop n -> same_children g (nch n') (nch n) ->
  add A (modify_n L A fuel) n' g = Ok (g', j) ->
  j = eg_find g i /\ eg_classes g' = eg_classes g /\ (forall k, known g k -> eg_find g' k = eg_find g k).
Proof.
  intros R Ec Hi Eo Hs E. pose proof (reachable_Inv _ _ _ _ R) as I.
  pose proof (reachable_clean _ _ _ _ R Ec) as Ep.
  destruct (reachable_hist _ _ _ _ R) as [_ Hl]. destruct (Hl _ _ Hi) as (m & Hm & Em).
  assert (Em' : canonf (eg_find g) n' = canonf (eg_find g) m).
  { rewrite <- Em. by apply canonf_children. }
  unfold add in E. inv_res. destruct x as [g2 k]. inv_res.
  apply add_uncanonical_inv in H0 as (g1 & o & Ea & Hg).
  pose proof (Inv_add _ _ _ _ _ _ I Ea) as I1.
  pose proof (add_core_node _ _ _ _ _ _ I Ea) as [(mm & Hmm & Emm) _].
  pose proof (grows_add_core _ _ _ _ _ _ I Ea) as G.
  assert (Hmemo : exists e, eg_memo g !! canonf (eg_find g) n' = Some e).
  { pose proof (ci_mem _ _ _ _ _ _ _ (iv_c _ I)) as Hq. rewrite Ep in Hq.
    destruct (Hq i m Hm) as [(x & Hx & Ex)|[(q & Hq' & _)|[]]]; [|by apply elem_of_nil in Hq'].
    rewrite <- Em' in Hx. eauto. }
  destruct Hmemo as [e He].
  assert (Hcong : eg_pending g1 = [] -> eg_find g1 k = eg_find g1 i).
  { intros Ep1. destruct G as [Hco (l & Hnodes) _]. eapply Inv_congruent; [exact I1|exact Ep1|exact Hmm| |].
    - rewrite Hnodes. by apply lookup_app_l_Some.
    - rewrite <- Emm. by eapply canonf_coarser_eq. }
  apply add_core_spec in Ea as [Hch Hsp]; [|apply I].
  destruct Hsp as [e' id He' Hid|e' x x1 x2 u He' Hx Hxn Hxa Hxu Hu|u cls' ex' Hmn Hw Hl' Hf Hcls Hex].
  - destruct Hg as [[_ ->]|(h & g3 & [=] & _)]. split_and!; auto.
  - destruct Hg as [[_ ->]|(h & g3 & [=] & _)].
    set (g' := set_explain _ _) in *.
    assert (Hold : forall q, known g q -> eg_find g' q = eg_find g q).
    { intros q Hq. unfold g', eg_find at 1. cbn [eg_uf set_explain set_nodes set_uf]. rewrite Hu. by eapply alias_old. }
    split_and!; [|done|exact Hold]. rewrite (Hcong Ep). apply Hold. unfold known.
    rewrite <- (iv_len _ I). by eapply lookup_lt_Some.
  - rewrite canon_canonf in Hmn. congruence.
Qed.

(** Hook-free, possibly not rebuilt. *)
Lemma add_twice_plain g n n' fuel g1 i g2 j :
  reachable L A false g -> hook_free A ->
  add A (modify_n L A fuel) n g = Ok (g1, i) -> nop n' = nop n -> same_children g1 (nch n') (nch n) ->
  add A (modify_n L A fuel) n' g1 = Ok (g2, j) ->
  j = i /\ g2 = g1.
Proof.
  intros R Hh E1 Eo Hs E2. pose proof (reachable_Inv _ _ _ _ R) as I.
  pose proof (reach_explain _ _ _ _ R) as Hex. apply bool_decide_eq_false in Hex.
  assert (Hex' : eg_explain g = None) by (destruct (eg_explain g); [destruct Hex; eauto|done]). clear Hex.
  assert (Hmid : exists e, eg_memo g1 !! canon g1 n = Some e /\ eg_explain g1 = None /\ i = eg_find g1 e).
  { unfold add in E1. inv_res. destruct x as [g3 k]. inv_res.
    apply add_uncanonical_inv in H0 as (g4 & o & Ea & Hg).
    apply add_core_spec in Ea as [Hch Hsp]; [|apply I].
    destruct Hsp as [e' id He' Hid|e' x x1 x2 u He' Hx Hxn Hxa Hxu Hu|u cls' ex' Hmn Hw Hl' Hf Hcls Hex].
    - destruct Hg as [[_ ->]|(h & g3 & [=] & _)]. destruct Hid as [[? ->]|(x & ? & _)]; [|congruence]. eauto.
    - congruence.
    - rewrite Hex' in Hex. subst ex'. destruct Hg as [[[=] _]|(h & g3 & [= <-] & Hmd & ->)].
      apply hook_free_md in Hmd as ->; [|done]. eexists. split; [|done].
      rewrite canon_canonf.
      rewrite (canonf_ext _ (eg_find g)) by (intros; apply Hf). cbn [eg_memo set_clean set_explain set_memo].
      rewrite <- canon_canonf, lookup_insert. done. }
  destruct Hmid as (e & He & Hx1 & ->).
  unfold add in E2. inv_res. destruct x as [g3 k]. inv_res.
  apply add_uncanonical_inv in H0 as (g4 & o & Ea & Hg).
  assert (Ecan : canon g1 n' = canon g1 n) by (rewrite !canon_canonf; by apply canonf_children).
  unfold add_core in Ea. rewrite Ecan, He, Hx1 in Ea.
  destruct (negb _) in Ea; [done|]. inv_res. destruct Hg as [[_ ->]|(h & g5 & [=] & _)]. done.
Qed.

(** The same node twice, explanations or not. *)
Lemma add_twice_same ex g n fuel g1 i g2 j :
  reachable L A ex g -> hook_free A ->
  add A (modify_n L A fuel) n g = Ok (g1, i) -> add A (modify_n L A fuel) n g1 = Ok (g2, j) ->
  j = i /\ g2 = g1.
Proof.
  intros R Hh E1 E2. pose proof (reachable_Inv _ _ _ _ R) as I.
  unfold add in E1. inv_res. destruct x as [g3 k]. inv_res.
  apply add_uncanonical_inv in H0 as (g4 & o & Ea & Hg).
  assert (Hmid : exists e, eg_memo g1 !! canon g1 n = Some e /\
     ((eg_explain g1 = None /\ e = k) \/ exists x, eg_explain g1 = Some x /\ ex_memo x !! n = Some k)).
  { apply add_core_spec in Ea as [Hch Hsp]; [|apply I].
    destruct Hsp as [e' id He' Hid|e' x x1 x2 u He' Hx Hxn Hxa Hxu Hu|u cls' ex' Hmn Hw Hl' Hf Hcls Hex].
    - destruct Hg as [[_ ->]|(h & g3 & [=] & _)]. exists e'. split; [done|]. destruct Hid as [[? ->]|?]; auto.
    - destruct Hg as [[_ ->]|(h & g3 & [=] & _)]. exists e'. split.
      + cbn [eg_memo set_explain set_nodes set_uf]. rewrite <- He'. f_equal. rewrite !canon_canonf.
        apply canonf_congr. intros c Hc. unfold eg_find at 1. cbn [eg_uf set_explain set_nodes set_uf].
        rewrite Hu. eapply alias_old; eauto. rewrite Forall_forall in Hch. by apply Hch.
      + right. eexists. split; [done|]. apply ex_union_shape in Hxu as [_ ->]. apply ex_add_shape in Hxa as (_ & _ & ->).
        apply lookup_insert.
    - destruct Hg as [[[=] _]|(h & g3 & [= <-] & Hmd & ->)].
      apply hook_free_md in Hmd as ->; [|done]. eexists. split.
      + rewrite canon_canonf. rewrite (canonf_ext _ (eg_find g)) by (intros; apply Hf).
        cbn [eg_memo set_clean set_explain set_memo]. rewrite <- canon_canonf. apply lookup_insert.
      + cbn. destruct (eg_explain g) as [x|]; [|auto]. destruct Hex as (x' & Hx' & ->).
        apply ex_add_shape in Hx' as (_ & _ & E). right. exists x'. split; [done|]. rewrite E. apply lookup_insert. }
  clear Hg. destruct Hmid as (e & He & Hx).
  unfold add in E2. inv_res. destruct x as [g3 k']. inv_res.
  apply add_uncanonical_inv in H0 as (g5 & o' & Ea2 & Hg).
  unfold add_core in Ea2. rewrite He in Ea2. destruct (negb _) in Ea2; [done|].
  destruct Hx as [[Hx ->]|(x & Hx & Hxm)]; rewrite Hx in Ea2.
  - inv_res. destruct Hg as [[_ ->]|(h & g6 & [=] & _)]. done.
  - rewrite Hxm in Ea2. inv_res. destruct Hg as [[_ ->]|(h & g6 & [=] & _)]. done.
Qed.

(** ** Lookup after add *)
Lemma lookup_after_add g n fuel g1 i :
  reachable L A false g -> hook_free A ->
  add A (modify_n L A fuel) n g = Ok (g1, i) -> eg_lookup g1 n = Some i.
Proof.
  intros R Hh E1. pose proof (reachable_Inv _ _ _ _ R) as I.
  pose proof (reach_explain _ _ _ _ R) as Hex. apply bool_decide_eq_false in Hex.
  assert (Hex' : eg_explain g = None) by (destruct (eg_explain g); [destruct Hex; eauto|done]). clear Hex.
  unfold add in E1. inv_res. destruct x as [g3 k]. inv_res.
  apply add_uncanonical_inv in H0 as (g4 & o & Ea & Hg).
  apply add_core_spec in Ea as [Hch Hsp]; [|apply I]. unfold eg_lookup, lookup_internal.
  destruct Hsp as [e' id He' Hid|e' x x1 x2 u He' Hx Hxn Hxa Hxu Hu|u cls' ex' Hmn Hw Hl' Hf Hcls Hex].
  - destruct Hg as [[_ ->]|(h & g3 & [=] & _)]. destruct Hid as [[? ->]|(x & ? & _)]; [|congruence]. by rewrite He'.
  - congruence.
  - destruct Hg as [[[=] _]|(h & g3 & [= <-] & Hmd & ->)].
    apply hook_free_md in Hmd as ->; [|done].
    set (g1 := set_clean _ _). assert (Ec : canon g1 n = canon g n) by (apply canonf_ext; intros; apply Hf).
    rewrite Ec. unfold g1 at 2. cbn [eg_memo set_clean set_explain set_memo]. by rewrite lookup_insert.
Qed.

(** A lookup that fails predicts a new class. *)
Lemma add_miss ex g n fuel g1 i :
  reachable L A ex g -> hook_free A -> eg_lookup g n = None ->
  add A (modify_n L A fuel) n g = Ok (g1, i) ->
  ~ known g i /\ known g1 i /\ dom (eg_classes g1) = {[i]} ∪ dom (eg_classes g) /\
  (forall k, eg_find g1 k = eg_find g k).
Proof.
  intros R Hh Hlk E1. pose proof (reachable_Inv _ _ _ _ R) as I.
  unfold eg_lookup, lookup_internal in Hlk. rewrite fmap_None in Hlk.
  unfold add in E1. inv_res. destruct x as [g3 k]. inv_res.
  apply add_uncanonical_inv in H0 as (g4 & o & Ea & Hg).
  apply add_core_spec in Ea as [Hch Hsp]; [|apply I].
  destruct Hsp as [e' id He' Hid|e' x x1 x2 u He' Hx Hxn Hxa Hxu Hu|u cls' ex' Hmn Hw Hl' Hf Hcls Hex]; [congruence..|].
  destruct Hg as [[[=] _]|(h & g3 & [= <-] & Hmd & ->)].
  apply hook_free_md in Hmd as ->; [|done]. set (g1 := set_clean _ _).
  assert (Hfi : eg_find g1 (length (eg_uf g)) = length (eg_uf g)).
  { unfold eg_find, g1. cbn. rewrite Hf. by apply uf_find_oob. }
  rewrite Hfi. unfold known, g1. cbn. rewrite Hl'. split_and!; [lia|lia| |done].
  apply leibniz_equiv. intros r. rewrite elem_of_union, elem_of_singleton, !elem_of_dom, Hcls.
  case_decide as Hd; [split; [auto|eauto]|].
  rewrite fmap_is_Some. naive_solver.
Qed.
End ops.
