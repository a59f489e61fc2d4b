(** Congruence closure, class contents and operator index of session states. *)
From Verif Require Import Base UnionFind EGraphModel EGraphSteps EGraphInv EGraphPres EGraphRuns Spec.

Section main.
Context {Op D : Type} `{Countable Op}.
Notation node := (node Op).
Notation egraph := (egraph Op D).
Notation eclass := (eclass Op D).
Notation prog := (prog Op D).
Context (L : lang Op) (A : analysis Op D).

(** * Congruence closure *)
Lemma congT_Cong (g : egraph) i j :
  (forall k m, eg_nodes g !! k = Some m -> EAdd m k ∈ eg_log g) ->
  congT (eg_nodes g) (log_unions (eg_log g)) i j -> Cong (eg_log g) i j.
Proof.
  intros Ht. induction 1 as [i|i j _ IH|i j k _ IH1 _ IH2|a b (r & Hr)|i j [fa ca] [fb cb] Ha Hb Eo El Hk IH].
  - apply Cong_refl.
  - by apply Cong_sym.
  - by eapply Cong_trans.
  - by eapply Cong_union.
  - cbn in *. subst fb. eapply Cong_cong; eauto.
Qed.

Lemma closure_sound fuel ex p g a b :
  session L A fuel ex p = Ok g -> a < length (eg_uf g) -> b < length (eg_uf g) ->
  eg_find g a = eg_find g b -> Cong (eg_log g) a b.
Proof.
  intros E Ha Hb Hab. pose proof (Inv_session _ _ _ _ _ _ E) as I.
  apply hist_session in E as [Ht _]. apply congT_Cong; [done|].
  rewrite <- (iv_len _ I) in Ha, Hb.
  apply ct_trans with (eg_find g a); [by apply (ci_snd _ _ _ _ _ _ _ (iv_c _ I))|].
  rewrite Hab. apply ct_sym. by apply (ci_snd _ _ _ _ _ _ _ (iv_c _ I)).
Qed.

Lemma Inv_congruent (g : egraph) i j m m' :
  Inv g -> eg_pending g = [] -> eg_nodes g !! i = Some m -> eg_nodes g !! j = Some m' ->
  canonf (eg_find g) m = canonf (eg_find g) m' -> eg_find g i = eg_find g j.
Proof.
  intros I Ep Hi Hj E. pose proof (ci_mem _ _ _ _ _ _ _ (iv_c _ I)) as Hm. rewrite Ep in Hm.
  destruct (Hm i m Hi) as [(x & Hx & Ex)|[(q & Hq & _)|[]]]; [|by apply elem_of_nil in Hq].
  destruct (Hm j m' Hj) as [(y & Hy & Ey)|[(q & Hq & _)|[]]]; [|by apply elem_of_nil in Hq].
  rewrite E in Hx. congruence.
Qed.

Lemma closure_complete fuel ex p g a b :
  session L A fuel ex p = Ok g -> eg_pending g = [] ->
  Cong (eg_log g) a b -> eg_find g a = eg_find g b.
Proof.
  intros E Ep Hc. pose proof (Inv_session _ _ _ _ _ _ E) as I.
  apply hist_session in E as [_ Hl].
  induction Hc as [i|i j _ IH|i j k _ IH1 _ IH2|x y r Hr|f cs ds i j Hi Hj El Hk IH].
  - done.
  - done.
  - congruence.
  - apply (ci_un _ _ _ _ _ _ _ (iv_c _ I)). by exists r.
  - apply Hl in Hi as (m & Hm & Em). apply Hl in Hj as (m' & Hm' & Em').
    eapply Inv_congruent; eauto. rewrite <- Em, <- Em'. by apply canonf_eq_intro.
Qed.

(** * A view of the plain transitions *)
Inductive pview (g g' : egraph) : lbl -> Prop :=
| pv_idle l :
    l = LUnion \/ l = LPend ->
    uf_equiv (eg_uf g) (eg_uf g') -> eg_nodes g' = eg_nodes g -> eg_classes g' = eg_classes g ->
    eg_by_op g' = eg_by_op g -> eg_apending g' = eg_apending g ->
    (eg_clean g' = false \/ l = LPend /\ eg_clean g' = eg_clean g) ->
    pview g g' l
| pv_union l id1 id2 k1 k2 d did1 did2 :
    l = LUnion \/ l = LPend ->
    id1 <> id2 -> eg_find g id1 = id1 -> eg_find g id2 = id2 ->
    eg_classes g !! id1 = Some k1 -> eg_classes g !! id2 = Some k2 ->
    (forall j, eg_find g' j = if decide (eg_find g j = id2) then id1 else eg_find g j) ->
    length (eg_uf g') = length (eg_uf g) ->
    eg_nodes g' = eg_nodes g ->
    an_merge A (c_data k1) (c_data k2) = (d, (did1, did2)) ->
    eg_classes g' = <[id1 := EClass id1 (concat_vecs (c_nodes k1) (c_nodes k2)) d
                          (concat_vecs (c_parents k1) (c_parents k2))]> (delete id2 (eg_classes g)) ->
    eg_by_op g' = eg_by_op g ->
    eg_apending g' = union_queue (eg_apending g) did1 did2 (c_parents k1) (c_parents k2) ->
    eg_clean g' = false ->
    pview g g' l
| pv_data l r c d :
    l = LAna \/ l = LSetData \/ l = LPoke ->
    uf_equiv (eg_uf g) (eg_uf g') -> eg_nodes g' = eg_nodes g ->
    eg_classes g !! r = Some c -> eg_classes g' = <[r := c_set_data d c]> (eg_classes g) ->
    eg_by_op g' = eg_by_op g -> eg_clean g' = eg_clean g -> eg_pending g' = eg_pending g ->
    pview g g' l
| pv_retain r c (f : node -> bool) :
    uf_equiv (eg_uf g) (eg_uf g') -> eg_nodes g' = eg_nodes g ->
    eg_classes g !! r = Some c ->
    eg_classes g' = <[r := c_set_nodes (filter (fun n => f n = true) (c_nodes c)) c]> (eg_classes g) ->
    eg_by_op g' = eg_by_op g -> eg_clean g' = eg_clean g -> eg_apending g' = eg_apending g ->
    eg_pending g' = eg_pending g ->
    pview g g' LRetain
| pv_rebuilt :
    uf_equiv (eg_uf g) (eg_uf g') -> eg_nodes g' = eg_nodes g ->
    (forall r, eg_classes g' !! r =
       (fun c => c_set_nodes (norm_nodes L (eg_find g) (c_nodes c)) c) <$> eg_classes g !! r) ->
    (forall d r, by_op_mem (eg_by_op g') d r <->
       exists c n, eg_classes g' !! r = Some c /\ n ∈ c_nodes c /\ l_disc L (nop n) = d) ->
    eg_apending g' = eg_apending g -> uq_queue (eg_apending g) = [] -> eg_pending g = [] ->
    eg_clean g' = true -> eg_pending g' = [] ->
    pview g g' LRebuild.

Lemma union_view l e1 e2 rule (g g0 g' : egraph) o :
  l = LUnion \/ l = LPend ->
  Inv g -> uf_equiv (eg_uf g) (eg_uf g0) -> eg_nodes g0 = eg_nodes g -> eg_classes g0 = eg_classes g ->
  eg_by_op g0 = eg_by_op g -> eg_apending g0 = eg_apending g ->
  perform_union_core A e1 e2 rule g0 = Ok (g', o) -> pview g g' l.
Proof.
  intros Hll I He EN EC EB EQ E. pose proof He as (Hw & Hl & Hf).
  apply perform_union_core_spec in E as (He1 & He2 & Hs); [|done].
  destruct Hs as [u ex' Hsame He' Hex|id1 id2 k1 k2 d did1 did2 u ex' Hids Hne E1 E2 Hlen Htie Hcid Hm Hw' Hl' Hf' Hex].
  - apply pv_idle; auto. by eapply uf_equiv_trans.
  - rewrite EC in E1, E2.
    assert (Hff : forall j, eg_find g0 j = eg_find g j) by (intros; apply Hf).
    eapply (pv_union _ _ _ id1 id2 k1 k2 d did1 did2); cbn; auto.
    + destruct Hids as [[-> ->]|[-> ->]]; rewrite Hff; by apply Inv_find_idem.
    + destruct Hids as [[-> ->]|[-> ->]]; rewrite Hff; by apply Inv_find_idem.
    + intros j. rewrite <- Hff. apply Hf'.
    + by rewrite Hl', Hl.
    + by rewrite Hcid, EC.
    + by rewrite EQ.
Qed.

Lemma prim_view l g g' : plain l -> prim L A l g g' -> Inv g -> pview g g' l.
Proof.
  intros Hpl Hp I.
  destruct Hp as [n g g' id o E|g|n i g|a b r rule g g' o Hr E|c rest g g' o Ep E|id q g g' o Eq E
    |i d g g' r E|i d g g' E|i f g g' E|g Ep Eq]; try done.
  - eapply union_view; [auto|exact I|..|exact E]; auto. apply uf_equiv_refl. apply I.
  - unfold pending_core in E. inv_res. cbn in H0. rename x into n, H0 into Hn. cbn [eg_uf set_pending] in E.
    pose proof I as [I1 I2 I3 I4 I5 I6].
    destruct (canon_mut_spec (eg_uf g) n I1) as (u & Eu & He).
    { apply Forall_forall. intros i Hi. pose proof (ci_ch _ _ _ _ _ _ _ I3 _ _ _ Hn Hi).
      pose proof (lookup_lt_Some _ _ _ Hn). lia. }
    rewrite Eu in E. cbn [eg_memo set_uf set_pending] in E.
    destruct (eg_memo g !! _) as [mc|].
    + eapply union_view; [auto|exact I|..|exact E]; auto.
    + inv_res. apply pv_idle; auto.
  - unfold analysis_core in E.
    destruct (uq_pop_ok _ _ _ _ (iv_q _ I) Eq) as [Hq Hid].
    inv_res. destruct (eg_find_mut_spec (set_apending q g) id) as (u & Eu & He); [apply I|by cbn; rewrite <- (iv_len _ I)|].
    rewrite Eu in E. inv_res. destruct (an_merge A _ _) as [dd [did1 did2]].
    destruct did1; inv_res; eapply pv_data; eauto; done.
  - unfold set_data_core in E. destruct (valid_id g i) eqn:Hv; cbn [negb] in E; [|done].
    apply valid_id_lt in Hv. destruct (eg_find_mut_spec g i (iv_wf _ I) Hv) as (u & Eu & He).
    rewrite Eu in E. inv_res. eapply pv_data; eauto; done.
  - unfold poke_data in E. destruct (valid_id g i) eqn:Hv; cbn [negb] in E; [|done].
    apply valid_id_lt in Hv. destruct (eg_find_mut_spec g i (iv_wf _ I) Hv) as (u & Eu & He).
    rewrite Eu in E. inv_res. eapply pv_data; eauto; done.
  - unfold retain_nodes in E. destruct (valid_id g i) eqn:Hv; cbn [negb] in E; [|done].
    apply valid_id_lt in Hv. destruct (eg_find_mut_spec g i (iv_wf _ I) Hv) as (u & Eu & He).
    rewrite Eu in E. inv_res. eapply pv_retain; eauto; done.
  - destruct (rebuild_classes_spec L g) as (u & cls' & ops' & -> & He & Hcls & Hops).
    { apply I. }
    { intros. rewrite <- (iv_len _ I). by eapply class_children_lt. }
    apply pv_rebuilt; cbn; auto. intros d r. rewrite Hops. split.
    + intros (k & c & n & Hk & Hr & Hn & Hd). assert (k = r) as ->.
      { pose proof (ci_cid _ _ _ _ _ _ _ (iv_c _ I) _ _ Hk). congruence. }
      exists (c_set_nodes (norm_nodes L (eg_find g) (c_nodes c)) c), n.
      rewrite Hcls, Hk. done.
    + intros (c' & n & Hr & Hn & Hd). rewrite Hcls in Hr.
      destruct (eg_classes g !! r) as [c|] eqn:Ec; cbn in Hr; [|done]. injection Hr as <-.
      exists r, c, n. split_and!; auto. by apply (ci_cid _ _ _ _ _ _ _ (iv_c _ I)).
Qed.

(** * Every added node stays listed in its class (unless the client prunes it) *)
Definition listed (g : egraph) : Prop :=
  forall k m, eg_nodes g !! k = Some m ->
    exists c n, eg_classes g !! eg_find g k = Some c /\ n ∈ c_nodes c /\
      canonf (eg_find g) n = canonf (eg_find g) m.

Lemma listed_prim l g g' : plain l -> l <> LRetain -> prim L A l g g' -> Inv g -> listed g -> listed g'.
Proof.
  intros Hpl Hnr Hp I Hls. apply prim_view in Hp; [|done|done].
  destruct Hp as [l Hl He EN EC EB EQ Hcl|l id1 id2 k1 k2 d did1 did2 Hl Hne Hr1 Hr2 E1 E2 Hf Hlen EN Hm EC EB EQ Hcl
    |l r c d Hl He EN Er EC EB Hcl Hpe|r c f He EN Er EC EB Hcl HQ Hpe|He EN EC EB EQ EQ0 Ep0 Hcl Hpe];
    intros k m Hk; rewrite EN in Hk; destruct (Hls k m Hk) as (ck & n & Hck & Hn & En).
  - assert (Hf : forall i, eg_find g' i = eg_find g i) by (intros; apply He).
    exists ck, n. rewrite EC, Hf. rewrite !(canonf_ext (eg_find g') (eg_find g)) by done. auto.
  - assert (Hco : coarser (eg_find g) (eg_find g')).
    { eapply merged_coarser; eauto. intros. by apply Inv_find_idem. }
    rewrite EC, Hf. case_decide as Hd.
    + eexists _, n. rewrite lookup_insert. split; [done|]. cbn. split; [|by eapply canonf_coarser_eq].
      apply elem_of_concat_vecs. right. congruence.
    + destruct (decide (eg_find g k = id1)) as [Hd1|Hd1].
      * eexists _, n. rewrite Hd1, lookup_insert. split; [done|]. cbn. split; [|by eapply canonf_coarser_eq].
        apply elem_of_concat_vecs. left. congruence.
      * exists ck, n. rewrite lookup_insert_ne, lookup_delete_ne by done. split_and!; auto.
        by eapply canonf_coarser_eq.
  - assert (Hf : forall i, eg_find g' i = eg_find g i) by (intros; apply He).
    rewrite EC, Hf. destruct (decide (r = eg_find g k)) as [->|Hd].
    + eexists _, n. rewrite lookup_insert. split; [done|]. cbn.
      rewrite !(canonf_ext (eg_find g') (eg_find g)) by done. split; [congruence|done].
    + exists ck, n. rewrite lookup_insert_ne by done.
      rewrite !(canonf_ext (eg_find g') (eg_find g)) by done. auto.
  - done.
  - assert (Hf : forall i, eg_find g' i = eg_find g i) by (intros; apply He).
    eexists _, (canonf (eg_find g) n). rewrite EC, Hf, Hck. cbn. split; [done|]. cbn. split.
    + apply elem_of_norm_nodes. eauto.
    + rewrite !(canonf_ext (eg_find g') (eg_find g)) by done.
      rewrite canonf_canonf; [done|]. intros. by apply Inv_find_idem.
Qed.

Lemma listed_add n g g' id o : add_core A n g = Ok (g', id, o) -> Inv g -> listed g -> listed g'.
Proof.
  intros E I Hls. pose proof (Inv_add _ _ _ _ _ _ I E) as I'.
  pose proof (grows_add_core _ _ _ _ _ _ I E) as [Hco _ _ _].
  apply add_core_spec in E as [Hch Hs]; [|apply I].
  destruct Hs as [e id He Hid|e x x1 x2 u He Hx Hxn Hxa Hxu Hu|u cls' ex' Hm Hw Hl Hf Hcls Hex].
  - done.
  - set (g' := set_explain _ _) in *.
    assert (Hold : forall k, k < length (eg_nodes g) -> eg_find g' k = eg_find g k).
    { intros k Hk. assert (Hk' : eg_find g k < length (eg_nodes g')).
      { cbn. rewrite app_length. cbn. pose proof (proj2 (ci_lt _ _ _ _ _ _ _ (iv_c _ I) k) Hk). lia. }
      assert (eg_find g' (eg_find g k) = eg_find g k) as <-; [|symmetry; apply Hco].
      apply (ci_cls _ _ _ _ _ _ _ (iv_c _ I')). cbn.
      apply (ci_cls _ _ _ _ _ _ _ (iv_c _ I)). split.
      - by apply (ci_lt _ _ _ _ _ _ _ (iv_c _ I)).
      - by apply Inv_find_idem. }
    destruct (ci_memo _ _ _ _ _ _ _ (iv_c _ I) _ _ He) as (me & Hme & Eme).
    assert (Hel : e < length (eg_nodes g)) by by eapply lookup_lt_Some.
    assert (Hnew : eg_find g' (length (eg_nodes g)) = eg_find g' e).
    { pose proof (make_set_wf _ (iv_wf _ I)) as Hw1. unfold g', eg_find at 1 2. cbn. subst u.
      assert (Hfe : eg_find g e < length (eg_uf g)) by (apply uf_find_lt; [apply I|by rewrite <- (iv_len _ I)]).
      assert (Hp1 : uf_parent (eg_uf g ++ [length (eg_uf g)]) (eg_find g e) = eg_find g e).
      { apply uf_find_root_iff; auto. rewrite make_set_find by apply I. by apply Inv_find_idem. }
      assert (Hp2 : uf_parent (eg_uf g ++ [length (eg_uf g)]) (length (eg_uf g)) = length (eg_uf g)).
      { apply uf_find_root_iff; auto. rewrite make_set_find by apply I. by apply uf_find_oob. }
      assert (Hla : length (eg_uf g ++ [length (eg_uf g)]) = S (length (eg_uf g))).
      { rewrite app_length. cbn. lia. }
      rewrite !union_find; auto; try lia. rewrite !make_set_find by apply I. rewrite (iv_len _ I).
      rewrite decide_True by by apply uf_find_oob. unfold eg_find. case_decide; done. }
    intros k m Hk. cbn in Hk. apply lookup_app_Some in Hk as [Hk|[Hl Hk]].
    + destruct (Hls k m Hk) as (ck & n' & Hck & Hn & En). exists ck, n'.
      rewrite Hold by by eapply lookup_lt_Some. split_and!; auto. by eapply canonf_coarser_eq.
    + apply list_lookup_singleton_Some in Hk as [Hk <-].
      assert (k = length (eg_nodes g)) as -> by lia.
      destruct (Hls e me Hme) as (ck & n' & Hck & Hn & En). exists ck, n'.
      rewrite Hnew, Hold by done. split_and!; auto.
      eapply (canonf_coarser_eq _ _ _ _ Hco). rewrite En, <- Eme.
      rewrite canon_canonf. apply canonf_canonf. intros. by apply Inv_find_idem.
  - set (g' := set_explain _ _) in *.
    assert (Hff : forall i, eg_find g' i = eg_find g i) by apply Hf.
    intros k m Hk. cbn in Hk. rewrite Hff.
    rewrite !(canonf_ext (eg_find g') (eg_find g)) by done.
    setoid_rewrite (fun n => canonf_ext (eg_find g') (eg_find g) n Hff).
    apply lookup_app_Some in Hk as [Hk|[Hl' Hk]].
    + destruct (Hls k m Hk) as (ck & n' & Hck & Hn & En). cbn.
      eexists _, n'. rewrite Hcls, decide_False, Hck; [by split_and!|].
      assert (eg_find g k < length (eg_nodes g)) as Hlt.
      { apply (ci_lt _ _ _ _ _ _ _ (iv_c _ I)). by eapply lookup_lt_Some. }
      rewrite (iv_len _ I) in Hlt. lia.
    + apply list_lookup_singleton_Some in Hk as [Hk <-].
      assert (k = length (eg_uf g)) as -> by (rewrite <- (iv_len _ I); lia).
      assert (eg_find g (length (eg_uf g)) = length (eg_uf g)) as -> by by apply uf_find_oob.
      eexists _, (canon g n). cbn. rewrite Hcls, decide_True by done. split; [done|].
      split; [by left|]. rewrite canon_canonf. apply canonf_canonf. intros. by apply Inv_find_idem.
Qed.

Lemma listed_brun (P : lbl -> Prop) g g' : ~ P LRetain -> brun L A P g g' -> Inv g -> listed g -> listed g'.
Proof.
  intros HnP.
  induction 1 as [g|l g g1 Hpl HP Hp|g g1 g2 R1 IH1 R2 IH2|n g g1 id HP E|n g g1 id h g2 HP E R IH]; intros I Hls.
  - done.
  - eapply listed_prim; eauto. by intros ->.
  - apply IH2; [by eapply brun_Inv|]. by apply IH1.
  - by eapply (listed_add _ _ _ _ _ E).
  - apply IH; [by eapply Inv_add|]. by eapply listed_add.
Qed.

(** * Class contents and index when the e-graph is clean *)
Record canonical (g : egraph) : Prop := {
  cl_canon : forall r c n, eg_classes g !! r = Some c -> n ∈ c_nodes c -> canonf (eg_find g) n = n;
  cl_nodup : forall r c, eg_classes g !! r = Some c -> NoDup (c_nodes c);
  cl_sorted : forall r c, eg_classes g !! r = Some c -> StronglySorted (node_le L) (c_nodes c);
}.
Definition indexed (g : egraph) : Prop :=
  forall d r, by_op_mem (eg_by_op g) d r <->
    exists c n, eg_classes g !! r = Some c /\ n ∈ c_nodes c /\ l_disc L (nop n) = d.

Lemma node_le_preorder : lang_ok L -> Transitive (node_le L) /\ (forall a b, node_le L a b \/ node_le L b a).
Proof.
  intros Lo. split; [intros a b c; apply Lo|]. intros a b. by apply Lo.
Qed.

Lemma dedup_from_sorted (prev : node) ns :
  lang_ok L -> StronglySorted (node_le L) (prev :: ns) ->
  StronglySorted (node_le L) (prev :: dedup_from prev ns) /\ NoDup (prev :: dedup_from prev ns).
Proof.
  intros Lo. revert prev. induction ns as [|n ns IH]; intros prev Hs; cbn [dedup_from].
  { split; [done|]. apply NoDup_singleton. }
  case_decide as Hd.
  - apply IH. subst. by inversion_clear Hs.
  - inversion_clear Hs as [|? ? Hs1 Hs2]. destruct (IH n Hs1) as [H1 H2].
    assert (Hall : Forall (node_le L prev) (n :: dedup_from n ns)).
    { apply Forall_forall. intros x Hx. apply (proj1 (elem_of_dedup_from n x ns)) in Hx.
      rewrite Forall_forall in Hs2. auto. }
    split; [by constructor|]. apply NoDup_cons. split; [|done].
    intros Hin. apply elem_of_cons in Hin as [->|Hin]; [done|].
    inversion_clear H1 as [|? ? H3 H4]. rewrite Forall_forall in H4. apply Hd.
    apply (lo_antisym _ Lo).
    + by apply H4.
    + rewrite Forall_forall in Hs2. apply Hs2. by left.
Qed.

Lemma norm_nodes_sorted f ns :
  lang_ok L -> StronglySorted (node_le L) (norm_nodes L f ns) /\ NoDup (norm_nodes L f ns).
Proof.
  intros Lo. destruct (node_le_preorder Lo) as [Ht Htot]. unfold norm_nodes.
  assert (Hs : StronglySorted (node_le L) (sort_nodes L (canonf f <$> ns))).
  { unfold sort_nodes. apply StronglySorted_merge_sort; [exact Ht|exact Htot]. }
  destruct (sort_nodes _ _) as [|n l]; cbn [dedup].
  - split; [constructor|constructor].
  - by apply dedup_from_sorted.
Qed.

Lemma canonical_same g g' :
  (forall i, eg_find g' i = eg_find g i) -> eg_classes g' = eg_classes g -> canonical g -> canonical g'.
Proof.
  intros Hf EC [C1 C2 C3]. split; rewrite EC; auto.
  intros. rewrite (canonf_ext (eg_find g') (eg_find g)) by done. eauto.
Qed.

Lemma filter_StronglySorted {B} (R : B -> B -> Prop) (f : B -> bool) l :
  StronglySorted R l -> StronglySorted R (filter (fun n => f n = true) l).
Proof.
  induction 1 as [|x l Hs IH Hf]; [constructor|]. rewrite filter_cons. case_decide; [|done].
  constructor; [done|]. apply Forall_forall. intros y Hy. apply elem_of_list_filter in Hy as [_ Hy].
  rewrite Forall_forall in Hf. auto.
Qed.

Lemma clean_canonical_brun P g g' : lang_ok L -> brun L A P g g' -> Inv g ->
  (eg_clean g = true -> canonical g) -> (eg_clean g' = true -> canonical g').
Proof.
  intros Lo.
  induction 1 as [g|l g g1 Hpl HP Hp|g g1 g2 R1 IH1 R2 IH2|n g g1 id HP E|n g g1 id h g2 HP E R IH]; intros I Hc.
  - done.
  - apply prim_view in Hp; [|done|done].
    destruct Hp as [l Hl He EN EC EB EQ Hcl|l id1 id2 k1 k2 d did1 did2 Hl Hne Hr1 Hr2 E1 E2 Hf Hlen EN Hm EC EB EQ Hcl
      |l r c d Hl He EN Er EC EB Hcl Hpe|r c f He EN Er EC EB Hcl HQ Hpe|He EN EC EB EQ EQ0 Ep0 Hcl Hpe]; intros Hc'.
    + destruct Hcl as [Hcl|[_ Hcl]]; [congruence|]. eapply canonical_same; [|done|apply Hc; congruence].
      intros. apply He.
    + congruence.
    + destruct Hc as [C1 C2 C3]; [congruence|].
      assert (Hr : forall r' c', eg_classes g1 !! r' = Some c' -> exists c0, eg_classes g !! r' = Some c0 /\ c_nodes c' = c_nodes c0).
      { intros r' c'. rewrite EC. intros [[<- <-]|[_ Hr']]%lookup_insert_Some; eauto. }
      assert (Hf : forall i, eg_find g1 i = eg_find g i) by (intros; apply He).
      split.
      * intros r' c' n' Hr' Hn'. apply Hr in Hr' as (c0 & H0 & E0). rewrite E0 in Hn'.
        rewrite (canonf_ext (eg_find g1) (eg_find g)) by done. eauto.
      * intros r' c' Hr'. apply Hr in Hr' as (c0 & H0 & E0). rewrite E0. eauto.
      * intros r' c' Hr'. apply Hr in Hr' as (c0 & H0 & E0). rewrite E0. eauto.
    + destruct Hc as [C1 C2 C3]; [congruence|].
      assert (Hf : forall i, eg_find g1 i = eg_find g i) by (intros; apply He).
      split.
      * intros r' c' n' Hr' Hn'. rewrite (canonf_ext (eg_find g1) (eg_find g)) by done.
        rewrite EC in Hr'. apply lookup_insert_Some in Hr' as [[<- <-]|[_ Hr']]; [|eauto].
        cbn in Hn'. apply elem_of_list_filter in Hn' as [_ Hn']. eauto.
      * intros r' c' Hr'. rewrite EC in Hr'. apply lookup_insert_Some in Hr' as [[<- <-]|[_ Hr']]; [|eauto].
        cbn. apply NoDup_filter. eauto.
      * intros r' c' Hr'. rewrite EC in Hr'. apply lookup_insert_Some in Hr' as [[<- <-]|[_ Hr']]; [|eauto].
        cbn. apply filter_StronglySorted. eauto.
    + assert (Hf : forall i, eg_find g1 i = eg_find g i) by (intros; apply He).
      assert (Hr : forall r' c', eg_classes g1 !! r' = Some c' ->
         exists c0, eg_classes g !! r' = Some c0 /\ c_nodes c' = norm_nodes L (eg_find g) (c_nodes c0)).
      { intros r' c'. rewrite EC. destruct (eg_classes g !! r') as [c0|]; cbn; [|done].
        intros [= <-]. eauto. }
      split.
      * intros r' c' n' Hr' Hn'. rewrite (canonf_ext (eg_find g1) (eg_find g)) by done.
        apply Hr in Hr' as (c0 & H0 & E0). rewrite E0 in Hn'.
        apply elem_of_norm_nodes in Hn' as (m & -> & Hm). apply canonf_canonf.
        intros. by apply Inv_find_idem.
      * intros r' c' Hr'. apply Hr in Hr' as (c0 & H0 & E0). rewrite E0. by apply norm_nodes_sorted.
      * intros r' c' Hr'. apply Hr in Hr' as (c0 & H0 & E0). rewrite E0. by apply norm_nodes_sorted.
  - apply IH2; [by eapply brun_Inv|]. by apply IH1.
  - cbn. intros Hc'. pose proof (Inv_add _ _ _ _ _ _ I E) as I1.
    pose proof (grows_add_core _ _ _ _ _ _ I E) as [Hco _ _ _].
    apply add_core_spec in E as [Hch Hs]; [|apply I].
    inversion Hs as [e id' He Hid|e x x1 x2 u He Hx Hxn Hxa Hxu Hu|]; subst.
    + destruct Hc as [C1 C2 C3]; [done|]. by split.
    + destruct Hc as [C1 C2 C3]; [done|]. split; cbn; auto.
      intros r c n' Hr Hn'. rewrite <- (C1 r c n' Hr Hn') at 2.
      unfold canonf. f_equal. apply list_fmap_ext. intros i x' Hx'.
      set (g' := set_explain _ _) in *. change (eg_find (add_log (EAdd n (length (eg_uf g))) g')) with (eg_find g').
      apply elem_of_list_lookup_2 in Hx'.
      pose proof (class_children_lt _ _ _ _ _ I Hr Hn' Hx') as Hlt.
      rewrite <- (Hco x'). apply (ci_cls _ _ _ _ _ _ _ (iv_c _ I1)). cbn.
      apply (ci_cls _ _ _ _ _ _ _ (iv_c _ I)). split.
      * by apply (ci_lt _ _ _ _ _ _ _ (iv_c _ I)).
      * by apply Inv_find_idem.
  - done.
Qed.

Lemma clean_indexed_brun (P : lbl -> Prop) g g' : ~ P LRetain -> brun L A P g g' -> Inv g ->
  (eg_clean g = true -> indexed g) -> (eg_clean g' = true -> indexed g').
Proof.
  intros HnP.
  induction 1 as [g|l g g1 Hpl HP Hp|g g1 g2 R1 IH1 R2 IH2|n g g1 id HP E|n g g1 id h g2 HP E R IH]; intros I Hc.
  - done.
  - apply prim_view in Hp; [|done|done].
    destruct Hp as [l Hl He EN EC EB EQ Hcl|l id1 id2 k1 k2 d did1 did2 Hl Hne Hr1 Hr2 E1 E2 Hf Hlen EN Hm EC EB EQ Hcl
      |l r c d Hl He EN Er EC EB Hcl Hpe|r c f He EN Er EC EB Hcl HQ Hpe|He EN EC EB EQ EQ0 Ep0 Hcl Hpe]; intros Hc'.
    + destruct Hcl as [Hcl|[_ Hcl]]; [congruence|]. unfold indexed in *. rewrite EC, EB. apply Hc. congruence.
    + congruence.
    + unfold indexed in *. rewrite EC, EB. intros d' r'. rewrite Hc by congruence.
      destruct (decide (r = r')) as [->|Hne].
      * rewrite lookup_insert. split.
        -- intros (c' & n & Hr & Hn & Hd). exists (c_set_data d c), n. split_and!; auto. cbn. congruence.
        -- intros (c' & n & [= <-] & Hn & Hd). exists c, n. auto.
      * by rewrite lookup_insert_ne by done.
    + done.
    + done.
  - apply IH2; [by eapply brun_Inv|]. by apply IH1.
  - cbn. intros Hc'. apply add_core_spec in E as [Hch Hs]; [|apply I].
    inversion Hs; subst; by apply Hc.
  - done.
Qed.

End main.
