(** Facts about reachable e-graphs, in the form used by the property theorems. *)
From Verif Require Import Base UnionFind EGraphModel EGraphSteps EGraphInv EGraphPres EGraphRuns Spec EGraphMain.

Section reach.
Context {Op D : Type} `{Countable Op}.
Notation node := (node Op).
Notation egraph := (egraph Op D).
Notation eclass := (eclass Op D).
Context (L : lang Op) (A : analysis Op D).

Lemma reach_brun (P : lbl -> Prop) (Q : prog Op D -> Prop) ex g :
  (forall id, prog_in P (an_modify A id)) -> (forall p, Q p -> prog_in P p) ->
  reach L A Q ex g -> brun L A P (eg_new ex) g.
Proof.
  intros Hm HQ. induction 1 as [|fuel p g g' R IH Hp E]; [apply br_refl|].
  eapply br_trans; [exact IH|]. eapply run_prog_runs; [|by apply HQ|exact E]. by apply modify_n_runs.
Qed.
Lemma reachable_brun ex g : reachable L A ex g -> brun L A any (eg_new ex) g.
Proof. intros R. eapply reach_brun; [| |exact R]; intros; apply prog_in_any. Qed.

Definition unpruned (l : lbl) : Prop := l <> LRetain.
Lemma no_prune_in p : no_prune p -> prog_in (D := D) (Op := Op) unpruned p.
Proof. induction p; cbn; unfold unpruned; try done; intros; repeat split; auto; naive_solver. Qed.
Lemma reachable_np_brun ex g : reachable_np L A ex g -> brun L A unpruned (eg_new ex) g.
Proof. intros [Hm R]. eapply reach_brun; [| |exact R]; intros; by apply no_prune_in. Qed.
Lemma reach_mono (Q Q' : prog Op D -> Prop) ex g :
  (forall p, Q p -> Q' p) -> reach L A Q ex g -> reach L A Q' ex g.
Proof. intros HQ. induction 1; [constructor|]. eapply reach_run; eauto. Qed.
Lemma reachable_np_reachable ex g : reachable_np L A ex g -> reachable L A ex g.
Proof. intros [_ R]. by eapply reach_mono. Qed.

Lemma reachable_Inv ex g : reachable L A ex g -> Inv g.
Proof. intros R%reachable_brun. eapply brun_Inv; [done|apply Inv_new]. Qed.

Lemma session_reachable fuel ex p g : session L A fuel ex p = Ok g -> reachable L A ex g.
Proof. intros E. eapply reach_run; [apply reach_new|done|exact E]. Qed.
Lemma session_reachable_np fuel ex p g :
  (forall i, no_prune (an_modify A i)) -> no_prune p -> session L A fuel ex p = Ok g -> reachable_np L A ex g.
Proof. intros Hm Hp E. split; [done|]. eapply reach_run; [apply reach_new|done|exact E]. Qed.

Lemma reachable_hist ex g : reachable L A ex g ->
  (forall k m, eg_nodes g !! k = Some m -> EAdd m k ∈ eg_log g) /\
  (forall n i, EAdd n i ∈ eg_log g ->
    exists m, eg_nodes g !! i = Some m /\ canonf (eg_find g) n = canonf (eg_find g) m).
Proof.
  intros R%reachable_brun. pose proof (hist_brun _ _ _ _ _ R (Inv_new ex)) as [T Lg]. split.
  - intros k m Hk. eapply T; eauto. cbn. lia.
  - intros n i Hi. eapply Lg; eauto. cbn. by rewrite app_nil_r.
Qed.

Lemma reachable_clean ex g : reachable L A ex g -> eg_clean g = true -> eg_pending g = [].
Proof.
  intros R%reachable_brun. eapply (clean_pending_brun _ _ _ _ _ R); [apply Inv_new|done].
Qed.

Lemma brun_explain P (g0 g : egraph) : brun L A P g0 g -> Inv g0 ->
  bool_decide (is_Some (eg_explain g)) = bool_decide (is_Some (eg_explain g0)).
Proof.
  intros R I.
  assert (Hpu : forall a b rule (g g' : egraph) o, uf_wf (eg_uf g) -> perform_union_core A a b rule g = Ok (g', o) ->
    is_Some (eg_explain g') <-> is_Some (eg_explain g)).
  { clear. intros a b rule g g' o I E. apply perform_union_core_spec in E as (_ & _ & Hs); auto.
    destruct Hs as [u ex' Hsame He Hex|id1 id2 k1 k2 dd did1 did2 u ex' Hids Hne E1 E2 Hlen Htie Hcid Hm Hw Hl Hf Hex]; cbn.
    - destruct (eg_explain g); [|by subst]. destruct rule as [[]|]; [|by subst|by subst]. destruct Hex as (? & ? & ->).
      split; eauto.
    - destruct (eg_explain g); [|by subst]. destruct Hex as (? & ? & ? & ? & ->). split; eauto. }
  revert I. induction R as [g|l g g1 Hpl HP Hp|g g1 g2 R1 IH1 R2 IH2|n g g1 id HP E|n g g1 id h g2 HP E R IH]; intros I.
  - done.
  - apply bool_decide_ext.
    destruct Hp as [n g g' id o E|g|n i g|a b r rule g g' o Hr E|c rest g g' o Ep E|id q g g' o Eq E
      |i d g g' r E|i d g g' E|i f g g' E|g Ep Eq]; try done.
    + eapply Hpu in E; [done|apply I].
    + unfold pending_core in E. inv_res. cbn in H0.
      destruct (canon_mut_spec (eg_uf g) x (iv_wf _ I)) as (u & Eu & He).
      { apply Forall_forall. intros k Hk. pose proof (ci_ch _ _ _ _ _ _ _ (iv_c _ I) _ _ _ H0 Hk).
        pose proof (lookup_lt_Some _ _ _ H0). rewrite <- (iv_len _ I). lia. }
      cbn in E. rewrite Eu in E. cbn in E. destruct (eg_memo g !! _); inv_res; [|done].
      eapply Hpu in E; [done|]. apply He.
    + unfold analysis_core, eg_find_mut in E. inv_res. cbn in *. destruct (uf_find_mut _ _). inv_res.
      destruct (an_merge A _ _) as [? [[] ?]]; inv_res; done.
    + unfold set_data_core, eg_find_mut in E. destruct (negb _); [done|]. destruct (uf_find_mut _ _). inv_res. done.
    + unfold poke_data, eg_find_mut in E. destruct (negb _); [done|]. destruct (uf_find_mut _ _). inv_res. done.
    + unfold retain_nodes, eg_find_mut in E. destruct (negb _); [done|]. destruct (uf_find_mut _ _). inv_res. done.
    + unfold rebuild_classes. by destruct (foldl _ _ _) as [[? ?] ?].
  - rewrite IH2 by (by eapply brun_Inv). by apply IH1.
  - cbn. apply add_core_spec in E as [_ Hs]; [|apply I]. apply bool_decide_ext.
    destruct Hs as [e id He Hid|e x x1 x2 u He Hx Hxn Hxa Hxu Hu|u cls' ex' Hm Hw Hl Hf Hcls Hex]; cbn; [done| |].
    + rewrite Hx. split; eauto.
    + destruct (eg_explain g); [|by subst]. destruct Hex as (? & ? & ->). split; eauto.
  - cbn. rewrite IH by (by eapply Inv_add).
    apply add_core_spec in E as [_ Hs]; [|apply I]. apply bool_decide_ext.
    destruct Hs as [e id He Hid|e x x1 x2 u He Hx Hxn Hxa Hxu Hu|u cls' ex' Hm Hw Hl Hf Hcls Hex]; cbn; [done| |].
    + rewrite Hx. split; eauto.
    + destruct (eg_explain g); [|by subst]. destruct Hex as (? & ? & ->). split; eauto.
Qed.
Lemma reach_explain ex g : reachable L A ex g -> bool_decide (is_Some (eg_explain g)) = ex.
Proof. intros R%reachable_brun. rewrite (brun_explain _ _ _ R (Inv_new ex)). by destruct ex. Qed.

(** ** C07, C08 *)
Lemma reach_sound ex g a b :
  reachable L A ex g -> known g a -> known g b -> eg_find g a = eg_find g b -> Cong (eg_log g) a b.
Proof.
  unfold known. intros R Ha Hb Hab. pose proof (reachable_Inv _ _ R) as I.
  apply reachable_hist in R as [Ht _]. apply congT_Cong; [done|].
  rewrite <- (iv_len _ I) in Ha, Hb.
  apply ct_trans with (eg_find g a); [by apply (ci_snd _ _ _ _ _ _ _ (iv_c _ I))|].
  rewrite Hab. apply ct_sym. by apply (ci_snd _ _ _ _ _ _ _ (iv_c _ I)).
Qed.

Lemma reach_complete ex g a b :
  reachable L A ex g -> eg_clean g = true -> Cong (eg_log g) a b -> eg_find g a = eg_find g b.
Proof.
  intros R Ec Hc. pose proof (reachable_Inv _ _ R) as I. pose proof (reachable_clean _ _ R Ec) as Ep.
  apply reachable_hist in R as [_ Hl].
  induction Hc as [i|i j _ IH|i j k _ IH1 _ IH2|x y r Hr|f cs ds i j Hi Hj El Hk IH].
  - done.
  - done.
  - congruence.
  - apply (ci_un _ _ _ _ _ _ _ (iv_c _ I)). by exists r.
  - destruct (Hl _ _ Hi) as (m & Hm & Em). destruct (Hl _ _ Hj) as (m' & Hm' & Em').
    eapply Inv_congruent; eauto. rewrite <- Em, <- Em'. by apply canonf_eq_intro.
Qed.

Lemma reach_dirty_union ex g a b r :
  reachable L A ex g -> EUnion a b r ∈ eg_log g -> eg_find g a = eg_find g b.
Proof.
  intros R Hr. pose proof (reachable_Inv _ _ R) as I.
  apply (ci_un _ _ _ _ _ _ _ (iv_c _ I)). by exists r.
Qed.

(** ** Class contents *)
Lemma reach_listed ex g : reachable_np L A ex g -> listed g.
Proof.
  intros R%reachable_np_brun. eapply (listed_brun L A unpruned); [by intros Hx|exact R|apply Inv_new|].
  intros k m Hk. done.
Qed.
Lemma reach_indexed ex g : reachable_np L A ex g -> eg_clean g = true -> indexed L g.
Proof.
  intros R%reachable_np_brun. eapply (clean_indexed_brun L A unpruned); [by intros Hx|exact R|apply Inv_new|].
  done.
Qed.
Lemma reach_canonical ex g : lang_ok L -> reachable L A ex g -> eg_clean g = true -> canonical L g.
Proof.
  intros Lo R%reachable_brun. eapply (clean_canonical_brun L A any); [done|exact R|apply Inv_new|done].
Qed.

Lemma canonf_children (g : egraph) (n m : node) :
  nop n = nop m -> (same_children g (nch n) (nch m) <-> canonf (eg_find g) n = canonf (eg_find g) m).
Proof.
  intros Eo. unfold same_children. split.
  - intros Hf. apply canonf_eq_intro; [done|by eapply Forall2_length|].
    intros k c d Hc Hd. by eapply (Forall2_lookup_lr _ _ _ _ _ _ Hf).
  - intros E. apply canonf_eq_inv in E as (_ & El & Hk). apply Forall2_same_length_lookup_2; [done|].
    intros k c d Hc Hd. by eapply Hk.
Qed.

Lemma reach_contents_sound ex g r c n :
  reachable L A ex g -> eg_classes g !! r = Some c -> n ∈ c_nodes c ->
  exists cs i, EAdd (Node (nop n) cs) i ∈ eg_log g /\ same_children g (nch n) cs /\ eg_find g i = r.
Proof.
  intros R Hr Hn. pose proof (reachable_Inv _ _ R) as I.
  destruct (ci_nodes _ _ _ _ _ _ _ (iv_c _ I) _ _ _ Hr Hn) as (k & m & Hk & Hm & Em).
  destruct (reachable_hist _ _ R) as [Ht _].
  assert (Eo : nop n = nop m) by (by apply canonf_eq_inv in Em as (? & _)).
  exists (nch m), k. split_and!; [|by apply (canonf_children g n m)|done].
  rewrite Eo. destruct m. by apply Ht.
Qed.
Lemma reach_contents_complete ex g m i :
  reachable_np L A ex g -> EAdd m i ∈ eg_log g ->
  exists c n, eg_classes g !! eg_find g i = Some c /\ n ∈ c_nodes c /\ nop n = nop m /\ same_children g (nch n) (nch m).
Proof.
  intros R Hi. pose proof (reach_listed _ _ R) as Hls.
  destruct (reachable_hist _ _ (reachable_np_reachable _ _ R)) as [_ Hl].
  destruct (Hl _ _ Hi) as (m' & Hm' & Em). destruct (Hls _ _ Hm') as (c & n & Hc & Hn & En).
  exists c, n. rewrite <- Em in En. split_and!; auto.
  - by apply canonf_eq_inv in En as (? & _).
  - apply canonf_children; [|done]. by apply canonf_eq_inv in En as (? & _).
Qed.

Lemma reach_disjoint ex g r r' c c' n :
  reachable L A ex g -> eg_clean g = true ->
  eg_classes g !! r = Some c -> n ∈ c_nodes c -> eg_classes g !! r' = Some c' -> n ∈ c_nodes c' -> r = r'.
Proof.
  intros R Ec Hr Hn Hr' Hn'. pose proof (reachable_Inv _ _ R) as I. pose proof (reachable_clean _ _ R Ec) as Ep.
  destruct (ci_nodes _ _ _ _ _ _ _ (iv_c _ I) _ _ _ Hr Hn) as (k & m & Hk & Hm & Em).
  destruct (ci_nodes _ _ _ _ _ _ _ (iv_c _ I) _ _ _ Hr' Hn') as (k' & m' & Hk' & Hm' & Em').
  rewrite <- Hm, <- Hm'. eapply Inv_congruent; eauto. congruence.
Qed.

Lemma reach_class_ids ex g r :
  reachable L A ex g -> is_Some (eg_classes g !! r) <-> known g r /\ eg_find g r = r.
Proof.
  intros R. pose proof (reachable_Inv _ _ R) as I.
  rewrite (ci_cls _ _ _ _ _ _ _ (iv_c _ I)). unfold known. by rewrite (iv_len _ I).
Qed.

(** ** Lookup *)
Lemma Inv_memo_clean (g : egraph) n : Inv g -> eg_pending g = [] ->
  (forall r, eg_lookup g n = Some r <->
    exists k m, eg_nodes g !! k = Some m /\ canonf (eg_find g) m = canonf (eg_find g) n /\ r = eg_find g k).
Proof.
  intros I Ep r. unfold eg_lookup, lookup_internal. rewrite canon_canonf. split.
  - intros (e & He & ->)%fmap_Some. destruct (ci_memo _ _ _ _ _ _ _ (iv_c _ I) _ _ He) as (m & Hm & Em).
    exists e, m. split_and!; auto. rewrite <- Em. apply canonf_canonf. intros. by apply Inv_find_idem.
  - intros (k & m & Hk & Em & ->). pose proof (ci_mem _ _ _ _ _ _ _ (iv_c _ I)) as Hm. rewrite Ep in Hm.
    destruct (Hm k m Hk) as [(x & Hx & Ex)|[(q & Hq & _)|[]]]; [|by apply elem_of_nil in Hq].
    rewrite Em in Hx. rewrite Hx. cbn. congruence.
Qed.

Lemma reach_lookup ex g n r :
  reachable L A ex g -> eg_clean g = true ->
  eg_lookup g n = Some r <->
  exists cs i, EAdd (Node (nop n) cs) i ∈ eg_log g /\ same_children g (nch n) cs /\ r = eg_find g i.
Proof.
  intros R Ec. pose proof (reachable_Inv _ _ R) as I. pose proof (reachable_clean _ _ R Ec) as Ep.
  rewrite Inv_memo_clean by done. destruct (reachable_hist _ _ R) as [Ht Hl]. split.
  - intros (k & m & Hk & Em & ->). assert (Eo : nop m = nop n) by (by apply canonf_eq_inv in Em as (? & _)).
    exists (nch m), k. split_and!; [|by apply (canonf_children g n m)|done]. rewrite <- Eo. destruct m. by apply Ht.
  - intros (cs & i & Hi & Hs & ->). destruct (Hl _ _ Hi) as (m & Hm & Em). exists i, m. split_and!; auto.
    rewrite <- Em. symmetry. by apply canonf_children.
Qed.

(** ** Growth *)
Lemma run_grows ex g fuel p g' :
  reachable L A ex g -> run_prog L A fuel (modify_n L A fuel) p g = Ok g' -> grows g g'.
Proof.
  intros R E. eapply grows_brun; [|by eapply reachable_Inv].
  eapply run_prog_runs with (P := any); [apply modify_n_runs|apply prog_in_any|exact E]; intros; apply prog_in_any.
Qed.
Lemma run_mono ex g fuel p g' a b :
  reachable L A ex g -> run_prog L A fuel (modify_n L A fuel) p g = Ok g' ->
  eg_find g a = eg_find g b -> eg_find g' a = eg_find g' b.
Proof. intros R E. apply coarser_eq. by apply (run_grows _ _ _ _ _ R E). Qed.
Lemma run_known ex g fuel p g' a :
  reachable L A ex g -> run_prog L A fuel (modify_n L A fuel) p g = Ok g' -> known g a -> known g' a.
Proof.
  intros R E. destruct (run_grows _ _ _ _ _ R E) as [_ (l & Hl) _]. unfold known.
  assert (R' : reachable L A ex g') by (by eapply reach_run).
  rewrite <- (iv_len _ (reachable_Inv _ _ R)), <- (iv_len _ (reachable_Inv _ _ R')), Hl, app_length. lia.
Qed.
End reach.
