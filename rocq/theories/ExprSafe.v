(** Adding expressions and pattern instances never panics on well-formed input. *)
From Verif Require Import Base UnionFind EGraphModel EGraphSteps EGraphInv EGraphPres EGraphRuns Spec EGraphMain
  EGraphReach EGraphSafe EGraphNoPanic Terms RecExprModel RecExprProofs ExprModel PatSpec ExprProofs.

Section safe.
Context {Op D : Type} `{Countable Op}.
Notation node := (node Op).
Notation pnode := (pnode Op).
Notation egraph := (egraph Op D).
Context (L : lang Op) (A : analysis Op D).
Implicit Types (g : egraph) (p : list pnode).

(** Every variable of the pattern is bound to an id of the e-graph. *)
Definition bound_in g (s : subst) (p : list pnode) : Prop :=
  forall j v cs, p !! j = Some (Node (PVar v) cs) -> exists i, subst_get s v = Some i /\ known g i.

Lemma bound_in_next g g' s p : good g -> next L A g g' -> bound_in g s p -> bound_in g' s p.
Proof.
  intros G N B j v cs Hj. destruct (B j v cs Hj) as (i & Hi & Hk). exists i. split; [done|].
  pose proof (next_size _ _ g g' G N) as Hs. unfold known, size in *. lia.
Qed.

Lemma map_children_ids (f : Op) cs (ids : list nat) k :
  (forall c, c ∈ cs -> c < length ids) -> Forall (fun i => i < k) ids ->
  exists m : node, map_children_o (fun c => ids !! c) (Node f cs) = Ok m /\ nop m = f /\ (forall c, c ∈ nch m -> c < k).
Proof.
  intros Hc Hk. destruct (mapM_Some_2' (fun c => ids !! c) cs) as (ds & Em & Hds).
  { intros c Hin. apply lookup_lt_is_Some_2. auto. }
  exists (Node f ds). unfold map_children_o. cbn [nch nop]. rewrite Em. split_and!; [done|done|].
  cbn. intros d Hd. destruct (elem_of_list_lookup_1 _ _ Hd) as [q Hq].
  destruct (Forall2_lookup_r _ _ _ _ _ Hds Hq) as (c & _ & Hc'). rewrite Forall_forall in Hk.
  apply Hk. by eapply elem_of_list_lookup_2.
Qed.

Section loops.
Context (md : nat -> egraph -> res egraph) (Hm : md_good L A md).
Lemma Forall_size g g' ids : good g -> next L A g g' -> Forall (fun i => i < size g) ids -> Forall (fun i => i < size g') ids.
Proof. intros G N Hf. eapply Forall_impl; [exact Hf|]. cbn. intros i ?. pose proof (next_size _ _ g g' G N). lia. Qed.

Lemma add_inst_loop_good p0 p s ids g :
  dag p0 -> (exists pre, p0 = pre ++ p /\ length pre = length ids) -> good g -> bound_in g s p0 ->
  Forall (fun i => i < size g) ids ->
  okP (add_inst_loop A md p s ids g) (fun '(g', ids') => next L A g g' /\ Forall (fun i => i < size g') ids' /\ length ids' = length p0).
Proof.
  intros Hd. revert ids g. induction p as [|[o cs] p IH]; intros ids g (pre & Hpre & Hl) G B Hids; cbn [add_inst_loop].
  - cbn. split_and!; [by apply next_refl|done|]. subst. by rewrite app_nil_r.
  - assert (Hp : p0 !! length ids = Some (Node o cs)) by (rewrite Hpre, <- Hl; by apply list_lookup_middle).
    assert (Hpre' : forall i, exists pre0, p0 = pre0 ++ p /\ length pre0 = length (ids ++ [i])).
    { intros i. exists (pre ++ [Node o cs]). rewrite <- app_assoc, !app_length. cbn. split; [done|lia]. }
    cbn [nop nch]. destruct o as [f|v].
    + destruct (map_children_ids f cs ids (size g)) as (m & -> & _ & Hmc); [|done|].
      { intros c Hc. exact (Hd _ _ c Hp Hc). }
      cbn [mbind res_bind]. eapply okP_bind; [by apply (api_add_good L A)|]. intros [g1 i] [N Hi].
      eapply okP_impl; [apply IH|]; [apply Hpre'|apply N|by eapply bound_in_next| |].
      * apply Forall_app. split; [by eapply Forall_size|by constructor].
      * intros [g2 ids'] (N2 & ? & ?). split_and!; auto. by eapply next_trans.
    + destruct (B _ _ _ Hp) as (i & Hi & Hk). unfold subst_index. rewrite Hi. cbn [expect mbind res_bind].
      unfold find_res. assert (valid_id g i = true) as -> by (by apply Nat.ltb_lt). cbn [mbind res_bind].
      apply IH; auto. apply Forall_app. split; [done|]. constructor; [|done].
      apply uf_find_lt; [apply G|done].
Qed.
Lemma apply_pat_loop_good p0 p s ids g :
  dag p0 -> (exists pre, p0 = pre ++ p /\ length pre = length ids) -> good g -> bound_in g s p0 ->
  Forall (fun i => i < size g) ids ->
  okP (apply_pat_loop A md p s ids g) (fun '(g', ids') => next L A g g' /\ Forall (fun i => i < size g') ids' /\ length ids' = length p0).
Proof.
  intros Hd. revert ids g. induction p as [|[o cs] p IH]; intros ids g (pre & Hpre & Hl) G B Hids; cbn [apply_pat_loop].
  - cbn. split_and!; [by apply next_refl|done|]. subst. by rewrite app_nil_r.
  - assert (Hp : p0 !! length ids = Some (Node o cs)) by (rewrite Hpre, <- Hl; by apply list_lookup_middle).
    assert (Hpre' : forall i, exists pre0, p0 = pre0 ++ p /\ length pre0 = length (ids ++ [i])).
    { intros i. exists (pre ++ [Node o cs]). rewrite <- app_assoc, !app_length. cbn. split; [done|lia]. }
    cbn [nop nch]. destruct o as [f|v].
    + destruct (map_children_ids f cs ids (size g)) as (m & -> & _ & Hmc); [|done|].
      { intros c Hc. exact (Hd _ _ c Hp Hc). }
      cbn [mbind res_bind]. eapply okP_bind; [by apply (api_add_good L A)|]. intros [g1 i] [N Hi].
      eapply okP_impl; [apply IH|]; [apply Hpre'|apply N|by eapply bound_in_next| |].
      * apply Forall_app. split; [by eapply Forall_size|]. constructor; [|done]. apply uf_find_lt; [apply N|done].
      * intros [g2 ids'] (N2 & ? & ?). split_and!; auto. by eapply next_trans.
    + destruct (B _ _ _ Hp) as (i & Hi & Hk). unfold subst_index. rewrite Hi. cbn [expect mbind res_bind].
      apply IH; auto. apply Forall_app. split; [done|]. by constructor.
Qed.
Lemma last_ok {X} (l : list X) k (P : X -> Prop) : l <> [] \/ 0 < k -> length l = k -> Forall P l -> exists i, last l = Some i /\ P i.
Proof.
  intros Hne Hl HP. destruct (last l) as [i|] eqn:E.
  - exists i. split; [done|]. rewrite last_lookup in E. rewrite Forall_lookup in HP. eauto.
  - apply last_None in E as ->. cbn in Hl. destruct Hne; [done|lia].
Qed.
Lemma add_inst_good p s g : dag p -> p <> [] -> good g -> bound_in g s p ->
  okP (add_instantiation_noncanonical A md p s g) (fun '(g', i) => next L A g g' /\ i < size g').
Proof.
  intros Hd Hne G B. unfold add_instantiation_noncanonical. eapply okP_bind.
  - eapply (add_inst_loop_good p p s [] g); auto. by exists [].
  - intros [g1 ids] (N & Hids & Hl). destruct (last_ok ids (length p) (fun i => i < size g1)) as (i & -> & Hi); auto.
    { right. destruct p; [done|cbn; lia]. }
    cbn. auto.
Qed.
Lemma apply_pat_good p s g : dag p -> p <> [] -> good g -> bound_in g s p ->
  okP (apply_pat A md p s g) (fun '(g', i) => next L A g g' /\ i < size g').
Proof.
  intros Hd Hne G B. unfold apply_pat. eapply okP_bind.
  - eapply (apply_pat_loop_good p p s [] g); auto. by exists [].
  - intros [g1 ids] (N & Hids & Hl). destruct (last_ok ids (length p) (fun i => i < size g1)) as (i & -> & Hi); auto.
    { right. destruct p; [done|cbn; lia]. }
    cbn. auto.
Qed.
End loops.

Lemma embed_dag (e : list node) : dag e -> dag (embed_node <$> e).
Proof.
  intros Hd i n c Hi Hc. rewrite list_lookup_fmap in Hi. apply fmap_Some in Hi as (m & Hm & ->). cbn in Hc. by eapply Hd.
Qed.
Lemma embed_bound g s (e : list node) : bound_in g s (embed_node <$> e).
Proof.
  intros j v cs Hj. rewrite list_lookup_fmap in Hj. apply fmap_Some in Hj as (m & _ & E). by inversion E.
Qed.
Lemma add_expr_no_panic ex fuel (e : list node) g :
  reachable L A ex g -> (forall id N, id < N -> uses_known N (an_modify A id)) -> dag e -> e <> [] ->
  add_expr A (modify_n L A fuel) e g <> Panic.
Proof.
  intros R Hh Hd Hne E. unfold add_expr, add_expr_uncanonical in E. rewrite (add_expr_loop_inst _ _ _ []) in E.
  pose proof (add_inst_loop_good _ (modify_n_good L A fuel Hh) (embed_node <$> e) (embed_node <$> e) [] [] g (embed_dag e Hd)) as HG.
  destruct (add_inst_loop A (modify_n L A fuel) (embed_node <$> e) [] [] g) as [[g1 ids]| |]; cbn in HG.
  - destruct HG as (_ & Hids & Hl); auto.
    + by exists [].
    + by eapply reachable_good.
    + apply embed_bound.
    + destruct (last_ok ids (length e) (fun i => i < size g1)) as (i & Hi & _); auto.
      { right. destruct e; [done|cbn; lia]. }
      { by rewrite fmap_length in Hl. }
      cbn in E. by rewrite Hi in E.
  - apply HG; auto.
    + by exists [].
    + by eapply reachable_good.
    + apply embed_bound.
  - done.
Qed.
End safe.
