(** The unions recorded in the proof forest are those of the history. *)
From Verif Require Import Base UnionFind EGraphModel EGraphSteps EGraphInv EGraphPres EGraphRuns Spec EGraphMain EGraphReach EGraphOps EGraphSafe
  EGraphNoPanic EGraphDebug ExplainForest ExplainModel.

Section cover.
Context {Op D : Type} `{Countable Op} (L : lang Op) (A : analysis Op D).
Notation egraph := (egraph Op D).
Notation node := (node Op).
Notation explain := (explain Op).
Implicit Types (g : egraph) (x : explain).

Lemma elem_of_ue x a b r : (a, b, r) ∈ union_equalities x <-> exists i, Conn b a (JRule r) true ∈ nbs (ex_find x) i.
Proof.
  unfold union_equalities, nbs. rewrite elem_of_list_bind. split.
  - intros (nd & Hc & Hnd). apply elem_of_list_bind in Hc as ([nx cu j f] & Hc & Hin). cbn in Hc. destruct j as [r'|]; [|by apply elem_of_nil in Hc].
    destruct f; [|by apply elem_of_nil in Hc]. apply elem_of_list_singleton in Hc as [= -> -> ->].
    apply elem_of_list_lookup in Hnd as [i Hi]. exists i. by rewrite Hi.
  - intros (i & Hi). destruct (ex_find x !! i) as [nd|] eqn:Hnd; cbn in Hi; [|by apply elem_of_nil in Hi].
    exists nd. split; [|by eapply elem_of_list_lookup_2]. apply elem_of_list_bind. eexists. split; [|exact Hi]. cbn. by left.
Qed.
(** a union between the two ids is recorded, in one direction *)
Definition covered x a b : Prop := exists r, (a, b, r) ∈ union_equalities x \/ (b, a, r) ∈ union_equalities x.
Definition covers (h : list (event Op)) x : Prop :=
  (forall a b r, EUnion a b r ∈ h -> a <> b -> covered x a b) /\ (forall a b c n, ex_short x !! (a, b) = Some (c, n) -> covered x a b).
Definition Cov g : Prop := forall x, eg_explain g = Some x -> covers (eg_log g) x.

Lemma covered_mono x x' a b : (forall i c, c ∈ nbs (ex_find x) i -> c ∈ nbs (ex_find x') i) -> covered x a b -> covered x' a b.
Proof. intros Hs (r & Hr). exists r. rewrite !elem_of_ue in *. destruct Hr as [[i Hi]|[i Hi]]; [left|right]; exists i; auto. Qed.
Lemma covered_sym x a b : covered x a b -> covered x b a.
Proof. intros (r & Hr). exists r. tauto. Qed.
Lemma covers_same h x x' : (forall i c, c ∈ nbs (ex_find x) i -> c ∈ nbs (ex_find x') i) -> ex_short x' = ex_short x -> covers h x -> covers h x'.
Proof. intros Hs He [H1 H2]. split; [intros a b r Hab Hne; exact (covered_mono x x' a b Hs (H1 a b r Hab Hne))|]. rewrite He. intros a b c n E. exact (covered_mono x x' a b Hs (H2 a b c n E)). Qed.
Lemma covers_add h x n k x' : ex_add x n k = Ok x' -> covers h x -> covers h x'.
Proof.
  intros E. unfold ex_add in E. destruct (_ =? k); [|done]. injection E as <-. apply (covers_same h x); [|done]. cbn. intros i c. unfold nbs.
  destruct (ex_find x !! i) as [nd|] eqn:Hnd; cbn; [|by intros ?%elem_of_nil]. by rewrite (lookup_app_l_Some _ _ _ _ Hnd).
Qed.
Lemma covers_log h x a b r : covers h x -> covered x a b -> covers (EUnion a b r :: h) x.
Proof. intros [H1 H2] Hc. split; [|done]. intros a' b' r' [[= -> -> ->]|Hin]%elem_of_cons Hne; [done|eauto]. Qed.

(** pushing the two connections of a new edge *)
Lemma push_pair f n1 n2 j y z i : f !! n1 = Some y -> <[n1 := xn_push (Conn n2 n1 j true) y]> f !! n2 = Some z ->
  nbs (<[n2 := xn_push (Conn n1 n2 j false) z]> (<[n1 := xn_push (Conn n2 n1 j true) y]> f)) i =
  (if decide (i = n2) then (if decide (i = n1) then nbs f i ++ [Conn n2 n1 j true] else nbs f i) ++ [Conn n1 n2 j false]
   else if decide (i = n1) then nbs f i ++ [Conn n2 n1 j true] else nbs f i).
Proof. intros Hy Hz. erewrite nbs_push by eauto. by erewrite nbs_push by eauto. Qed.
Lemma push_pair_sub f n1 n2 j y z i c : f !! n1 = Some y -> <[n1 := xn_push (Conn n2 n1 j true) y]> f !! n2 = Some z ->
  c ∈ nbs f i -> c ∈ nbs (<[n2 := xn_push (Conn n1 n2 j false) z]> (<[n1 := xn_push (Conn n2 n1 j true) y]> f)) i.
Proof. intros Hy Hz Hc. rewrite (push_pair f n1 n2 j y z i Hy Hz). repeat case_decide; set_solver. Qed.
Lemma push_pair_new f n1 n2 j y z : f !! n1 = Some y -> <[n1 := xn_push (Conn n2 n1 j true) y]> f !! n2 = Some z ->
  Conn n2 n1 j true ∈ nbs (<[n2 := xn_push (Conn n1 n2 j false) z]> (<[n1 := xn_push (Conn n2 n1 j true) y]> f)) n1.
Proof. intros Hy Hz. rewrite (push_pair f n1 n2 j y z n1 Hy Hz). repeat case_decide; set_solver. Qed.

Lemma covers_ex_union h x n1 n2 j x' : ex_union x n1 n2 j = Ok x' -> covers h x ->
  covers h x' /\ forall r, j = JRule r -> covered x' n1 n2.
Proof.
  intros E [H1 H2]. unfold ex_union in E. destruct (make_leader _ _ _) as [f0| |] eqn:El; [|done|done]. cbn [mbind res_bind] in E.
  destruct (f0 !! n1) as [y|] eqn:Hy; [|done]. cbn [expect mbind res_bind] in E.
  destruct (<[n1:=_]> f0 !! n2) as [z|] eqn:Hz; [|done]. cbn [expect mbind res_bind] in E.
  destruct (<[n2:=_]> _ !! n1) as [w|] eqn:Hw; [|done]. cbn [expect mbind res_bind] in E. injection E as <-.
  pose proof (make_leader_nbs _ _ _ _ El) as Hn0.
  set (f2 := <[n2:=_]> (<[n1:=xn_push _ y]> f0)) in *.
  assert (Hn : forall i, nbs (<[n1:=xn_set_parent (Conn n2 n1 j true) w]> f2) i = nbs f2 i) by (by apply nbs_insert_same with w).
  assert (Hsub : forall i c, c ∈ nbs (ex_find x) i -> c ∈ nbs (<[n1:=xn_set_parent (Conn n2 n1 j true) w]> f2) i).
  { intros i c Hc. rewrite Hn. eapply push_pair_sub; eauto. by rewrite Hn0. }
  assert (Hnew : forall r s, j = JRule r -> covered (Explain (<[n1:=xn_set_parent (Conn n2 n1 j true) w]> f2) (ex_memo x) s) n1 n2).
  { intros r s ->. exists r. left. apply elem_of_ue. exists n1. cbn [ex_find]. rewrite Hn. by eapply push_pair_new. }
  split; [|intros r Hr; exact (Hnew r _ Hr)]. split.
  - intros a b r Hab Hne. eapply covered_mono; [|by eapply H1]. exact Hsub.
  - cbn [ex_short]. intros a b c n Hs.
    assert (Ho : ex_short x !! (a, b) = Some (c, n) -> covered (Explain (<[n1:=xn_set_parent (Conn n2 n1 j true) w]> f2) (ex_memo x)
      (match j with JRule _ => <[(n2, n1) := (1, n1)]> (<[(n1, n2) := (1, n2)]> (ex_short x)) | JCong => ex_short x end)) a b).
    { intros Ho. eapply covered_mono; [|by eapply H2]. exact Hsub. }
    destruct j as [r|]; [|by apply Ho].
    apply lookup_insert_Some in Hs as [[[= <- <-] _]|[_ Hs]]; [apply covered_sym; by eapply Hnew|].
    apply lookup_insert_Some in Hs as [[[= <- <-] _]|[_ Hs]]; [by eapply Hnew|]. by apply Ho.
Qed.
Lemma covers_alternate h x n1 n2 r x' : alternate_rewrite x n1 n2 (JRule r) = Ok x' -> covers h x ->
  covers h x' /\ (n1 <> n2 -> covered x' n1 n2).
Proof.
  intros E [H1 H2]. unfold alternate_rewrite in E. case_decide as Hd; [by inv_res|].
  assert (Hgo : (a ← expect (ex_find x !! n1);
    let f1 := <[n1 := xn_push (Conn n2 n1 (JRule r) true) a]> (ex_find x) in
    b ← expect (f1 !! n2);
    let f2 := <[n2 := xn_push (Conn n1 n2 (JRule r) false) b]> f1 in
    Ok (Explain f2 (ex_memo x) (<[(n2, n1) := (1, n1)]> (<[(n1, n2) := (1, n2)]> (ex_short x))))) = Ok x' ->
    covers h x' /\ (n1 <> n2 -> covered x' n1 n2)).
  { clear E. intros E. destruct (ex_find x !! n1) as [y|] eqn:Hy; [|done]. cbn [expect mbind res_bind] in E.
    destruct (<[n1:=_]> (ex_find x) !! n2) as [z|] eqn:Hz; [|done]. cbn [expect mbind res_bind] in E. injection E as <-.
    set (f2 := <[n2:=_]> (<[n1:=xn_push _ y]> (ex_find x))) in *.
    assert (Hsub : forall i c, c ∈ nbs (ex_find x) i -> c ∈ nbs f2 i) by (intros i c Hc; by eapply push_pair_sub).
    assert (Hnew : forall s, covered (Explain f2 (ex_memo x) s) n1 n2).
    { intros s. exists r. left. apply elem_of_ue. exists n1. by eapply push_pair_new. }
    split; [|intros _; apply Hnew]. split.
    - intros a b r' Hab Hne. eapply covered_mono; [|by eapply H1]. exact Hsub.
    - cbn [ex_short]. intros a b c n Hs.
      apply lookup_insert_Some in Hs as [[[= <- <-] _]|[_ Hs]]; [apply covered_sym, Hnew|].
      apply lookup_insert_Some in Hs as [[[= <- <-] _]|[_ Hs]]; [apply Hnew|]. eapply covered_mono; [|by eapply H2]. exact Hsub. }
  destruct (ex_short x !! (n1, n2)) as [[[|[|k]] nx]|] eqn:Es; [| |by apply Hgo|by apply Hgo];
    injection E as <-; (split; [by split|intros _; by eapply H2]).
Qed.
Lemma covers_irrel h e x : (forall a b r, e <> EUnion a b r) -> covers h x -> covers (e :: h) x.
Proof. intros He [H1 H2]. split; [|done]. intros a b r [Hx|Hin]%elem_of_cons; [by destruct (He a b r)|eauto]. Qed.

Lemma Cov_same g g' : eg_explain g' = eg_explain g -> eg_log g' = eg_log g -> Cov g -> Cov g'.
Proof. intros Ee El C x. rewrite Ee, El. apply C. Qed.
Lemma Cov_add n g g' id o : Inv g -> add_core A n g = Ok (g', id, o) -> Cov g -> Cov g'.
Proof.
  intros I E C. apply add_core_spec in E as [_ Hs]; [|apply I].
  destruct Hs as [e id He Hid|e x x1 x2 u He Hx Hxn Hxa Hxu Hu|u cls' ex' Hm Hw Hl Hf Hcls Hex]; [done| |].
  - intros y Hy. cbn in Hy. injection Hy as <-. cbn. eapply covers_ex_union; [done|]. eapply covers_add; [done|]. by apply C.
  - intros y Hy. cbn in Hy. cbn. destruct (eg_explain g) as [x|] eqn:Ex; [|by subst]. destruct Hex as (x' & Ex' & ->).
    injection Hy as ->. eapply covers_add; [done|]. by apply C.
Qed.
(** a union that is not logged (congruence) *)
Lemma Cov_cong a b g g' o : uf_wf (eg_uf g) -> perform_union_core A a b (Some JCong) g = Ok (g', o) -> Cov g -> Cov g'.
Proof.
  intros Hw E C. apply perform_union_core_spec in E as (_ & _ & Hs); [|done].
  destruct Hs as [u ex' Hsame He Hex|id1 id2 k1 k2 dd did1 did2 u ex' Hids Hne E1 E2 Hlen Htie Hcid Hm Hw' Hl Hf Hex]; intros y Hy; cbn in Hy; cbn.
  - apply C. rewrite <- Hy. by destruct (eg_explain g).
  - destruct (eg_explain g) as [x|] eqn:Ex; [|by subst]. destruct Hex as (j & x' & _ & Eu & ->). injection Hy as ->.
    eapply covers_ex_union; [done|]. by apply C.
Qed.
Lemma Cov_union a b r rule g g' o : uf_wf (eg_uf g) -> (rule = None /\ eg_explain g = None) \/ rule = Some (JRule r) ->
  perform_union_core A a b rule (add_log (EUnion a b r) g) = Ok (g', o) -> Cov g -> Cov g'.
Proof.
  intros Hw Hr E C. apply perform_union_core_spec in E as (_ & _ & Hs); [|done].
  destruct Hs as [u ex' Hsame He Hex|id1 id2 k1 k2 dd did1 did2 u ex' Hids Hne E1 E2 Hlen Htie Hcid Hm Hw' Hl Hf Hex]; intros y Hy; cbn in Hy, Hex; cbn.
  - destruct (eg_explain g) as [x|] eqn:Ex; [|by subst]. destruct Hr as [[_ ?]| ->]; [done|]. destruct Hex as (x' & Ea & ->). injection Hy as ->.
    destruct (covers_alternate (eg_log g) _ _ _ _ _ Ea) as [Hc Hn]; [by apply C|].
    split; [|apply Hc]. intros a' b' r' [[= -> -> ->]|Hin]%elem_of_cons Hne; [by apply Hn|]. destruct Hc as [Hc _]. by eapply Hc.
  - destruct (eg_explain g) as [x|] eqn:Ex; [|by subst]. destruct Hr as [[_ ?]| ->]; [done|]. destruct Hex as (j & x' & [= <-] & Eu & ->). injection Hy as ->.
    destruct (covers_ex_union (eg_log g) _ _ _ _ _ Eu) as [Hc Hn]; [by apply C|]. apply covers_log; [done|]. by eapply Hn.
Qed.
Lemma Cov_brun P g0 g : brun L A P g0 g -> Inv g0 -> Cov g0 -> Cov g.
Proof.
  induction 1 as [g|l g g1 Hpl HP Hp|g g1 g2 R1 IH1 R2 IH2|n g g1 id HP E|n g g1 id h g2 HP E R IH]; intros I C.
  - done.
  - destruct Hp as [n g g' id o E|g|n i g|a b r rule g g' o Hr E|c rest g g' o Ep E|id q g g' o Eq E
      |i d g g' r E|i d g g' E|i f g g' E|g Ep Eq]; try done; try (by apply (Cov_same g)).
    + eapply Cov_union; [apply I|exact Hr|exact E|done].
    + unfold pending_core in E. inv_res. cbn in H0.
      destruct (canon_mut_spec (eg_uf g) x (iv_wf _ I)) as (u & Eu & He).
      { apply Forall_forall. intros k Hk. pose proof (ci_ch _ _ _ _ _ _ _ (iv_c _ I) _ _ _ H0 Hk).
        pose proof (lookup_lt_Some _ _ _ H0). rewrite <- (iv_len _ I). lia. }
      cbn in E. rewrite Eu in E. cbn in E. destruct (eg_memo g !! _); inv_res; [|by apply (Cov_same g)].
      eapply Cov_cong in E; [exact E|apply He|by apply (Cov_same g)].
    + unfold analysis_core, eg_find_mut in E. inv_res. cbn in *. destruct (uf_find_mut _ _). inv_res.
      destruct (an_merge A _ _) as [? [[] ?]]; inv_res; by apply (Cov_same g).
    + unfold set_data_core, eg_find_mut in E. destruct (negb _); [done|]. destruct (uf_find_mut _ _). inv_res. by apply (Cov_same g).
    + unfold poke_data, eg_find_mut in E. destruct (negb _); [done|]. destruct (uf_find_mut _ _). inv_res. by apply (Cov_same g).
    + unfold retain_nodes, eg_find_mut in E. destruct (negb _); [done|]. destruct (uf_find_mut _ _). inv_res. by apply (Cov_same g).
    + unfold rebuild_classes. destruct (foldl _ _ _) as [[? ?] ?]. by apply (Cov_same g).
  - apply IH2; [by eapply brun_Inv|]. by apply IH1.
  - assert (C1 : Cov g1) by (by eapply Cov_add). intros x Hx. cbn. apply covers_irrel; [done|]. by apply C1.
  - assert (C2 : Cov g2) by (apply IH; [by eapply Inv_add|by eapply Cov_add]). intros x Hx. cbn. apply covers_irrel; [done|]. by apply C2.
Qed.
Lemma reach_Cov ex g : reachable L A ex g -> Cov g.
Proof.
  intros R%reachable_brun. eapply Cov_brun; [exact R|apply Inv_new|]. intros x Hx. destruct ex; [|done]. injection Hx as <-.
  split; [intros a b r Hab; by apply elem_of_nil in Hab|intros a b c n Hs; by vm_compute in Hs].
Qed.
(** the recorded unions were asserted *)
Lemma reach_ue_sound ex g x a b r : reachable L A ex g -> eg_explain g = Some x -> (a, b, r) ∈ union_equalities x -> EUnion a b r ∈ eg_log g.
Proof.
  intros R Hx (i & Hi)%elem_of_ue. destruct (forest_reach L A ex g x R Hx) as (_ & _ & _ & Hn).
  unfold nbs in Hi. destruct (ex_find x !! i) as [nd|] eqn:Hnd; cbn in Hi; [|by apply elem_of_nil in Hi].
  destruct (Hn i nd _ Hnd Hi) as [Hc Hj]. cbn in Hc, Hj. subst i. done.
Qed.
End cover.
